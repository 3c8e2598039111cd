(** Proofs about assembled friction: the Jacobian as derivative of the force on the vertices. *)
From Coq Require Import Reals List Bool Lra Lia Sorting.Sorted.
From Coquelicot Require Import Coquelicot.
From Verif Require Import Vec3 Mat3 RList KernelModel KernelSpec FieldModel FieldSpec FieldProofs NeighborModel NeighborSpec NeighborProofs UpdateProps SurfJacModel SurfJacSpec SurfJacProofs HessModel HessSpec HessMixProofs SurfHessSpec ContactModel ContactJacModel ContactJacSpec ContactJacProps ContactMapModel ContactMapSpec ContactMapProofs
  AssemblyModel ContactAsmModel ContactAsmSpec ContactAsmProofs ContactAsmProps ContactDerivModel ContactDerivSpec ContactDerivRowProofs ContactDerivProps BasisJacModel BasisJacSpec BasisJacProofs
  ContactHessModel ContactHessSpec ContactHessProofs ContactRowProofs ContactMoveProofs FrictionModel FrictionSpec FricAsmModel FricAsmSpec FricForceSpec FricAlgProofs FricCurveProofs FricStateProofs FricActProofs FricFormProofs FricMoveProofs FricJacProofs.
From Verif Require Import SurfHessProps.
From Verif Require MassProofs ElasticModel.
Import ListNotations.
Local Open Scope R_scope.

Lemma reached_facts iamax ord n s : lists_the_set ord -> reached iamax ord n s -> contact_shape (fs_contact s) n /\ in_place (cbase (fs_contact s)) /\ described iamax ord (fs_contact s) n s.
Proof.
  intros OK. induction 1 as [c s SH PL E|s X rb c s' R IH EU ER].
  - destruct (precompute_described iamax ord OK c n SH) as (s' & E' & D). rewrite E in E'. injection E' as <-. assert (EC : fs_contact s = c) by apply D. rewrite EC. refine (conj SH (conj PL D)).
  - destruct IH as (SH & PL & D). destruct (update_places _ n X rb c SH EU) as (SH' & _ & PL' & SS). destruct (refresh_described iamax ord _ c n s SH PL SH' PL' SS D) as (s1 & E1 & D1). rewrite ER in E1. injection E1 as <-.
    assert (EC : fs_contact s' = c) by apply D1. rewrite EC. refine (conj SH' (conj PL' D1)).
Qed.

(** Matrices by entries and by blocks. *)
Lemma matrix_times_entries n x i : forall L, (forall e, In e L -> (snd (fst e) < n)%nat) -> matrix_times n L x i = rsum (map (fun e => let '(r, c, a) := e in if Nat.eqb r i then a * x c else 0) L).
Proof.
  induction L as [|[[r c] a] L IH]; intros H.
  - unfold matrix_times, matrix_entry. cbn [filter map]. rewrite !rsum_nil. rewrite (rsum_ext _ (fun _ => 0 * 0)) by (intros; ring). rewrite rsum_scale. ring.
  - cbn [map]. rewrite rsum_cons, <- IH by (intros e He; apply H; right; exact He). assert (C : (c < n)%nat) by exact (H _ (or_introl eq_refl)). unfold matrix_times.
    rewrite (rsum_ext _ (fun j => (if Nat.eqb c j then (if Nat.eqb r i then a * x j else 0) else 0) + matrix_entry L i j * x j)).
    + rewrite rsum_plus, (seq_pick (fun j => if Nat.eqb r i then a * x j else 0)) by exact C. reflexivity.
    + intros j _. unfold matrix_entry. cbn [filter fst snd]. destruct (Nat.eqb r i), (Nat.eqb c j); cbn [andb map snd]; rewrite ?rsum_cons; ring.
Qed.
Lemma coordinate_vsum {A} (f : A -> nat -> v3) l i : coordinate (fun v => vsum (map (fun e => f e v) l)) i = rsum (map (fun e => coordinate (f e) i) l).
Proof.
  induction l as [|a l IH]; [cbn [map]; rewrite rsum_nil; unfold coordinate; destruct (i mod 3)%nat as [|[|?]]; reflexivity|]. cbn [map]. rewrite rsum_cons, <- IH. unfold coordinate. rewrite vsum_cons. destruct (i mod 3) as [|[|?]]; reflexivity.
Qed.
Lemma coordinate_block r c A U i : rsum (map (fun e => let '(r, c, a) := e in if Nat.eqb r i then a * coordinate U c else 0) (scalar_entries (r, c, A))) = coordinate (fun v => if Nat.eqb r v then m3_mulv A (U c) else v3_0) i.
Proof.
  unfold scalar_entries. cbn [flat_map map app]. rewrite !rsum_cons, rsum_nil. rewrite !coordinate_at by lia.
  pose proof (Nat.div_mod i 3 ltac:(lia)) as Di. pose proof (Nat.mod_upper_bound i 3 ltac:(lia)) as Mi. unfold coordinate. set (d := (i / 3)%nat) in *. set (m := (i mod 3)%nat) in *. clearbody d m. subst i.
  destruct A as [[a1 a2 a3] [a4 a5 a6] [a7 a8 a9]], (U c) as [x1 x2 x3]. unfold m3_mulv, v3_dot. cbn [ElasticModel.m3_get r0 r1 r2 vx vy vz].
  destruct (Nat.eqb_spec r d) as [->|N].
  - destruct m as [|[|[|m]]]; try lia; repeat match goal with |- context [Nat.eqb ?a ?b] => destruct (Nat.eqb_spec a b); try lia end; cbn [vx vy vz]; ring.
  - repeat match goal with |- context [Nat.eqb ?a ?b] => destruct (Nat.eqb_spec a b); try lia end. destruct m as [|[|m]]; cbn [vx vy vz v3_0]; unfold v3_0; cbn [vx vy vz]; ring.
Qed.
Lemma matrix_times_blocks m L U i : (forall h, In h L -> (fst (fst h) < m)%nat /\ (snd (fst h) < m)%nat) -> matrix_times (3 * m) (flat_map scalar_entries L) (coordinate U) i = coordinate (block_product L U) i.
Proof.
  intros H. rewrite matrix_times_entries.
  - rewrite MassProofs.rsum_flat_map. unfold block_product. etransitivity; [|symmetry; exact (coordinate_vsum (fun (e : nat * nat * m3) r => let '(row, col, B) := e in if Nat.eqb row r then m3_mulv B (U col) else v3_0) L i)].
    apply rsum_ext. intros [[r c] A] _. apply coordinate_block.
  - intros e He. apply in_flat_map in He. destruct He as (h & Hh & He). destruct (H h Hh). apply (scalar_range m h e); assumption.
Qed.
Lemma moves_coordinate (f : R -> nat -> v3) l m i : (forall v, (v < m)%nat -> moves (fun s => f s v) (l v)) -> (i < 3 * m)%nat -> is_derive (fun s => coordinate (f s) i) 0 (coordinate l i).
Proof.
  intros H I. assert (D : (i / 3 < m)%nat) by (apply Nat.div_lt_upper_bound; lia). destruct (H _ D) as (A & B & C). unfold coordinate. destruct (i mod 3) as [|[|?]]; assumption.
Qed.
Lemma moves_neg f l : moves f l -> moves (fun s => v3_scale (-1) (f s)) (v3_scale (-1) l).
Proof.
  intros (A & B & C). unfold moves, v3_scale. cbn [vx vy vz]. refine (conj _ (conj _ _)); apply (is_derive_scal _ 0 (-1)); assumption.
Qed.
Lemma coordinate_neg l i : coordinate (fun v => v3_scale (-1) (l v)) i = - coordinate l i.
Proof. unfold coordinate, v3_scale. destruct (i mod 3) as [|[|?]]; cbn [vx vy vz]; ring. Qed.
Lemma blocks_within iamax ord o prev cur v dqdv m J : friction_jacobian_blocks iamax ord o prev cur v dqdv m = Some J -> forall h, In h J -> (fst (fst h) < m)%nat /\ (snd (fst h) < m)%nat.
Proof.
  unfold friction_jacobian_blocks. intros E h I. assert (F : exists l, J = filter (fun e : nat * nat * m3 => andb (Nat.ltb (fst (fst e)) m) (Nat.ltb (snd (fst e)) m)) l).
  { destruct (fo_lagged o); [injection E as <-; eexists; reflexivity|]. destruct (fo_incomplete o); [injection E as <-; eexists; reflexivity|].
    repeat match type of E with match ?x with _ => _ end = _ => destruct x; try discriminate end; injection E as <-; eexists; reflexivity. }
  destruct F as (l & ->). apply filter_In in I. destruct I as [_ I]. apply andb_true_iff in I. destruct I as [A B]. apply Nat.ltb_lt in A, B. split; assumption.
Qed.

(** Only the velocities of the vertices count. *)
Definition within_mesh (n : nat) (U : nat -> v3) (i : nat) : v3 := if Nat.ltb i n then U i else v3_0.
Lemma within_line n X U s : (length X <= n)%nat -> mesh_line X (within_mesh n U) s = mesh_line X U s.
Proof.
  intros L. unfold mesh_line. apply map_ext_in. intros [i x] H. apply in_combine_l in H. apply in_seq in H. cbn [fst snd]. unfold within_mesh. destruct (Nat.ltb_spec i n); [reflexivity|lia].
Qed.
Lemma within_coordinate n U i : (i < 3 * n)%nat -> coordinate (within_mesh n U) i = coordinate U i.
Proof. intros I. unfold coordinate, within_mesh. assert (D : (i / 3 < n)%nat) by (apply Nat.div_lt_upper_bound; lia). destruct (Nat.ltb_spec (i / 3) n); [reflexivity|lia]. Qed.
Lemma within_respects c n U : contact_shape c n -> respects c U -> respects c (within_mesh n U).
Proof. intros SH [A B]. split; intros F v I; unfold within_mesh; destruct (Nat.ltb_spec v n); auto. Qed.
Lemma times_ext n L x y i : (forall j, (j < n)%nat -> x j = y j) -> matrix_times n L x i = matrix_times n L y i.
Proof. intros H. unfold matrix_times. apply rsum_ext. intros j J. apply in_seq in J. rewrite H by lia. reflexivity. Qed.

Section Total.
Variable iamax : v3 -> nat.
Hypothesis PK : picks_largest iamax.
Variable ord : list nat -> list nat.
Hypothesis OK : lists_the_set ord.
Variable n : nat.
Variable st : friction_state.
Hypothesis RS : reached iamax ord n st.
Variable V : list v3.
Hypothesis LV : length V = n.
Let c := fs_contact st.
Hypothesis SEP : separate_sides c.
Let t := ct_topo c.
Let N := length (filled t).
Let act k := nth k (filled t) 0%nat.
Variable o : friction_options.
Let kd := fo_profile o.
Let fp := fo_params o.
Hypothesis VP : valid_params fp.
Hypothesis SV : smooth_velocities fp st V.
Let SH : contact_shape c n := proj1 (reached_facts iamax ord n st OK RS).
Let PL : in_place (cbase c) := proj1 (proj2 (reached_facts iamax ord n st OK RS)).
Let D : described iamax ord c n st := proj2 (proj2 (reached_facts iamax ord n st OK RS)).
Lemma slide_smooth L : contact_matrices t (ct_points c) = Some L -> forall k, (k < N)%nat -> smooth_sliding fp (to_tangent_space (frame_at iamax c (act k)) (pull_form c L (at3 V) k)).
Proof.
  intros EL k K. refine (SV (pull_form c L (at3 V) k, frame_at iamax c (act k)) _).
  assert (EV : contact_mul (friction_maps st) V = map (fun k => pull_form c L (at3 V) k) (seq 0 N)) by exact (velocities_known iamax ord c n SH V st L D LV EL). rewrite EV.
  assert (EF : fs_frames st = map (fun k => frame_at iamax c (act k)) (seq 0 N)) by exact (frames_seq iamax ord c n SH st D). rewrite EF, combine_maps. apply (in_map (fun k => (pull_form c L (at3 V) k, frame_at iamax c (act k)))). apply in_seq. lia.
Qed.
Lemma mesh_size W s : length (mesh_line V W s) = n.
Proof. rewrite (mesh_length c). exact LV. Qed.

(** Lagged. *)
Lemma lagged_derivative cur dqdv m : (m <= n)%nat -> fo_lagged o = true -> exists J, friction_jacobian_blocks iamax ord o st cur V dqdv m = Some J /\
  forall U i, (forall v, (m <= v)%nat -> U v = v3_0) -> (i < m)%nat -> moves (fun s => nth i (compute_friction_force o st (mesh_line V U s)) v3_0) (v3_scale (-1) (block_product J U i)).
Proof.
  intros MN OL. destruct (state_action iamax ord c n SH st D) as (L & EL & _).
  assert (EV : contact_mul (friction_maps st) V = map (fun k => pull_form c L (at3 V) k) (seq 0 N)) by exact (velocities_known iamax ord c n SH V st L D LV EL).
  assert (EC : combine (map (fun k => pull_form c L (at3 V) k) (seq 0 N)) (combine (fs_lambda st) (fs_frames st)) = map (fun k => (pull_form c L (at3 V) k, (lam_at c (act k), frame_at iamax c (act k)))) (seq 0 N)) by exact (contacts_known iamax ord c n SH V st L D).
  unfold friction_jacobian_blocks. rewrite OL. cbv zeta. rewrite EV, EC. eexists. split; [reflexivity|]. intros U i UZ I. rewrite within_apply by assumption.
  apply (moves_ext (fun s => v3_scale (-1) (push_form c L (push_at iamax c kd fp L (mesh_line V U s)) i))).
  - intros s. symmetry. apply (force_form iamax ord c n SH st D o (mesh_line V U s) i L SEP EL (mesh_size U s)). lia.
  - apply moves_neg. pose proof (frozen_moves iamax c n SH V o L LV EL U (fun k _ => lam_at c (act k)) (fun _ => 0) i VP (slide_smooth L EL) (fun k _ => conj eq_refl (@is_derive_const R_AbsRing R_NormedModule (lam_at c (act k)) 0))) as M.
    match goal with |- moves _ ?r => match type of M with moves _ ?q => replace r with q; [exact M|] end end.
    etransitivity; [|symmetry; exact (lagged_action iamax ord c n SH V m st o L D LV MN EL U i UZ)]. apply push_ext. intros k K. f_equal. match goal with |- v3_add ?a (v3_scale (0 * ?x) ?y) = _ => generalize a x y end. intros. apply v3_eq; unv; ring.
Qed.

Hypothesis SC : smooth_contacts c.
Let PW : p_weighted (sb_bg (cbase c)) = false := proj1 SC.
Let CP : forall a, In a (filled (ct_topo c)) -> contact_point (ct_topo c) (nth a (ct_points c) v3_0) (nth a (trivial_neighborhood (ct_topo c)) []) := proj2 SC.
Variable X : list v3.
Hypothesis AT : placed c X.
Hypothesis LX : length X = n.

(** Normal forces that follow the positions. *)
Definition viscous_at (L : blocks) (U : nat -> v3) (dqdv : R) (k : nat) : v3 := let f := frame_at iamax c (act k) in
  v3_scale (fp_viscous fp * (- dqdv * ct_kappa c * penalty_ddb (ct_delta c) (dpot c (row_at c (act k))) * rate1 c U (row_at c (act k)))) (from_contact_coordinates f (plane (to_tangent_space f (pull_form c L (at3 V) k)))).
Lemma viscous_none L U dqdv i : fp_viscous fp = 0 -> push_form c L (viscous_at L U dqdv) i = v3_0.
Proof.
  intros VI. transitivity (v3_scale 0 (push_form c L (viscous_at L U dqdv) i)); [|apply v3_eq; unv; ring]. rewrite <- push_scale. apply push_ext. intros k K. unfold viscous_at. rewrite VI. match goal with |- v3_scale (0 * ?a) ?b = _ => generalize a b end. intros. apply v3_eq; unv; ring.
Qed.
Lemma incomplete_viscous prev dqdv m L : contact_matrices t (ct_points c) = Some L -> (m <= n)%nat -> fo_lagged o = false -> fo_incomplete o = true -> exists J, friction_jacobian_blocks iamax ord o prev st V dqdv m = Some J /\
  forall U rb i, (forall v, (m <= v)%nat -> U v = v3_0) -> respects c U -> (i < m)%nat ->
    moves (fun s => pressed_force_at o st rb (mesh_line X (fun v => v3_scale dqdv (U v)) s) (mesh_line V U s) i) (v3_scale (-1) (v3_add (block_product J U i) (v3_scale (-1) (push_form c L (viscous_at L U dqdv) i)))).
Proof.
  intros EL MN OL OI. 
  assert (EV : contact_mul (friction_maps st) V = map (fun k => pull_form c L (at3 V) k) (seq 0 N)) by exact (velocities_known iamax ord c n SH V st L D LV EL).
  assert (EC : combine (map (fun k => pull_form c L (at3 V) k) (seq 0 N)) (combine (fs_lambda st) (fs_frames st)) = map (fun k => (pull_form c L (at3 V) k, (lam_at c (act k), frame_at iamax c (act k)))) (seq 0 N)) by exact (contacts_known iamax ord c n SH V st L D).
  unfold friction_jacobian_blocks. rewrite OL, OI. cbv zeta. rewrite EV, EC. eexists. split; [reflexivity|]. intros U rb i UZ RE I. rewrite within_apply by assumption. rewrite block_app.
  set (W := fun v => v3_scale dqdv (U v)). set (tau := ctau c X W rb).
  apply (moves_ext (fun s => v3_scale (-1) (push_form c L (fun k => contact_push kd fp (frame_at iamax c (act k)) (lam_at (tau s) (act k)) (pull_form c L (at3 (mesh_line V U s)) k)) i))).
  - intros s. unfold pressed_force_at. destruct (ctau_spec c n X SH AT W rb s) as (ET & SHT & PLT & SST & _). fold c. rewrite ET. fold (tau s) in *. rewrite (multipliers_some (tau s) n SHT).
    assert (LT : map (fun p => - ct_kappa (tau s) * penalty_db (ct_delta (tau s)) (dpot (tau s) p)) (crows (tau s)) = map (fun k => lam_at (tau s) (act k)) (seq 0 N)).
    { rewrite (rows_at (tau s) n SHT), map_map. assert (FT : filled (ct_topo (tau s)) = filled t) by exact (tau_filled c n X SH AT W rb s). rewrite FT. unfold N, act. clear. generalize (filled t). intros l. apply (nth_ext _ _ (lam_at (tau s) 0%nat) (lam_at (tau s) 0%nat)); [rewrite !map_length, seq_length; reflexivity|].
      intros k K. rewrite map_length in K. rewrite nth_map_seq by exact K. exact (map_nth (fun a => lam_at (tau s) a) l 0%nat k). }
    rewrite LT. symmetry. unfold compute_friction_force, friction_force. change (friction_maps (with_multipliers st _)) with (friction_maps st). cbn [with_multipliers fs_lambda fs_frames].
    assert (EVs : contact_mul (friction_maps st) (mesh_line V U s) = map (fun k => pull_form c L (at3 (mesh_line V U s)) k) (seq 0 N)) by exact (velocities_known iamax ord c n SH (mesh_line V U s) st L D (mesh_size U s) EL). rewrite EVs.
    assert (EF : fs_frames st = map (fun k => frame_at iamax c (act k)) (seq 0 N)) by exact (frames_seq iamax ord c n SH st D). rewrite EF, combine_maps, combine_maps, map_map, mesh_size.
    rewrite (force_action iamax ord c n SH st D SEP) by (try lia; rewrite map_length, seq_length; reflexivity). destruct (state_action iamax ord c n SH st D) as (L' & EL' & _ & PS & _). assert (L' = L) by (unfold t in EL; congruence). subst L'.
    rewrite PS. rewrite <- push_scale. apply push_ext. intros k K. rewrite nth_map_seq by exact K. unfold contact_friction, contact_push, contact_law, contact_slip, to_tangent_space. apply neg_push.
  - apply moves_neg. pose proof (frozen_moves iamax c n SH V o L LV EL U (fun k s => lam_at (tau s) (act k)) (fun k => - ct_kappa c * penalty_ddb (ct_delta c) (dpot c (row_at c (act k))) * rate1 c W (row_at c (act k))) i VP (slide_smooth L EL)) as M.
    assert (ML : forall k, (k < N)%nat -> lam_at (tau 0) (act k) = lam_at c (act k) /\ is_derive (fun s => lam_at (tau s) (act k)) 0 (- ct_kappa c * penalty_ddb (ct_delta c) (dpot c (row_at c (act k))) * rate1 c W (row_at c (act k)))).
    { intros k K. assert (IK : In (act k) (filled t)) by (apply nth_In; exact K). split; [exact (start_lam c n X SH PL AT PW CP W rb (act k) IK)|exact (lam_derive c n X SH PL AT PW CP W rb (act k) IK)]. }
    specialize (M ML). clear ML. match goal with |- moves _ ?r => match type of M with moves _ ?q => replace r with q; [exact M|] end end.
    assert (E1 : block_product (lambda_product o st (map (fun k => pull_form c L (at3 V) k) (seq 0 N)) m dqdv) U i = push_form c L (fun k => v3_scale (- dqdv * ct_kappa c * penalty_ddb (ct_delta c) (dpot c (row_at c (act k))) * rate1 c U (row_at c (act k))) (from_contact_coordinates (frame_at iamax c (act k)) (plane (friction_profile kd (to_tangent_space (frame_at iamax c (act k)) (pull_form c L (at3 V) k)) 1 fp)))) i)
      by exact (lambda_action iamax ord c n SH V m st o L D EL dqdv U i RE I UZ).
    rewrite E1. clear E1. match goal with |- _ = v3_add (v3_add ?a ?e) ?f => etransitivity; [|exact (f_equal (fun z => v3_add (v3_add a z) f) (eq_sym (lagged_action iamax ord c n SH V m st o L D LV MN EL U i UZ)))] end. rewrite <- push_scale, <- !push_add. apply push_ext. intros k K. cbv beta.
    assert (EP : forall w, plane (friction_profile kd w 1 fp) = v3_scale (slope kd fp (v2_norm w) + fp_viscous fp) (plane w)).
    { intros w. rewrite profile_slope. unfold plane, v2_scale, v3_scale. cbn [v2x v2y]. generalize (v2x w) (v2y w) (slope kd fp (v2_norm w)) (fp_viscous fp). intros x y z u. apply v3_eq; cbn [vx vy vz]; ring. }
    unfold viscous_at. rewrite EP. clear EP. unfold W. rewrite rate_scale. unfold kd, fp, act, t. set (w := to_tangent_space _ _). clearbody w. unfold from_contact_coordinates, to_contact_coordinates. repeat (rewrite mulv_plus || rewrite mulv_scale_r).
    match goal with |- context [m3_mulv (m3_transpose ?F) (plane ?w)] => generalize (m3_mulv (m3_transpose F) (plane w)) end. intros pw. match goal with |- v3_add ?a _ = _ => generalize a end. intros xa.
    match goal with |- context [slope ?a ?b ?d] => generalize (slope a b d) end. match goal with |- context [rate1 ?a ?b ?d] => generalize (rate1 a b d) end. match goal with |- context [penalty_ddb ?a ?b] => generalize (penalty_ddb a b) end. generalize (ct_kappa c) (fp_viscous (fo_params o)). intros r0'  r1' r2' r3' r4'. clear. apply v3_eq; unv; ring.
Qed.

Lemma incomplete_derivative prev dqdv m : (m <= n)%nat -> fo_lagged o = false -> fo_incomplete o = true -> fp_viscous fp = 0 -> exists J, friction_jacobian_blocks iamax ord o prev st V dqdv m = Some J /\
  forall U rb i, (forall v, (m <= v)%nat -> U v = v3_0) -> respects c U -> (i < m)%nat ->
    moves (fun s => pressed_force_at o st rb (mesh_line X (fun v => v3_scale dqdv (U v)) s) (mesh_line V U s) i) (v3_scale (-1) (block_product J U i)).
Proof.
  intros MN OL OI VI. destruct (state_action iamax ord c n SH st D) as (L & EL & _). destruct (incomplete_viscous prev dqdv m L EL MN OL OI) as (J & EJ & M). exists J. split; [exact EJ|]. intros U rb i UZ RE I. pose proof (M U rb i UZ RE I) as H. rewrite (viscous_none L U dqdv i VI) in H.
  match goal with |- moves _ ?r => match type of H with moves _ ?q => replace r with q; [exact H|] end end. generalize (block_product J U i). intros. apply v3_eq; unv; ring.
Qed.

(** Everything follows the positions. *)
Hypothesis SB : steady_bases c.
Lemma gradients_steady a : In a (filled t) -> grad_at c a <> v3_0 /\ dominant (grad_at c a).
Proof.
  intros I. refine (SB _ (query_rows c n SH) (a, a, grad_at c a) _). apply in_map_iff. exists (row_at c a). split; [reflexivity|]. apply (row_at_in c n SH a I).
Qed.
Lemma full_viscous prev dqdv L : contact_matrices t (ct_points c) = Some L -> fo_lagged o = false -> fo_incomplete o = false -> exists J, friction_jacobian_blocks iamax ord o prev st V dqdv n = Some J /\
  forall U rb i, (forall v, (n <= v)%nat -> U v = v3_0) -> respects c U -> (i < n)%nat ->
    moves (fun s => force_at iamax o st rb (mesh_line X (fun v => v3_scale dqdv (U v)) s) (mesh_line V U s) i) (v3_scale (-1) (v3_add (block_product J U i) (v3_scale (-1) (push_form c L (viscous_at L U dqdv) i)))).
Proof.
  intros EL0 OL OI.
  assert (ALL : forall U rb, (forall v, (n <= v)%nat -> U v = v3_0) -> respects c U -> exists J, friction_jacobian_blocks iamax ord o prev st V dqdv n = Some J /\ forall i, (i < n)%nat ->
    moves (fun s => force_at iamax o st rb (mesh_line X (fun v => v3_scale dqdv (U v)) s) (mesh_line V U s) i) (v3_scale (-1) (v3_add (block_product J U i) (v3_scale (-1) (push_form c L (viscous_at L U dqdv) i))))).
  { intros U rb UZ RE. set (W := fun v => v3_scale dqdv (U v)).
    pose proof (start_matrices ord OK c n X SH PL AT PW CP W rb) as EL. assert (ELL : L = matrices_along c X W rb 0) by (unfold t in EL0; congruence).
    destruct (full_action iamax PK ord OK c n X SH PL AT PW CP U V dqdv rb n st D LV UZ gradients_steady o VP (slide_smooth _ EL) prev eq_refl OL OI RE) as (J & EJ & M). exists J. split; [exact EJ|]. intros i I.
    apply (moves_ext (fun s => v3_scale (-1) (push_form c (matrices_along c X W rb s) (pushes iamax c X U V dqdv rb o s) i))); [|apply moves_neg; rewrite ELL; exact (M i I)].
    intros s. unfold force_at. destruct (ctau_spec c n X SH AT W rb s) as (ET & SHT & PLT & SST & _). fold c. rewrite ET.
    assert (LXs : length (mesh_line X W s) = n) by (rewrite (mesh_length c); exact LX). rewrite LXs.
    destruct (refresh_described iamax ord c (ctau c X W rb s) n st SH PL SHT PLT SST D) as (s' & ES & DS). rewrite ES.
    pose proof (along_spec ord OK c n X SH PL AT PW CP W rb s) as ELs.
    assert (SEPT : separate_sides (ctau c X W rb s)). { destruct SST as (_ & _ & _ & _ & _ & _ & _ & _ & T9 & T10 & _). unfold separate_sides. rewrite T9, T10. exact SEP. }
    rewrite (force_form iamax ord (ctau c X W rb s) n SHT s' DS o (mesh_line V U s) i _ SEPT ELs (mesh_size U s) I). f_equal. symmetry. rewrite (tau_push c n X SH AT W rb s). apply push_ext. intros k K.
    unfold push_at, pushes, slip_velocity. rewrite (tau_pull c n X SH AT W rb s). assert (FT : filled (ct_topo (ctau c X W rb s)) = filled (ct_topo c)) by exact (tau_filled c n X SH AT W rb s). rewrite FT. reflexivity. }
  destruct (ALL (fun _ => v3_0) false (fun _ _ => eq_refl)) as (J & EJ & _); [split; reflexivity|]. exists J. split; [exact EJ|]. intros U rb i UZ RE I. destruct (ALL U rb UZ RE) as (J' & EJ' & M). rewrite EJ in EJ'. injection EJ' as <-. apply M, I.
Qed.
Lemma full_derivative prev dqdv : fo_lagged o = false -> fo_incomplete o = false -> fp_viscous fp = 0 -> exists J, friction_jacobian_blocks iamax ord o prev st V dqdv n = Some J /\
  forall U rb i, (forall v, (n <= v)%nat -> U v = v3_0) -> respects c U -> (i < n)%nat ->
    moves (fun s => force_at iamax o st rb (mesh_line X (fun v => v3_scale dqdv (U v)) s) (mesh_line V U s) i) (v3_scale (-1) (block_product J U i)).
Proof.
  intros OL OI VI. destruct (state_action iamax ord c n SH st D) as (L & EL & _). destruct (full_viscous prev dqdv L EL OL OI) as (J & EJ & M). exists J. split; [exact EJ|]. intros U rb i UZ RE I. pose proof (M U rb i UZ RE I) as H. rewrite (viscous_none L U dqdv i VI) in H.
  match goal with |- moves _ ?r => match type of H with moves _ ?q => replace r with q; [exact H|] end end. generalize (block_product J U i). intros. apply v3_eq; unv; ring.
Qed.
End Total.
