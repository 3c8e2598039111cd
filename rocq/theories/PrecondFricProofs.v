(** Proofs about the approximate Jacobi preconditioner: friction. *)
From Coq Require Import Reals List Arith Bool Lra Lia Sorting.Sorted.
From Coquelicot Require Import Coquelicot.
From Verif Require Import Vec3 Mat3 RList KernelModel KernelSpec FieldModel FieldSpec FieldProofs NeighborModel NeighborSpec NeighborProofs UpdateProps SurfJacModel SurfJacSpec SurfJacProofs HessModel HessSpec HessMixProofs SurfHessSpec ContactModel ContactProofs ContactJacModel ContactJacSpec ContactJacProofs ContactJacProps ContactMapModel ContactMapSpec ContactMapProofs AssemblyModel ContactAsmModel ContactAsmSpec ContactAsmProofs ContactAsmProps ContactDerivModel ContactDerivSpec ContactDerivRowProofs ContactDerivProps BasisJacModel BasisJacSpec BasisJacProofs ContactHessModel ContactHessSpec ContactHessProofs ContactRowProofs ContactMoveProofs FrictionModel FrictionSpec FrictionProofs FricAsmModel FricAsmSpec FricForceSpec FricAlgProofs FricCurveProofs FricStateProofs FricActProofs FricFormProofs FricMoveProofs FricJacProofs FricTotalProofs HessProofs SurfHessProps AssemblyProofs FricEnergyProofs FricEnergyProps ElasticModel ProblemModel ProblemSpec FricProblemModel PrecondModel PrecondProofs.
Import ListNotations.
Local Open Scope R_scope.

(** ** One contact *)
Definition quad (D : m3) (x : v3) : R := v3_dot x (m3_mulv D x).
Lemma law_linear kd w a lam fp u : fp_viscous fp = 0 -> friction_jacobian_mul kd w (a * lam) fp u = v2_scale a (friction_jacobian_mul kd w lam fp u).
Proof.
  intros V. unfold friction_jacobian_mul. cbv zeta. rewrite V. destruct u as [u1 u2], w as [w1 w2]. destruct (Rlt_dec 0 (v2_norm (V2 w1 w2))) as [P|P].
  - set (nn := v2_norm _) in *. clearbody nn. unfold v2_add, v2_scale, v2_dot. cbn [v2x v2y]. f_equal; field; lra.
  - unfold v2_scale. cbn [v2x v2y]. f_equal; ring.
Qed.
Lemma block_quad o h kappa lam f vc x : fp_viscous (fo_params o) = 0 ->
  quad (diagonal_block o h kappa lam f vc) x = h * h * v2_dot (to_tangent_space f x) (friction_jacobian_mul (fo_profile o) (to_tangent_space f vc) (kappa * lam) (fo_params o) (to_tangent_space f x)).
Proof.
  intros V. rewrite law_linear by exact V. unfold quad, diagonal_block. cbv zeta. set (b := contact_basis_matrix f).
  assert (M : forall A B y, m3_mulv (m3_mul A B) y = m3_mulv A (m3_mulv B y)) by exact BasisJacProofs.mulv_mul. rewrite !M. change (m3_mulv b x) with (to_contact_coordinates f x).
  assert (S : forall a A y, m3_mulv (m3_scale a A) y = v3_scale a (m3_mulv A y)) by (intros a [[] [] []] []; apply v3_eq; cbn; unfold v3_dot; cbn; ring). rewrite S. change (eta_block (fo_profile o) (fo_params o) (vc, (lam, f))) with (eta_matrix (fo_profile o) (fo_params o) (to_tangent_space f vc) lam). rewrite eta_apply.
  assert (T : forall a w, m3_mulv (m3_transpose b) (v3_scale a (plane w)) = v3_scale a (from_contact_coordinates f (plane w))). { intros a [w1 w2]. unfold from_contact_coordinates. fold b. destruct b as [[] [] []]. apply v3_eq; cbn; unfold v3_dot; cbn; ring. } rewrite T.
  assert (X : forall a y, v3_dot x (v3_scale a y) = a * v3_dot y x) by (intros a [] ; destruct x; cbn; unfold v3_dot; cbn; ring). rewrite X, plane_dot. change (V2 (vy (to_contact_coordinates f x)) (vz (to_contact_coordinates f x))) with (to_tangent_space f x).
  destruct (to_tangent_space f x) as [a b']. destruct (friction_jacobian_mul _ _ _ _ _) as [p q]. unfold v2_dot, v2_scale. cbn [v2x v2y]. ring.
Qed.
Lemma quad_axis D i : (i < 3)%nat -> quad D (unit_axis i) = m3_get D i i.
Proof. intros I. unfold quad. exact (unit_bil D i I). Qed.
Lemma quad_neg D x : quad D (v3_sub v3_0 x) = quad D x.
Proof. destruct D as [[] [] []], x. unfold quad, m3_mulv, v3_dot, v3_sub, v3_0. cbn. ring. Qed.
Lemma quad_zero D : quad D v3_0 = 0.
Proof. destruct D as [[] [] []]. unfold quad, m3_mulv, v3_dot, v3_0. cbn. ring. Qed.
Lemma column_axis B i : (i < 3)%nat -> m3_mulv B (unit_axis i) = column B i.
Proof. intros I. destruct B as [[] [] []]. destruct i as [|[|[|i]]]; try lia; apply v3_eq; unfold m3_mulv, v3_dot, column; cbn; ring. Qed.
Lemma mulv_zero B : m3_mulv B v3_0 = v3_0.
Proof. destruct B as [[] [] []]. apply v3_eq; unfold m3_mulv, v3_dot, v3_0; cbn; ring. Qed.
(** At most one block of a row belongs to a vertex. *)
Lemma one_block D (g : nat -> nat) k : forall q : list (nat * m3), NoDup (map (fun e => g (fst e)) q) ->
  quad D (vsum (map (fun e => m3_mulv (snd e) (unit_motion k (g (fst e)))) q)) = rsum (map (fun e => if Nat.eqb (g (fst e)) (k / 3) then quad D (column (snd e) (k mod 3)) else 0) q).
Proof.
  pose proof (Nat.mod_upper_bound k 3 ltac:(lia)) as M. induction q as [|e q IH]; intros ND; [cbn [map]; rewrite rsum_nil; apply quad_zero|]. cbn [map] in ND. inversion ND as [|? ? N1 N2]; subst. cbn [map]. rewrite vsum_cons, rsum_cons. unfold unit_motion at 1.
  destruct (Nat.eqb_spec (g (fst e)) (k / 3)) as [E|E].
  - assert (Z : forall x, In x q -> Nat.eqb (g (fst x)) (k / 3) = false). { intros x I. destruct (Nat.eqb_spec (g (fst x)) (k / 3)) as [F|]; [|reflexivity]. exfalso. apply N1. rewrite E, <- F. apply (in_map (fun e => g (fst e))), I. }
    rewrite (rsum_zero (fun e0 => if Nat.eqb (g (fst e0)) (k / 3) then _ else 0)) by (intros x I; rewrite (Z x I); reflexivity).
    rewrite (ContactMapProofs.vsum_ext _ (fun _ => v3_0)) by (intros x I; unfold unit_motion; rewrite (Z x I); apply mulv_zero). rewrite column_axis by exact M.
    assert (V0 : vsum (map (fun _ : nat * m3 => v3_0) q) = v3_0). { clear. induction q as [|a q IH]; [reflexivity|]. cbn [map]. rewrite vsum_cons, IH. apply v3_eq; unfold v3_0; cbn; ring. } rewrite V0.
    replace (v3_add (column (snd e) (k mod 3)) v3_0) with (column (snd e) (k mod 3)) by (destruct (column (snd e) (k mod 3)); apply v3_eq; unfold v3_0; cbn; ring). ring.
  - rewrite mulv_zero. match goal with |- quad D (v3_add v3_0 ?x) = _ => replace (v3_add v3_0 x) with x by (destruct x; apply v3_eq; unfold v3_0; cbn; ring) end. rewrite IH by exact N2. ring.
Qed.
Lemma block_terms_sum m v D B k : (k < 3 * m)%nat -> term_sum (block_terms m v D B) k = if Nat.eqb v (k / 3) then quad D (column B (k mod 3)) else 0.
Proof.
  intros K. pose proof (below_div m k K) as Q. unfold block_terms. destruct (Nat.ltb_spec v m) as [L|L]; [apply (triple_sum v k (fun i => quad D (column B i)))|]. rewrite term_sum_nil. destruct (Nat.eqb_spec v (k / 3)); [lia|reflexivity].
Qed.
Lemma point_terms_sum m v D k : (k < 3 * m)%nat -> term_sum (point_terms m v D) k = if Nat.eqb v (k / 3) then m3_get D (k mod 3) (k mod 3) else 0.
Proof.
  intros K. pose proof (below_div m k K) as Q. unfold point_terms. destruct (Nat.ltb_spec v m) as [L|L]; [apply (triple_sum v k (fun i => m3_get D i i))|]. rewrite term_sum_nil. destruct (Nat.eqb_spec v (k / 3)); [lia|reflexivity].
Qed.
Lemma block_terms_range m v D B t : In t (block_terms m v D B) -> (fst t < 3 * m)%nat.
Proof. unfold block_terms. destruct (Nat.ltb_spec v m) as [L|L]; [|intros []]. refine (triple_range v m (fun i => v3_dot (column B i) (m3_mulv D (column B i))) t L). Qed.
Lemma point_terms_range m v D t : In t (point_terms m v D) -> (fst t < 3 * m)%nat.
Proof. unfold point_terms. destruct (Nat.ltb_spec v m) as [L|L]; [|intros []]. refine (triple_range v m (fun i => m3_get D i i) t L). Qed.

(** ** Rows of a matrix *)
Lemma row_product (J : mapped m3) x r : block_product (entries J) x r = vsum (map (fun e => m3_mulv (snd e) (x (fst e))) (row_of J r)).
Proof.
  unfold row_of, block_product. induction (entries J) as [|[[a b] B] l IH]; [reflexivity|]. cbn [map filter fst snd]. rewrite vsum_cons, IH. destruct (Nat.eqb a r); cbn [map fst snd]; [rewrite vsum_cons; reflexivity|].
  match goal with |- v3_add v3_0 ?y = ?y => destruct y; apply v3_eq; unfold v3_0; cbn; ring end.
Qed.
Lemma row_keys (J : mapped m3) r : length (mp_blocks J) = length (mp_pattern J) -> NoDup (mp_pattern J) -> NoDup (map fst (row_of J r)).
Proof.
  intros L ND. unfold row_of. rewrite map_map. cbn [fst].
  assert (K : NoDup (map fst (entries J))) by (unfold entries; rewrite keys_combine by exact L; exact ND). revert K. generalize (entries J). induction l as [|[[a b] B] l IH]; intros K; [constructor|]. cbn [map fst] in K. inversion K as [|? ? N1 N2]; subst. cbn [filter fst]. destruct (Nat.eqb_spec a r) as [->|]; [|apply IH, N2].
  cbn [map fst snd]. constructor; [|apply IH, N2]. intros I. apply N1. apply in_map_iff in I. destruct I as ([[x y] Y] & E & I). cbn [fst snd] in E. apply filter_In in I. destruct I as [I F]. cbn [fst] in F. apply Nat.eqb_eq in F. apply in_map_iff. exists ((x, y), Y). cbn [fst]. split; [congruence|exact I].
Qed.
Lemma sorted_ext : forall a b : list nat, StronglySorted lt a -> StronglySorted lt b -> (forall x, In x a <-> In x b) -> a = b.
Proof.
  induction a as [|x a IH]; intros [|y b] SA SB E.
  - reflexivity.
  - exfalso. apply (proj2 (E y)). left. reflexivity.
  - exfalso. apply (proj1 (E x)). left. reflexivity.
  - inversion SA as [|? ? SA' FA]; subst. inversion SB as [|? ? SB' FB]; subst. rewrite List.Forall_forall in FA, FB.
    assert (x = y). { destruct (proj1 (E x) (or_introl eq_refl)) as [H|H]; [congruence|]. destruct (proj2 (E y) (or_introl eq_refl)) as [H2|H2]; [congruence|]. specialize (FB x H). specialize (FA y H2). lia. } subst y. f_equal.
    apply IH; [assumption|assumption|]. intros z. split; intros I.
    + destruct (proj1 (E z) (or_intror I)) as [H|H]; [|exact H]. subst z. specialize (FA x I). lia.
    + destruct (proj2 (E z) (or_intror I)) as [H|H]; [|exact H]. subst z. specialize (FB x I). lia.
Qed.
Lemma unseen_sorted : forall l seen, StronglySorted le l -> StronglySorted lt (unseen seen l).
Proof.
  induction l as [|a l IH]; intros seen S; [constructor|]. inversion S as [|? ? S' F]; subst. cbn [unseen]. destruct (existsb (Nat.eqb a) seen); [apply IH, S'|]. constructor; [apply IH, S'|]. rewrite List.Forall_forall in *. intros x I. apply unseen_in in I. destruct I as [I N]. specialize (F x I). cbn [In] in N. destruct (Nat.eq_dec x a) as [->|]; [exfalso; apply N; left; reflexivity|lia].
Qed.
Lemma pattern_rows : forall l : list (nat * nat), in_order l -> StronglySorted le (map fst l).
Proof.
  induction l as [|p l IH]; intros S; [constructor|]. inversion S as [|? ? S' F]; subst. cbn [map]. constructor; [apply IH, S'|]. rewrite List.Forall_forall in *. intros x I. apply in_map_iff in I. destruct I as (q & <- & I). specialize (F q I). lia.
Qed.
Lemma seq_sorted k : forall s, StronglySorted lt (seq s k).
Proof. induction k as [|k IH]; intros s; [constructor|]. cbn [seq]. constructor; [apply IH|]. rewrite List.Forall_forall. intros x I. apply in_seq in I. lia. Qed.
Lemma combine_seq {A} (f : nat -> A) : forall k s, combine (seq s k) (map f (seq s k)) = map (fun i => (i, f i)) (seq s k).
Proof. induction k as [|k IH]; intros s; [reflexivity|]. cbn [seq map combine]. rewrite IH. reflexivity. Qed.

(** ** Friction of a contact *)
Section Slip.
Variable iamax : v3 -> nat.
Variable ord : list nat -> list nat.
Hypothesis OKO : lists_the_set ord.
Variable n : nat.
Variable f : friction_part.
Variable p : problem.
Let st := pt_cur f.
Let o := pt_options f.
Hypothesis RS : reached iamax ord n st.
Let c := fs_contact st.
Let t := ct_topo c.
Let N := length (filled t).
Let act k := nth k (filled t) 0%nat.
Let SH : contact_shape c n := proj1 (reached_facts iamax ord n st OKO RS).
Let D : described iamax ord c n st := proj2 (proj2 (reached_facts iamax ord n st OKO RS)).
Variable L : blocks.
Hypothesis EL : contact_matrices t (ct_points c) = Some L.
Hypothesis LV : length (pb_vel p) = n.
Hypothesis NV : fp_viscous (fo_params o) = 0.
Hypothesis AP : forall v, In v (ct_surface c) -> ~ In v (ct_collider c).
Let m := pb_active p.
Let J := fs_jacobian st.
Let fr k := frame_at iamax c (act k).
Let lam k := lam_at c (act k).
Let slip k := to_tangent_space (fr k) (pull_form c L (at3 (pb_vel p)) k).
Lemma jacobian_facts : in_order (mp_pattern J) /\ length (mp_blocks J) = length (mp_pattern J) /\ (forall q, In q (mp_pattern J) -> (fst q < N)%nat /\ (snd q < length (ct_surface c))%nat) /\
  (forall x k, (k < N)%nat -> block_product (entries J) x k = block_product L x (act k)) /\ forall k, (k < N)%nat -> In k (map fst (mp_pattern J)).
Proof.
  assert (D4 : build_jacobian t (ct_points c) (filled t) = Some J) by apply D. pose proof (WF c n SH) as WF'. pose proof (IOK c n SH) as IOK'. pose proof (LPN c n SH) as LPN'. pose proof (filled_nodup c) as FN. pose proof (filled_range c n SH) as FR.
  destruct (contact_jacobian_built t (ct_points c) (filled t) WF' IOK' LPN' FN FR) as (L' & J' & EL' & EJ & B1 & B2 & B3). assert (L' = L) by congruence. assert (J' = J) by congruence. subst L' J'.
  destruct (selection_form t (ct_points c) (filled t) WF' IOK' LPN' FN FR) as (inv & L' & _ & IN & EL'' & ES & _). assert (L' = L) by congruence. subst L'.
  unfold build_jacobian in D4. rewrite ES in D4. cbn [option_map] in D4. injection D4 as D4. unfold jacobian_triplets in D4. set (S := flat_map (chosen inv (fun c => c)) L) in *. assert (BC := build_correct m3 m3_add m3_zero m3_monoid (fun _ => true) S). rewrite D4 in BC.
  split; [exact B1|]. split; [apply BC|]. split; [intros q I; assert (LS : length (ct_surface c) = length (sb_verts (q_base t))) by apply SH; rewrite LS; exact (B2 q I)|]. split; [exact B3|]. intros k K.
  assert (TY : sb_type (q_base t) = SFace) by apply SH. pose proof (matrices_flat t (ct_points c) TY WF' IOK' LPN') as MF. rewrite EL in MF. injection MF as MF.
  assert (IA : In (act k) (filled t)) by (apply nth_In; exact K). destruct (proj1 (filled_in t (act k)) IA) as [_ NE]. destruct (nth (act k) (trivial_neighborhood t) []) as [|i nb] eqn:EN; [exfalso; apply NE; reflexivity|].
  destruct (nth i (sb_topo (q_base t)) (0, 0, 0)%nat) as [[a1 a2] a3] eqn:ET.
  match type of MF with L = flat_map ?F (filled t) => assert (I1 : exists B, In (act k, a1, B) L) end.
  { eexists. rewrite MF. apply in_flat_map. exists (act k). split; [exact IA|]. rewrite EN. apply in_flat_map. exists i. split; [left; reflexivity|]. rewrite ET. left. reflexivity. }
  destruct I1 as (B & I1). assert (I2 : In (k, a1, B) S). { apply in_flat_map. exists (act k, a1, B). split; [exact I1|]. unfold chosen. assert (EI : nth (act k) inv None = Some k) by (apply IN; apply nth_error_nth'; exact K). rewrite EI. left. reflexivity. }
  apply in_map_iff. exists (k, a1). split; [reflexivity|]. destruct BC as (_ & _ & IP & _). apply IP. split; [reflexivity|]. apply (in_map fst S (k, a1, B)), I2.
Qed.
Lemma jacobian_rows_seq : rows_of J = seq 0 N.
Proof.
  destruct jacobian_facts as (B1 & _ & B2 & _ & B4). apply sorted_ext; [apply unseen_sorted, pattern_rows, B1|apply seq_sorted|]. intros x. unfold rows_of. rewrite unseen_in, in_seq. split.
  - intros [I _]. apply in_map_iff in I. destruct I as (q & <- & I). specialize (B2 q I). lia.
  - intros [_ H]. split; [apply B4; lia|intros []].
Qed.
Let Dk k := diagonal_block o (dqdv p) (ct_kappa c) (- penalty_db (ct_delta c) (dpot c (row_at c (act k)))) (fr k) (pull_form c L (at3 (pb_vel p)) k).
Let Tk k := point_terms m (cv c (act k)) (Dk k) ++ flat_map (fun e => block_terms m (sv c (fst e)) (Dk k) (snd e)) (row_of J k).
Lemma row_columns k e : In e (row_of J k) -> (fst e < length (ct_surface c))%nat.
Proof.
  intros I. destruct jacobian_facts as (_ & _ & B2 & _). unfold row_of in I. apply in_map_iff in I. destruct I as ([q B] & <- & I). apply filter_In in I. destruct I as [I _]. cbn [fst snd]. apply in_combine_l in I. apply (B2 q I).
Qed.
Lemma act_collider k : (k < N)%nat -> nth_error (ct_collider c) (act k) = Some (cv c (act k)).
Proof. intros K. apply nth_error_nth'. rewrite (LCV c n SH). apply (filled_range c n SH), nth_In. exact K. Qed.
Lemma friction_terms_list : friction_terms p f = Some (flat_map Tk (seq 0 N)).
Proof.
  unfold friction_terms. cbv zeta. fold st J. rewrite jacobian_rows_seq.
  assert (EV : contact_mul (friction_maps st) (pb_vel p) = map (fun k => pull_form c L (at3 (pb_vel p)) k) (seq 0 N)) by exact (known_slips iamax ord OKO n st RS L EL (pb_vel p) LV). rewrite EV.
  assert (ED : fs_dist st = map (fun k => dpot c (row_at c (act k))) (seq 0 N)).
  { apply list_as_seq; [assert (E : fs_dist st = map (dpot c) (crows c)) by apply D; rewrite E, map_length; exact (rows_count c n SH)|]. intros k K. rewrite (nth_error_nth' _ 0).
    - f_equal. exact (state_dist iamax ord c n SH st D k K).
    - assert (E : fs_dist st = map (dpot c) (crows c)) by apply D. rewrite E, map_length, (rows_count c n SH). exact K. }
  rewrite ED, combine_maps, combine_maps, map_length, seq_length, combine_seq, map_map. cbv beta iota.
  rewrite (all_some_map _ Tk); [cbn [option_map]; rewrite concat_map_flat; reflexivity|]. intros k I. apply in_seq in I. assert (K : (k < N)%nat) by lia. unfold slip_terms. cbv zeta. cbn [fst snd]. rewrite Nat.eqb_refl. cbn [negb]. fold st c o m.
  assert (EF : nth_error (fs_frames st) k = Some (fr k)) by (rewrite (frames_seq iamax ord c n SH st D); rewrite (nth_error_nth' _ (fr 0%nat)) by (rewrite map_length, seq_length; exact K); f_equal; apply (nth_map_seq (fun k => frame_at iamax c (act k))); exact K). rewrite EF. cbn [bind].
  assert (EA : nth_error (fs_active st) k = Some (act k)). { assert (E : fs_active st = filled t) by apply D. rewrite E. apply nth_error_nth'. exact K. } rewrite EA. cbn [bind]. rewrite (act_collider k K). cbn [bind].
  rewrite (all_some_map _ (fun e => block_terms m (sv c (fst e)) (Dk k) (snd e))); [cbn [bind]; rewrite concat_map_flat; reflexivity|].
  intros e I2. rewrite (nth_error_nth' _ 0%nat) by exact (row_columns k e I2). reflexivity.
Qed.
Lemma terms_sum_row k i : (k < N)%nat -> (i < 3 * m)%nat -> term_sum (Tk k) i = dqdv p * dqdv p * v2_dot (to_tangent_space (fr k) (pull_form c L (unit_motion i) k)) (friction_jacobian_mul (fo_profile o) (slip k) (lam k) (fo_params o) (to_tangent_space (fr k) (pull_form c L (unit_motion i) k))).
Proof.
  intros K I. pose proof (Nat.mod_upper_bound i 3 ltac:(lia)) as M. destruct jacobian_facts as (B1 & B2 & B3 & B4 & _).
  assert (EL' : lam k = ct_kappa c * - penalty_db (ct_delta c) (dpot c (row_at c (act k)))) by (unfold lam, lam_at; ring). rewrite EL'. unfold slip. rewrite <- (block_quad o (dqdv p) (ct_kappa c) _ (fr k) (pull_form c L (at3 (pb_vel p)) k) _ NV). fold (Dk k).
  unfold Tk. rewrite term_sum_app, (point_terms_sum m _ _ i I), term_sum_flat. rewrite (rsum_ext _ (fun e => if Nat.eqb (sv c (fst e)) (i / 3) then quad (Dk k) (column (snd e) (i mod 3)) else 0)) by (intros e _; apply block_terms_sum, I).
  unfold pull_form. change (nth k (filled (ct_topo c)) 0%nat) with (act k). rewrite <- (B4 (fun v => unit_motion i (sv c v)) k K), row_product.
  assert (IC : In (cv c (act k)) (ct_collider c)) by exact (nth_error_In _ _ (act_collider k K)).
  destruct (Nat.eqb_spec (cv c (act k)) (i / 3)) as [E|E].
  - assert (Z : forall e, In e (row_of J k) -> Nat.eqb (sv c (fst e)) (i / 3) = false). { intros e Ie. destruct (Nat.eqb_spec (sv c (fst e)) (i / 3)) as [F|]; [|reflexivity]. exfalso. apply (AP (sv c (fst e))); [apply nth_In; exact (row_columns k e Ie)|rewrite F, <- E; exact IC]. }
    rewrite rsum_zero by (intros e Ie; rewrite (Z e Ie); reflexivity). rewrite (ContactMapProofs.vsum_ext _ (fun _ => v3_0)) by (intros e Ie; unfold unit_motion; rewrite (Z e Ie); apply mulv_zero).
    assert (V0 : vsum (map (fun _ : nat * m3 => v3_0) (row_of J k)) = v3_0). { generalize (row_of J k). induction l as [|a l IH]; [reflexivity|]. cbn [map]. rewrite vsum_cons, IH. apply v3_eq; unfold v3_0; cbn; ring. } rewrite V0.
    rewrite quad_neg. unfold unit_motion. rewrite E, Nat.eqb_refl, quad_axis by exact M. ring.
  - assert (U0 : unit_motion i (cv c (act k)) = v3_0) by (unfold unit_motion; destruct (Nat.eqb_spec (cv c (act k)) (i / 3)); [contradiction|reflexivity]). rewrite U0.
    match goal with |- _ = quad _ (v3_sub ?x v3_0) => replace (v3_sub x v3_0) with x by (destruct x; apply v3_eq; unfold v3_0; cbn; ring) end.
    rewrite (one_block (Dk k) (sv c) i (row_of J k)); [ring|]. rewrite <- (map_map fst (sv c)). assert (RK : NoDup (map fst (row_of J k))) by (apply row_keys; [exact B2|apply pos_lt_NoDup; exact B1]).
    assert (IJ : forall a b, In a (map fst (row_of J k)) -> In b (map fst (row_of J k)) -> sv c a = sv c b -> a = b).
    { intros a b Ia Ib. apply in_map_iff in Ia, Ib. destruct Ia as (x & <- & Ix), Ib as (y & <- & Iy). unfold sv. assert (ND : NoDup (ct_surface c)). { assert (SS : StronglySorted lt (ct_surface c)) by apply SH. clear - SS. induction SS as [|q l S IH F]; constructor; [|exact IH]. intros H. rewrite List.Forall_forall in F. specialize (F q H). lia. }
      apply (proj1 (NoDup_nth (ct_surface c) 0%nat) ND); [exact (row_columns k x Ix)|exact (row_columns k y Iy)]. }
    revert RK IJ. generalize (map fst (row_of J k)). induction l as [|a l IH]; intros RK IJ; [constructor|]. inversion RK as [|? ? R1 R2]; subst. cbn [map]. constructor.
    + intros H. apply in_map_iff in H. destruct H as (b & Eb & Ib). apply R1. rewrite (IJ a b); [exact Ib|left; reflexivity|right; exact Ib|symmetry; exact Eb].
    + apply IH; [exact R2|]. intros x y Ix Iy. apply IJ; right; assumption.
Qed.
Lemma terms_total : exists T, friction_terms p f = Some T /\ (forall e, In e T -> (fst e < 3 * m)%nat) /\
  forall i, (i < 3 * m)%nat -> term_sum T i = dqdv p * dqdv p * rsum (map (fun k => v2_dot (to_tangent_space (fr k) (pull_form c L (unit_motion i) k)) (friction_jacobian_mul (fo_profile o) (slip k) (lam k) (fo_params o) (to_tangent_space (fr k) (pull_form c L (unit_motion i) k)))) (seq 0 N)).
Proof.
  exists (flat_map Tk (seq 0 N)). split; [exact friction_terms_list|]. split.
  - intros e I. apply in_flat_map in I. destruct I as (k & _ & I). unfold Tk in I. apply in_app_or in I. destruct I as [I|I]; [exact (point_terms_range _ _ _ _ I)|]. apply in_flat_map in I. destruct I as (x & _ & I). exact (block_terms_range _ _ _ _ _ I).
  - intros i I. rewrite term_sum_flat, <- rsum_scale. apply rsum_ext. intros k H. apply in_seq in H. apply terms_sum_row; [lia|exact I].
Qed.
(** The diagonal of the lagged Jacobian. *)
Lemma lagged_diagonal dq o' cur B i : (m <= n)%nat -> fo_lagged o' = true -> fo_profile o' = fo_profile o -> fo_params o' = fo_params o -> friction_jacobian iamax ord o' st cur (pb_vel p) dq m = Some B -> (i < 3 * m)%nat ->
  matrix_entry B i i = rsum (map (fun k => v2_dot (to_tangent_space (fr k) (pull_form c L (unit_motion i) k)) (friction_jacobian_mul (fo_profile o) (slip k) (lam k) (fo_params o) (to_tangent_space (fr k) (pull_form c L (unit_motion i) k)))) (seq 0 N)).
Proof.
  intros MN OL EP1 EP2 EB I. unfold friction_jacobian in EB. destruct (friction_jacobian_blocks iamax ord o' st cur (pb_vel p) dq m) as [B0|] eqn:E0; [|discriminate]. injection EB as <-. pose proof (blocks_within _ _ _ _ _ _ _ _ _ E0) as BW.
  assert (UZ : forall v, (m <= v)%nat -> unit_motion i v = v3_0) by (intros v H; unfold unit_motion; pose proof (below_div m i I); destruct (Nat.eqb_spec v (i / 3)); [lia|reflexivity]).
  pose proof (lagged_form iamax ord OKO n st RS L EL o' cur (pb_vel p) dq m B0 (unit_motion i) (unit_motion i) LV MN OL E0 UZ UZ) as LF. rewrite EP1, EP2 in LF. etransitivity; [|exact LF]. clear LF.
  rewrite matrix_entry_blocks. unfold gbil, pairing, block_product.
  rewrite (rsum_ext (fun v => v3_dot (unit_motion i v) _) (fun v => rsum (map (fun h : nat * nat * m3 => if Nat.eqb (fst (fst h)) v then bil (snd h) (unit_motion i v) (unit_motion i (snd (fst h))) else 0) B0))).
  - rewrite RList.rsum_swap. apply rsum_ext. intros [[r q] A] H. cbn [fst snd]. symmetry. apply (SurfHessProps.seq_pick (fun v => bil A (unit_motion i v) (unit_motion i q))). destruct (BW _ H) as [H1 _]. exact H1.
  - intros v _. clear. induction B0 as [|[[r q] A] l IH]; [cbn [map]; rewrite rsum_nil; unfold vsum; cbn; destruct (unit_motion i v); unfold v3_dot, v3_0; cbn; ring|]. cbn [map]. rewrite vsum_cons, rsum_cons, <- IH. cbn [fst snd]. generalize (vsum (map (fun e : nat * nat * m3 => let '(row, col, B) := e in if Nat.eqb row v then m3_mulv B (unit_motion i col) else v3_0) l)). intros y. unfold bil.
    destruct (Nat.eqb r v); [|destruct (unit_motion i v), y; unfold v3_dot, v3_0, v3_add; cbn; ring]. generalize (m3_mulv A (unit_motion i q)). intros z. destruct (unit_motion i v), y, z. unfold v3_dot, v3_add. cbn. ring.
Qed.
End Slip.
