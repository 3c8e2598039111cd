(** Proofs about assembled friction: the contact matrices, bases and multipliers along moving vertices, and the parts of the Jacobian. *)
From Coq Require Import Reals List Bool Lra Lia Sorting.Sorted.
From Coquelicot Require Import Coquelicot.
From Verif Require Import Vec3 Mat3 RList KernelModel KernelSpec FieldModel FieldSpec FieldProofs NeighborModel NeighborSpec NeighborProofs UpdateProps SurfJacModel SurfJacSpec SurfJacProofs HessModel HessSpec HessProofs HessProps HessMixProofs ContactModel ContactProofs ContactJacModel ContactJacSpec ContactJacProps ContactMapModel ContactMapSpec ContactMapProofs
  AssemblyModel ContactAsmModel ContactAsmSpec ContactAsmProofs ContactAsmProps ContactDerivModel ContactDerivSpec ContactDerivRowProofs ContactDerivProps BasisJacModel BasisJacSpec BasisJacProofs BasisJacProps
  ContactHessModel ContactHessSpec ContactHessProofs ContactRowProofs ContactMoveProofs JetProofs FrictionModel FrictionSpec FrictionProofs FricAsmModel FricAsmSpec FricAlgProofs FricCurveProofs FricStateProofs FricActProofs FricFormProofs FricMoveProofs.
Import ListNotations.
Local Open Scope R_scope.

Lemma moves_const0 (a : v3) : moves (fun _ => a) v3_0.
Proof. refine (conj _ (conj _ _)); apply @is_derive_const. Qed.
Lemma moves_add f g (df dg : v3) : moves f df -> moves g dg -> moves (fun s => v3_add (f s) (g s)) (v3_add df dg).
Proof. intros (A1 & A2 & A3) (B1 & B2 & B3). refine (conj _ (conj _ _)); cbn [v3_add vx vy vz]; apply @is_derive_plus; assumption. Qed.
Lemma moves_sub f g (df dg : v3) : moves f df -> moves g dg -> moves (fun s => v3_sub (f s) (g s)) (v3_sub df dg).
Proof. intros (A1 & A2 & A3) (B1 & B2 & B3). refine (conj _ (conj _ _)); cbn [v3_sub vx vy vz]; apply @is_derive_minus; assumption. Qed.
Lemma moves_vsum {A} (f : A -> R -> v3) (d : A -> v3) l : (forall a, In a l -> moves (f a) (d a)) -> moves (fun s => vsum (map (fun a => f a s) l)) (vsum (map d l)).
Proof.
  induction l as [|a l IH]; intros H; [exact (moves_const0 v3_0)|]. cbn [map]. rewrite vsum_cons. apply moves_add; [apply H; left; reflexivity|]. apply IH. intros b I. apply H. right. exact I.
Qed.

Lemma mulv_plus B x y : m3_mulv B (v3_add x y) = v3_add (m3_mulv B x) (m3_mulv B y).
Proof. destruct B as [[a1 a2 a3] [b1 b2 b3] [c1 c2 c3]], x as [x1 x2 x3], y as [y1 y2 y3]. apply v3_eq; unfold m3_mulv, v3_dot, v3_add; cbn [r0 r1 r2 vx vy vz]; ring. Qed.
Lemma matrices_columns c n L : contact_shape c n -> contact_matrices (ct_topo c) (ct_points c) = Some L -> forall e, In e L -> (snd (fst e) < length (sb_verts (cbase c)))%nat.
Proof.
  intros SH E e I. rewrite (matrices_flat (ct_topo c) (ct_points c) (TY c n SH) (WF c n SH) (IOK c n SH) (LPN c n SH)) in E. injection E as <-. apply in_flat_map in I. destruct I as (r & R & I). apply in_flat_map in I. destruct I as (i & Hi & I). apply in_map_iff in I. destruct I as (v & <- & V). cbn [fst snd].
  exact (tri_bound (ct_topo c) (TY c n SH) (WF c n SH) (IOK c n SH) r i v R Hi V).
Qed.
Lemma push_add c L y z i : push_form c L (fun k => v3_add (y k) (z k)) i = v3_add (push_form c L y i) (push_form c L z i).
Proof.
  unfold push_form. assert (EF : forall v, transposed_product L (for_filled (ct_topo c) (map (fun k => v3_add (y k) (z k)) (seq 0 (length (filled (ct_topo c)))))) v
    = v3_add (transposed_product L (for_filled (ct_topo c) (map y (seq 0 (length (filled (ct_topo c)))))) v) (transposed_product L (for_filled (ct_topo c) (map z (seq 0 (length (filled (ct_topo c)))))) v)).
  { intros v. unfold transposed_product. rewrite <- vsum_plus. apply vsum_ext. intros [[r col] M] _. destruct (Nat.eqb col v); [|symmetry; apply add_0_l]. rewrite <- mulv_plus. f_equal. unfold for_filled.
    set (j := length (filter _ _)). destruct (Nat.lt_ge_cases j (length (filled (ct_topo c)))) as [H|H]; [rewrite !nth_map_seq by exact H; reflexivity|]. rewrite !nth_overflow by (rewrite map_length, seq_length; exact H). symmetry. apply add_0_l. }
  match goal with |- v3_sub ?x ?y = v3_add (v3_sub ?p ?q) (v3_sub ?u ?w) => assert (E1 : x = v3_add p u); [|assert (E2 : y = v3_add q w); [|rewrite E1, E2; generalize p q u w; intros; apply v3_eq; unv; ring]] end.
  - rewrite <- vsum_plus. apply vsum_ext. intros v _. destruct (Nat.eqb (sv c v) i); [apply EF|symmetry; apply add_0_l].
  - rewrite <- vsum_plus. apply vsum_ext. intros k _. destruct (Nat.eqb _ i); [reflexivity|symmetry; apply add_0_l].
Qed.
Lemma push_linear c n L i : contact_shape c n -> linear_below (length (filled (ct_topo c))) (fun x => push_form c L x i).
Proof. intros SH. refine (conj _ (conj _ _)); [intros x y H; apply push_ext; exact H|intros x y; apply push_add|intros a x; apply push_scale]. Qed.

(** ** The friction law of one contact *)
Definition eta_matrix (kd : profile_kind) (fp : friction_params) (w : v2) (lam : R) : m3 :=
  let c0 := friction_jacobian_mul kd w lam fp (V2 1 0) in let c1 := friction_jacobian_mul kd w lam fp (V2 0 1) in
  M3 v3_0 (V3 0 (v2x c0) (v2x c1)) (V3 0 (v2y c0) (v2y c1)).
Definition plane (w : v2) : v3 := V3 0 (v2x w) (v2y w).
Lemma eta_apply kd fp w lam x : m3_mulv (eta_matrix kd fp w lam) x = plane (friction_jacobian_mul kd w lam fp (V2 (vy x) (vz x))).
Proof.
  destruct x as [x0 x1 x2], w as [w1 w2]. unfold eta_matrix, plane, friction_jacobian_mul. cbv zeta. destruct (Rlt_dec 0 (v2_norm (V2 w1 w2))) as [P|P].
  - assert (NZ : v2_norm (V2 w1 w2) <> 0) by (intros E; rewrite E in P; lra). set (nn := v2_norm (V2 w1 w2)) in *. clearbody nn. unfold m3_mulv, v3_dot, v2_add, v2_scale, v2_dot, v3_0. cbn [r0 r1 r2 vx vy vz v2x v2y]. f_equal; field; exact NZ.
  - unfold m3_mulv, v3_dot, v2_add, v2_scale, v3_0. cbn [r0 r1 r2 vx vy vz v2x v2y]. f_equal; ring.
Qed.
Lemma law_moves kd fp (mm : R -> v3) dm (lam : R -> R) dl : valid_params fp -> smooth_sliding fp (V2 (vy (mm 0)) (vz (mm 0))) -> moves mm dm -> is_derive lam 0 dl ->
  moves (fun s => plane (friction_profile kd (V2 (vy (mm s)) (vz (mm s))) (lam s) fp))
    (v3_add (m3_mulv (eta_matrix kd fp (V2 (vy (mm 0)) (vz (mm 0))) (lam 0)) dm) (v3_scale (dl * slope kd fp (v2_norm (V2 (vy (mm 0)) (vz (mm 0))))) (plane (V2 (vy (mm 0)) (vz (mm 0)))))).
Proof.
  intros VP SM (M1 & M2 & M3) DL. rewrite eta_apply.
  assert (MW : moves2 (fun s => V2 (vy (mm s)) (vz (mm s))) (V2 (vy dm) (vz dm))) by (split; assumption).
  destruct (profile_moves kd fp _ _ lam dl VP SM MW DL) as [P1 P2]. cbv beta in P1, P2. refine (conj _ (conj _ _)).
  - eapply is_derive_eq; [exact (is_derive_const (0 : R) 0)|]. cbn. ring.
  - eapply is_derive_eq; [exact P1|]. cbn [plane v2_add v2_scale v3_add v3_scale v2x v2y vx vy vz]. reflexivity.
  - eapply is_derive_eq; [exact P2|]. cbn [plane v2_add v2_scale v3_add v3_scale v2x v2y vx vy vz]. reflexivity.
Qed.

(** ** The parts of the Jacobian *)
Lemma combine_parts {A B} (l : list (A * B)) : combine (map fst l) (map snd l) = l.
Proof. induction l as [|[a b] l IH]; [reflexivity|]. cbn [map combine fst snd]. rewrite IH. reflexivity. Qed.
Section Parts.
Variable iamax : v3 -> nat.
Variable ord : list nat -> list nat.
Variable c : contact.
Variable n : nat.
Hypothesis SH : contact_shape c n.
Variables (V : list v3) (m : nat) (st : friction_state) (o : friction_options) (L : blocks).
Hypothesis D : described iamax ord c n st.
Hypothesis LV : length V = n.
Hypothesis MN : (m <= n)%nat.
Hypothesis EL : contact_matrices (ct_topo c) (ct_points c) = Some L.
Let t := ct_topo c.
Let N := length (filled t).
Let act k := nth k (filled t) 0%nat.
Let kd := fo_profile o.
Let fp := fo_params o.
Let fr k := frame_at iamax c (act k).
Let lam k := lam_at c (act k).
Let slip k := pull_form c L (at3 V) k.
Let wt k := to_tangent_space (fr k) (slip k).
Lemma velocities_known : contact_mul (friction_maps st) V = map slip (seq 0 N).
Proof. destruct (state_action iamax ord c n SH st D) as (L' & EL' & _ & _ & PV). fold t in EL, EL'. rewrite EL in EL'. injection EL' as <-. exact (PV V LV). Qed.
Lemma contacts_known : combine (map slip (seq 0 N)) (combine (fs_lambda st) (fs_frames st)) = map (fun k => (slip k, (lam k, fr k))) (seq 0 N).
Proof. rewrite (lambda_seq iamax ord c n SH st D), (frames_seq iamax ord c n SH st D), combine_maps, combine_maps. reflexivity. Qed.
Lemma gradient_action y i : block_product (entries (fs_gradient st)) y i = push_form c L y i.
Proof. destruct (state_action iamax ord c n SH st D) as (L' & EL' & _ & PS & _). fold t in EL, EL'. rewrite EL in EL'. injection EL' as <-. apply PS. Qed.
Lemma transposed_action U k : (k < N)%nat -> (forall i, (m <= i)%nat -> U i = v3_0) -> block_product (transposed (entries (fs_gradient st))) U k = pull_form c L U k.
Proof. intros K Z. destruct (state_action iamax ord c n SH st D) as (L' & EL' & PT & _ & _). fold t in EL, EL'. rewrite EL in EL'. injection EL' as <-. apply PT; [exact K|]. intros i H. apply Z. lia. Qed.
Let dh := map (eta_block kd fp) (map (fun k => (slip k, (lam k, fr k))) (seq 0 N)).
Lemma dh_nth k : (k < N)%nat -> nth k dh m3_zero = eta_matrix kd fp (wt k) (lam k).
Proof. intros K. unfold dh. rewrite map_map, nth_map_seq by exact K. reflexivity. Qed.
Lemma basis_nth k x : (k < N)%nat -> m3_mulv (nth k (full_basis (fs_frames st)) m3_zero) x = from_contact_coordinates (fr k) x.
Proof. intros K. unfold full_basis. rewrite (frames_seq iamax ord c n SH st D), map_map, nth_map_seq by exact K. reflexivity. Qed.
Lemma basis_transpose_nth k x : (k < N)%nat -> m3_mulv (nth k (full_basis_transpose (fs_frames st)) m3_zero) x = to_contact_coordinates (fr k) x.
Proof. intros K. unfold full_basis_transpose. rewrite (frames_seq iamax ord c n SH st D), map_map, nth_map_seq by exact K. reflexivity. Qed.
(** A product of the form used in every part. *)
Lemma product_action (P : blocks) U i z : (forall k, (k < N)%nat -> block_product P U k = z k) -> block_product (matrix_product (entries (fs_gradient st)) P) U i = push_form c L z i.
Proof. intros H. rewrite matrix_product_apply, gradient_action. apply push_ext. exact H. Qed.
Lemma eta_action (P : blocks) U k z : (k < N)%nat -> block_product P U k = z -> block_product (premultiply (full_basis (fs_frames st)) (premultiply dh P)) U k = from_contact_coordinates (fr k) (m3_mulv (eta_matrix kd fp (wt k) (lam k)) z).
Proof. intros K E. rewrite !premultiply_apply, (basis_nth k _ K), (dh_nth k K), E. reflexivity. Qed.
Lemma to_action (P : blocks) U k z : (k < N)%nat -> block_product P U k = z -> block_product (premultiply (full_basis_transpose (fs_frames st)) P) U k = to_contact_coordinates (fr k) z.
Proof. intros K E. rewrite premultiply_apply, (basis_transpose_nth k _ K), E. reflexivity. Qed.
Lemma lagged_action U i : (forall i, (m <= i)%nat -> U i = v3_0) ->
  block_product (matrix_product (entries (fs_gradient st)) (premultiply (full_basis (fs_frames st)) (premultiply dh (premultiply (full_basis_transpose (fs_frames st)) (transposed (entries (fs_gradient st))))))) U i
  = push_form c L (fun k => from_contact_coordinates (fr k) (m3_mulv (eta_matrix kd fp (wt k) (lam k)) (to_contact_coordinates (fr k) (pull_form c L U k)))) i.
Proof. intros Z. apply product_action. intros k K. apply (eta_action _ U k _ K). apply (to_action _ U k _ K). apply (transposed_action U k K Z). Qed.
Lemma number_act k : (k < N)%nat -> cnum c (act k) = k.
Proof.
  intros K. pose proof (row_numbers c n SH) as E. rewrite (rows_at c n SH), map_map in E. cbn [row_at fst] in E. apply (f_equal (fun l => nth k l 0%nat)) in E. rewrite map_length in E. fold t N in E. rewrite seq_nth in E by exact K.
  rewrite (nth_indep _ 0%nat (cnum c 0%nat)) in E by (rewrite map_length; exact K). rewrite (map_nth (cnum c)) in E. exact E.
Qed.
Lemma lambda_action dqdv U i : respects c U -> (i < m)%nat -> (forall i, (m <= i)%nat -> U i = v3_0) ->
  block_product (lambda_product o st (map slip (seq 0 N)) m dqdv) U i
  = push_form c L (fun k => v3_scale (- dqdv * ct_kappa c * penalty_ddb (ct_delta c) (dpot c (row_at c (act k))) * rate1 c U (row_at c (act k))) (from_contact_coordinates (fr k) (plane (friction_profile kd (wt k) 1 fp)))) i.
Proof.
  intros RE I Z. destruct (state_order iamax ord c n st D) as [O1 O2]. rewrite (lambda_product_apply o st _ m dqdv U i O1 O2 I Z). assert (D1 : fs_contact st = c) by apply D. rewrite D1, gradient_action. apply push_ext. intros k K.
  rewrite (frames_seq iamax ord c n SH st D), combine_maps, map_map. fold t N. rewrite nth_map_seq by exact K. cbn [fst snd]. rewrite (state_dist iamax ord c n SH st D k K). fold t. change (nth k (filled t) 0%nat) with (act k).
  assert (D8 : fs_distance st = build_distance_gradient (jacobian_rows c) n (constraint_size c)) by apply D. rewrite D8, (col_rate_built (jacobian_rows c) n (constraint_size c) U k (jacobian_range c n SH)).
  assert (IA : In (act k) (filled t)) by (apply nth_In; exact K). pose proof (jacobian_rate c n SH U RE _ (row_at_in c n SH (act k) IA)) as E. cbn [row_at fst] in E. rewrite (number_act k K) in E. rewrite E. reflexivity.
Qed.
(** Friction with the contact matrices and the bases left in place. *)
Lemma pull_moves (f : R -> nat -> v3) (df : nat -> v3) k : (k < N)%nat -> (forall j, (j < n)%nat -> moves (fun s => f s j) (df j)) -> moves (fun s => pull_form c L (f s) k) (pull_form c L df k).
Proof.
  intros K H. unfold pull_form, block_product. fold t. change (nth k (filled t) 0%nat) with (act k). apply moves_sub.
  - apply (moves_vsum (fun e s => let '(row, col, B) := e in if Nat.eqb row (act k) then m3_mulv B (f s (sv c col)) else v3_0)). intros [[r v] B] I. destruct (Nat.eqb r (act k)); [|apply moves_const0].
    assert (MV : moves (fun s => f s (sv c v)) (df (sv c v))) by (apply H, (vertex_range c n SH); left; apply (in_surface c n SH v); exact (matrices_columns c n L SH EL _ I)).
    destruct MV as (M1 & M2 & M3'). destruct B as [[a0 a1 a2] [b0 b1 b2] [d0 d1 d2]]. unfold m3_mulv, v3_dot. cbn [r0 r1 r2]. refine (conj _ (conj _ _)); cbn [vx vy vz]; repeat apply @is_derive_plus; apply is_derive_scal; assumption.
  - apply H, (vertex_range c n SH). right. unfold cv. apply nth_In. rewrite (LCV c n SH). apply (filled_range c n SH), nth_In. exact K.
Qed.
Lemma mulv_moves B f df : moves f df -> moves (fun s => m3_mulv B (f s)) (m3_mulv B df).
Proof.
  intros (M1 & M2 & M3'). destruct B as [[a0 a1 a2] [b0 b1 b2] [d0 d1 d2]]. unfold m3_mulv, v3_dot. cbn [r0 r1 r2]. refine (conj _ (conj _ _)); cbn [vx vy vz]; repeat apply @is_derive_plus; apply is_derive_scal; assumption.
Qed.
Lemma frozen_moves U (lamc : nat -> R -> R) (dl : nat -> R) i : valid_params fp -> (forall k, (k < N)%nat -> smooth_sliding fp (wt k)) -> (forall k, (k < N)%nat -> lamc k 0 = lam k /\ is_derive (lamc k) 0 (dl k)) ->
  moves (fun s => push_form c L (fun k => contact_push kd fp (fr k) (lamc k s) (pull_form c L (at3 (mesh_line V U s)) k)) i)
    (push_form c L (fun k => from_contact_coordinates (fr k) (v3_add (m3_mulv (eta_matrix kd fp (wt k) (lam k)) (to_contact_coordinates (fr k) (pull_form c L U k))) (v3_scale (dl k * slope kd fp (v2_norm (wt k))) (plane (wt k))))) i).
Proof.
  intros VP SM DL.
  assert (P := linear_moves N (fun _ x => push_form c L x i) (fun _ => v3_0) (fun s k => contact_push kd fp (fr k) (lamc k s) (pull_form c L (at3 (mesh_line V U s)) k))
    (fun k => from_contact_coordinates (fr k) (v3_add (m3_mulv (eta_matrix kd fp (wt k) (lam k)) (to_contact_coordinates (fr k) (pull_form c L U k))) (v3_scale (dl k * slope kd fp (v2_norm (wt k))) (plane (wt k)))))
    (fun _ => push_linear c n L i SH) (fun x => moves_const0 (push_form c L x i))). cbv beta in P. rewrite add_0_l in P. apply P. clear P. intros k K.
  destruct (DL k K) as [L0 DK]. unfold contact_push, contact_law, contact_slip, from_contact_coordinates at 1. unfold from_contact_coordinates. apply mulv_moves.
  assert (MV : moves (fun s => to_contact_coordinates (fr k) (pull_form c L (at3 (mesh_line V U s)) k)) (to_contact_coordinates (fr k) (pull_form c L U k))).
  { unfold to_contact_coordinates. apply mulv_moves, pull_moves; [exact K|]. intros j J. apply (moves_ext (fun s => v3_line (nth j V v3_0) (U j) s)); [|apply moves_line]. intros s. symmetry. unfold at3. apply mesh_nth; [exact c|]. rewrite LV. exact J. }
  assert (V0 : mesh_line V U 0 = V) by (apply (nth_ext _ _ v3_0 v3_0); [apply mesh_length; exact c|]; intros r LR; rewrite (mesh_length c) in LR; rewrite (mesh_nth c) by exact LR; apply HessProps.line_0).
  pose proof (law_moves kd fp (fun s => to_contact_coordinates (fr k) (pull_form c L (at3 (mesh_line V U s)) k)) (to_contact_coordinates (fr k) (pull_form c L U k)) (lamc k) (dl k) VP) as Q. cbv beta in Q. rewrite V0, L0 in Q. exact (Q (SM k K) MV DK).
Qed.
End Parts.

Section Motion.
Variable iamax : v3 -> nat.
Hypothesis PK : picks_largest iamax.
Variable ord : list nat -> list nat.
Hypothesis OK : lists_the_set ord.
Variable c : contact.
Variable n : nat.
Variable X : list v3.
Hypothesis SH : contact_shape c n.
Hypothesis PL : in_place (cbase c).
Hypothesis AT : placed c X.
Hypothesis PW : p_weighted (sb_bg (cbase c)) = false.
Hypothesis CP : forall a, In a (filled (ct_topo c)) -> contact_point (ct_topo c) (nth a (ct_points c) v3_0) (nth a (trivial_neighborhood (ct_topo c)) []).
Let t := ct_topo c.
Let b := cbase c.
Let N := length (filled t).
Let nv := length (sb_verts b).
Let act k := nth k (filled t) 0%nat.
Section Curve.
Variable W : nat -> v3.
Variable rb : bool.
Let tau := ctau c X W rb.
Definition matrices_along (s : R) : blocks := match contact_matrices (ct_topo (ctau c X W rb s)) (ct_points (ctau c X W rb s)) with Some L => L | None => [] end.
Let qs s := mesh_line (ct_points c) (mcol c W) s.
Let dq r := if Nat.ltb r (length (ct_points c)) then mcol c W r else v3_0.
Lemma qs_moves r : moves (fun s => nth r (qs s) v3_0) (dq r).
Proof.
  unfold dq. destruct (Nat.ltb_spec r (length (ct_points c))) as [L|L].
  - apply (moves_ext (fun s => v3_line (nth r (ct_points c) v3_0) (mcol c W r) s)); [|apply moves_line]. intros s. symmetry. apply mesh_nth; [exact c|exact L].
  - apply (moves_ext (fun _ => v3_0)); [|apply moves_const0]. intros s. symmetry. apply nth_overflow. unfold qs. rewrite (mesh_length c). exact L.
Qed.
Lemma qs_start : qs 0 = ct_points c.
Proof. apply (nth_ext _ _ v3_0 v3_0); [apply mesh_length; exact c|]. intros r L. unfold qs in *. rewrite (mesh_length c) in L. rewrite (mesh_nth c) by exact L. apply HessProps.line_0. Qed.
Lemma faces_distinct : forall tr, In tr (sb_topo b) -> distinct_corners tr.
Proof. apply (PM c n SH). Qed.
Lemma neighborhoods_nodup : forall l, In l (trivial_neighborhood t) -> NoDup l.
Proof. apply SH. Qed.
Lemma qs_length s : length (qs s) = length (trivial_neighborhood t).
Proof. unfold qs. rewrite (mesh_length c). exact (LPN c n SH). Qed.
Lemma qs_points r : In r (filled t) -> contact_point t (nth r (qs 0) v3_0) (nth r (trivial_neighborhood t) []).
Proof. rewrite qs_start. exact (CP r). Qed.
Lemma tau_surface s : ct_topo (tau s) = surface_at t (mesh_line (sb_verts b) (mobj c W) s) rb /\ ct_points (tau s) = qs s.
Proof. destruct (ctau_spec c n X SH AT W rb s) as (_ & _ & _ & _ & _ & E1 & E2). split; assumption. Qed.
Lemma along_known L : (forall s, contact_matrices (surface_at t (mesh_line (sb_verts b) (mobj c W) s) rb) (qs s) = Some (L s)) -> forall s, L s = matrices_along s.
Proof. intros E s. unfold matrices_along. fold (tau s). destruct (tau_surface s) as [-> ->]. rewrite E. reflexivity. Qed.
Lemma along_spec s : contact_matrices (ct_topo (tau s)) (ct_points (tau s)) = Some (matrices_along s).
Proof.
  destruct (contact_product_derivative ord t (mobj c W) rb qs dq (repeat v3_0 nv) (TY c n SH) (WF c n SH) faces_distinct PL (IOK c n SH) neighborhoods_nodup (VK c n SH) PW OK qs_length qs_moves qs_points (repeat_length _ _)) as (_ & _ & L & _ & _ & E & _).
  rewrite <- (along_known L E s). destruct (tau_surface s) as [-> ->]. apply E.
Qed.
(** The start of the motion. *)
Lemma start_samples : keep (sb_samples b) (sb_samples (moved b (mobj c W) rb 0)) = sb_samples b.
Proof. destruct (moving_mesh b (mobj c W) rb [] (WF c n SH) faces_distinct PL) as (S0 & _); [intros i []|exact S0]. Qed.
Lemma start_matrices : contact_matrices t (ct_points c) = Some (matrices_along 0).
Proof.
  rewrite <- (along_spec 0). destruct (ctau_spec c n X SH AT W rb 0) as (_ & SH0 & _ & SS & EB & _ & _). fold (tau 0) in *. destruct (tau_surface 0) as [_ EQ]. rewrite qs_start in EQ.
  rewrite (matrices_flat t (ct_points c) (TY c n SH) (WF c n SH) (IOK c n SH) (LPN c n SH)), (matrices_flat (ct_topo (tau 0)) (ct_points (tau 0)) (TY (tau 0) n SH0) (WF (tau 0) n SH0) (IOK (tau 0) n SH0) (LPN (tau 0) n SH0)).
  destruct SS as (T1 & T2 & T3 & T4 & T5 & T6 & T7 & _). unfold filled. rewrite T1, T4, EQ. fold (cbase (tau 0)). f_equal. apply flat_map_ext. intros r. apply flat_map_ext. intros i. rewrite T6, T7, EB.
  rewrite <- (entry_keep _ (sb_samples b) (sb_samples (moved (cbase c) (mobj c W) rb 0))) by apply moved_length. fold b. rewrite start_samples. reflexivity.
Qed.
Lemma start_grad a : In a (filled t) -> grad_at (tau 0) a = grad_at c a.
Proof.
  intros I. unfold grad_at. unfold tau. rewrite (row_points c n X SH AT W rb 0 a I). destruct (ctau_spec c n X SH AT W rb 0) as (_ & _ & _ & (T1 & T2 & T3 & T4 & T5 & T6 & T7 & _) & EB & _ & _).
  unfold jcol, csamples, line_row. cbn [fst snd row_at]. rewrite HessProps.line_0, T4, T7, EB. fold b. rewrite <- (jacobian_keep _ (sb_samples b)) by apply moved_length. rewrite start_samples. reflexivity.
Qed.
Lemma start_lam a : In a (filled t) -> lam_at (tau 0) a = lam_at c a.
Proof.
  intros I. unfold tau. rewrite (lam_line c n X SH AT W rb 0 a I). destruct (row_jets c n SH PL (regular_from_point c n SH PW CP) W rb (row_at c a) (row_at_in c n SH a I)) as [J _]. assert (E0 : pot_line c W rb (row_at c a) 0 = dpot c (row_at c a)) by apply J. rewrite E0. reflexivity.
Qed.
(** Products with the contact matrices. *)
Lemma jj_moves inv (mults : list v3) m k : length inv = length (ct_points c) -> (forall r k, nth r inv None = Some k <-> nth_error (filled t) k = Some r) -> length mults = nv -> (k < N)%nat -> (forall i, (m <= i)%nat -> W i = v3_0) ->
  exists A B, jac_jacobian_triplets ord c inv mults m = Some (jj_blocks c inv m A B) /\ map fst A = places1 ord (sb_topo b) (trivial_neighborhood t) (filled t) /\ map fst B = places2 (trivial_neighborhood t) (filled t) /\
    moves (fun s => block_product (matrices_along s) (fun v => nth v mults v3_0) (act k)) (block_product (transposed (jj_blocks c inv m A B)) W k).
Proof.
  intros LI IN LM K Z.
  destruct (contact_product_derivative ord t (mobj c W) rb qs dq mults (TY c n SH) (WF c n SH) faces_distinct PL (IOK c n SH) neighborhoods_nodup (VK c n SH) PW OK qs_length qs_moves qs_points LM) as (A & B & L & EA & EB & EL & M).
  rewrite qs_start in EA, EB. destruct (jj_some ord OK c n SH inv mults LI) as (A' & B' & EA' & EB' & FA & FB & T); [rewrite LM; apply Nat.le_refl|]. fold t in EA', EB'. rewrite EA in EA'. injection EA' as <-. rewrite EB in EB'. injection EB' as <-.
  exists A, B. refine (conj (T m) (conj FA (conj FB _))). rewrite (jj_apply c inv m A B W k IN K Z).
  apply (moves_ext (fun s => block_product (L s) (fun v => nth v mults v3_0) (act k))); [intros s; rewrite (along_known L EL s); reflexivity|].
  assert (E : column_major_product B (fun v => W (cv c v)) (act k) = column_major_product B dq (act k)).
  { apply cmp_ext. intros [[r v] M'] I Q. cbn [fst snd] in *. unfold dq. assert (I' : In (r, v) (map fst B)) by (apply in_map_iff; exists (r, v, M'); split; [reflexivity|exact I]). rewrite FB in I'. unfold places2 in I'. apply in_flat_map in I'. destruct I' as (a & Ia & I'). apply in_map_iff in I'. destruct I' as (x & Ea & _). injection Ea as <- <-. rewrite (proj2 (Nat.ltb_lt _ _) (filled_range c n SH a Ia)). reflexivity. }
  change (nth k (filled (ct_topo c)) 0%nat) with (act k). cbv beta. rewrite E. exact (M (act k)).
Qed.
Lemma jg_moves (y : nat -> v3) m i : (i < m)%nat -> (forall i, (m <= i)%nat -> W i = v3_0) ->
  exists A B, jac_gradient_triplets ord c (map y (seq 0 N)) m = Some (jg_blocks c m A B) /\ map fst A = places3 ord (sb_topo b) (trivial_neighborhood t) (filled t) /\ map fst B = places4 (sb_topo b) (trivial_neighborhood t) (filled t) /\
    moves (fun s => push_form c (matrices_along s) y i) (block_product (jg_blocks c m A B) W i).
Proof.
  intros I Z. assert (LM : length (map y (seq 0 N)) = length (filled t)) by (rewrite map_length, seq_length; reflexivity).
  destruct (contact_transposed_derivative ord t (mobj c W) rb qs dq (map y (seq 0 N)) (TY c n SH) (WF c n SH) faces_distinct PL (IOK c n SH) neighborhoods_nodup (VK c n SH) PW OK qs_length qs_moves qs_points LM) as (A & B & L & EA & EB & EL & M).
  rewrite qs_start in EA, EB. destruct (jg_some ord OK c n SH (map y (seq 0 N)) LM) as (A' & B' & EA' & EB' & FA & FB & RA & RB & T). fold t in EA', EB'. rewrite EA in EA'. injection EA' as <-. rewrite EB in EB'. injection EB' as <-.
  exists A, B. refine (conj (T m) (conj FA (conj FB _))). rewrite (jg_apply c m A B W i RA RB I Z). fold b nv.
  match goal with |- moves _ ?x => replace x with (v3_sub x v3_0) by (generalize x; intros z; apply v3_eq; unv; ring) end. unfold push_form. apply moves_sub; [|apply moves_const0].
  apply (moves_vsum (fun v s => if Nat.eqb (sv c v) i then transposed_product (matrices_along s) (for_filled t (map y (seq 0 N))) v else v3_0)). intros v _. destruct (Nat.eqb (sv c v) i); [|apply moves_const0].
  apply (moves_ext (fun s => transposed_product (L s) (for_filled t (map y (seq 0 N))) v)); [intros s; rewrite (along_known L EL s); reflexivity|].
  assert (E : column_major_product B (fun v => W (cv c v)) v = column_major_product B dq v).
  { apply cmp_ext. intros [[r v'] M'] J Q. cbn [fst snd] in *. unfold dq. assert (J' : In (r, v') (map fst B)) by (apply in_map_iff; exists (r, v', M'); split; [reflexivity|exact J]). rewrite FB in J'.
    destruct (derivative_places ord t OK (WF c n SH) (IOK c n SH) (TY c n SH)) as (_ & _ & _ & _ & _ & J4). apply J4 in J'. destruct J' as (i' & Hi & _). rewrite (proj2 (Nat.ltb_lt _ _) (near_row c n SH v' i' Hi)). reflexivity. }
  rewrite E. exact (M v).
Qed.
(** The bases. *)
Hypothesis GR : forall a, In a (filled t) -> grad_at c a <> v3_0 /\ dominant (grad_at c a).
Lemma basis_moves st ms (tr : bool) m : described iamax ord c n st -> length ms = N -> (forall i, (m <= i)%nat -> W i = v3_0) ->
  exists jb, basis_gradient iamax st ms tr m = Some jb /\ forall k, (k < N)%nat ->
    moves (fun s => (if tr then to_contact_coordinates else from_contact_coordinates) (frame_at iamax (tau s) (act k)) (nth k ms v3_0)) (block_product (transposed (entries jb)) W k).
Proof.
  intros D LM Z. destruct (gradients_some c n SH) as (g & EG & LG & NG). fold t in EG, NG. assert (D1 : fs_contact st = c) by apply D. assert (D3 : reverse_map (length (ct_points c)) (filled t) = Some (fs_constraints st)) by apply D.
  destruct (reverse_map_spec (length (ct_points c)) (filled t) (filled_nodup c) (filled_range c n SH)) as (inv & EI & LI & IN). rewrite D3 in EI. injection EI as EI.
  unfold basis_gradient. rewrite D1. fold t. rewrite EG, EI, LI. assert (EQ : query_hessian_blocks t (ct_points c) (repeat 1 (length (ct_points c))) = Some (hessian_q c)) by exact (hessian_q_some c _ (rows_bound c n SH)). assert (EV : supported (sample_query_hessian t (ct_points c) None) = Some (hessian_v c)) by exact (hessian_v_some c n SH). rewrite EQ, EV.
  set (G := fun a s => if in_dec Nat.eq_dec a (filled t) then grad_at (tau s) a else nth a g v3_0).
  assert (GF : forall a s, In a (filled t) -> G a s = grad_at (tau s) a) by (intros a s I; unfold G; destruct (in_dec Nat.eq_dec a (filled t)); [reflexivity|contradiction]).
  destruct (basis_blocks_derivative iamax (filled t) inv (ct_surface c) (ct_collider c) (map fr_normal (fs_frames st)) g ms tr (hessian_q c) (hessian_v c) W G PK (filled_nodup c)) as (P & EP & _ & M).
  - intros a I. rewrite (LCV c n SH). exact (filled_range c n SH a I).
  - rewrite (LCV c n SH), <- EI. exact D3.
  - intros q H I. unfold hessian_q in I. apply in_map_iff in I. destruct I as (p & E & I). injection E as <- _. rewrite (LCV c n SH). destruct (row_in c p I) as (L & _). exact L.
  - intros q v H I. unfold hessian_v in I. apply in_flat_map in I. destruct I as (p & I & J). apply in_map_iff in J. destruct J as (e & E & J). injection E as <- <- _. rewrite (LCV c n SH), (LSV c n SH). split; [destruct (row_in c p I) as (L & _); exact L|]. exact (hmix_below c n SH p e I J).
  - rewrite (frames_seq iamax ord c n SH st D), map_map.
    transitivity (map (fun k => contact_normal (G (act k) 0)) (seq 0 N)).
    + apply map_ext_in. intros k K. apply in_seq in K. assert (IA : In (act k) (filled t)) by (apply nth_In; unfold N in K; lia). rewrite (GF _ 0 IA), (start_grad _ IA). reflexivity.
    + exact (map_nth_seq (fun a => contact_normal (G a 0)) 0%nat (filled t)).
  - rewrite (LCV c n SH). apply list_as_seq; [exact LG|]. intros a LA. unfold G. destruct (in_dec Nat.eq_dec a (filled t)) as [I|I]; [|apply nth_error_nth'; rewrite LG; exact LA]. rewrite (start_grad a I). exact (NG a I).
  - exact LM.
  - intros a I. rewrite (GF a 0 I), (start_grad a I). destruct (GR a I) as [NZ DM]. refine (conj NZ (conj DM _)). apply (moves_ext (fun s => grad_at (tau s) a)); [intros s; symmetry; apply GF, I|]. exact (grad_moves c n X SH PL AT PW CP W rb a I).
  - unfold basis_gradient_product. rewrite EP. cbn [option_map]. eexists. split; [reflexivity|]. intros k K. rewrite built_transposed. change (map _ (filter _ P)) with (transposed (filter (fun e => Nat.ltb (snd (fst e)) m) P)). rewrite transposed_twice, below_apply by exact Z.
    assert (AK : nth_error (filled t) k = Some (act k)) by (apply nth_error_nth'; exact K). specialize (M k (act k) AK). assert (IA : In (act k) (filled t)) by (apply nth_In; exact K).
    eapply moves_ext; [|exact M]. intros s. cbv beta. rewrite (GF _ s IA). reflexivity.
Qed.
End Curve.
Lemma rate_scale W a p : rate1 c (fun i => v3_scale a (W i)) p = a * rate1 c W p.
Proof.
  unfold rate1, mcol, mobj. rewrite Rmult_plus_distr_l, <- rsum_scale. f_equal; [unfold v3_dot, v3_scale; cbn; ring|]. apply rsum_ext. intros e _. unfold v3_dot, v3_scale. cbn. ring.
Qed.

(** ** Moving vertices and velocities *)
Section Total.
Variables (U : nat -> v3) (V : list v3) (dqdv : R) (rb : bool) (m : nat) (st : friction_state).
Hypothesis D : described iamax ord c n st.
Hypothesis LV : length V = n.
Hypothesis UZ : forall i, (m <= i)%nat -> U i = v3_0.
Hypothesis GR : forall a, In a (filled t) -> grad_at c a <> v3_0 /\ dominant (grad_at c a).
Let W i := v3_scale dqdv (U i).
Let tau := ctau c X W rb.
Let La := matrices_along W rb.
Let Vs s := mesh_line V U s.
Lemma WZ i : (m <= i)%nat -> W i = v3_0.
Proof. intros H. unfold W. rewrite (UZ i H). apply scale_0_r. Qed.
Lemma start_velocity : Vs 0 = V.
Proof. apply (nth_ext _ _ v3_0 v3_0); [apply mesh_length; exact c|]. intros r L. unfold Vs in *. rewrite (mesh_length c) in L. rewrite (mesh_nth c) by exact L. apply HessProps.line_0. Qed.
Lemma velocity_moves j : (j < n)%nat -> moves (fun s => at3 (Vs s) j) (U j).
Proof. intros L. apply (moves_ext (fun s => v3_line (nth j V v3_0) (U j) s)); [|apply moves_line]. intros s. symmetry. unfold at3, Vs. apply mesh_nth; [exact c|]. rewrite LV. exact L. Qed.
Definition constraint_rate (x : nat -> v3) (k : nat) : v3 := match jac_jacobian_triplets ord c (fs_constraints st) (map x (seq 0 nv)) m with Some T => block_product (transposed T) W k | None => v3_0 end.
Lemma state_inverse : length (fs_constraints st) = length (ct_points c) /\ forall r k, nth r (fs_constraints st) None = Some k <-> nth_error (filled t) k = Some r.
Proof.
  assert (D3 : reverse_map (length (ct_points c)) (filled t) = Some (fs_constraints st)) by apply D. destruct (reverse_map_spec (length (ct_points c)) (filled t) (filled_nodup c) (filled_range c n SH)) as (inv & EI & LI & IN). rewrite D3 in EI. injection EI as ->. split; assumption.
Qed.
Lemma along_columns s e : In e (La s) -> (snd (fst e) < nv)%nat.
Proof.
  intros I. destruct (ctau_spec c n X SH AT W rb s) as (_ & SH' & _). destruct (tau_forms c n X SH AT W rb s) as (_ & _ & E). unfold nv, b. rewrite <- E. exact (matrices_columns (ctau c X W rb s) n (La s) SH' (along_spec W rb s) e I).
Qed.
Lemma along_linear s a : linear_below nv (fun x => block_product (La s) x a).
Proof.
  refine (conj _ (conj _ _)); [|intros x y; apply block_add|intros k x; apply block_scale]. intros x y H. apply block_ext. intros e I _. apply H, (along_columns s e I).
Qed.
Definition slip_velocity (s : R) (k : nat) : v3 := pull_form c (La s) (at3 (Vs s)) k.
Lemma slip_moves k : (k < N)%nat -> moves (fun s => slip_velocity s k) (v3_add (constraint_rate (fun v => at3 V (sv c v)) k) (pull_form c (La 0) U k)).
Proof.
  intros K. destruct state_inverse as [LI IN]. unfold slip_velocity, pull_form. fold t. change (nth k (filled t) 0%nat) with (act k).
  assert (P : moves (fun s => block_product (La s) (fun v => at3 (Vs s) (sv c v)) (act k)) (v3_add (constraint_rate (fun v => at3 (Vs 0) (sv c v)) k) (block_product (La 0) (fun v => U (sv c v)) (act k)))).
  { apply (linear_moves nv (fun s x => block_product (La s) x (act k)) (fun x => constraint_rate x k) (fun s v => at3 (Vs s) (sv c v)) (fun v => U (sv c v))).
    - intros s. apply along_linear.
    - intros x. unfold constraint_rate. destruct (jj_moves W rb (fs_constraints st) (map x (seq 0 nv)) m k LI IN) as (A & B & E & _ & _ & M); [rewrite map_length, seq_length; reflexivity|exact K|exact WZ|].
      rewrite E. eapply moves_ext; [|exact M]. intros s. apply block_ext. intros e I _. apply nth_map_seq. exact (along_columns s e I).
    - intros v L. apply velocity_moves, (vertex_range c n SH). left. apply (in_surface c n SH v L). }
  assert (Q : moves (fun s => at3 (Vs s) (cv c (act k))) (U (cv c (act k)))).
  { apply velocity_moves, (vertex_range c n SH). right. unfold cv. apply nth_In. rewrite (LCV c n SH). apply (filled_range c n SH), nth_In. exact K. }
  pose proof (moves_sub _ _ _ _ P Q) as PQ. rewrite start_velocity in PQ. match type of PQ with moves _ ?x => match goal with |- moves _ ?y => replace y with x; [exact PQ|] end end.
  generalize (block_product (La 0) (fun v => U (sv c v)) (act k)) (constraint_rate (fun v => at3 V (sv c v)) k) (U (cv c (act k))). intros x y z. apply v3_eq; unv; ring.
Qed.
Lemma start_frame k : (k < N)%nat -> frame_at iamax (tau 0) (act k) = frame_at iamax c (act k).
Proof. intros K. unfold frame_at, tau. rewrite (start_grad W rb) by (apply nth_In; exact K). reflexivity. Qed.
Lemma frame_moves (tr : bool) (z : R -> v3) dz ms jb k : (k < N)%nat -> moves z dz -> length ms = N -> nth k ms v3_0 = z 0 -> basis_gradient iamax st ms tr m = Some jb ->
  moves (fun s => (if tr then to_contact_coordinates else from_contact_coordinates) (frame_at iamax (tau s) (act k)) (z s))
    (v3_add (block_product (transposed (entries jb)) W k) ((if tr then to_contact_coordinates else from_contact_coordinates) (frame_at iamax c (act k)) dz)).
Proof.
  intros K MZ LM EM EJ. set (op := if tr then to_contact_coordinates else from_contact_coordinates) in *.
  set (DD := fun x : nat -> v3 => match basis_gradient iamax st (repeat (x 0%nat) N) tr m with Some jb => block_product (transposed (entries jb)) W k | None => v3_0 end).
  assert (MD : forall x, moves (fun s => op (frame_at iamax (tau s) (act k)) (x 0%nat)) (DD x)).
  { intros x. destruct (basis_moves W rb GR st (repeat (x 0%nat) N) tr m D (repeat_length _ _) WZ) as (jb' & E & M). unfold DD. rewrite E. eapply moves_ext; [|exact (M k K)]. intros s. cbv beta. fold op. f_equal. apply nth_error_nth. apply nth_error_repeat. exact K. }
  assert (LB : forall s, linear_below 1 (fun x => op (frame_at iamax (tau s) (act k)) (x 0%nat))).
  { intros s. unfold op, to_contact_coordinates, from_contact_coordinates. refine (conj _ (conj _ _)); [intros x y H; rewrite (H 0%nat) by lia; reflexivity|intros x y; destruct tr; apply mulv_plus|intros a x; destruct tr; apply mulv_scale_r]. }
  pose proof (linear_moves 1 (fun s x => op (frame_at iamax (tau s) (act k)) (x 0%nat)) DD (fun s _ => z s) (fun _ => dz) LB MD (fun _ _ => MZ)) as P. cbv beta in P. rewrite (start_frame k K) in P.
  assert (ED : DD (fun _ => z 0) = block_product (transposed (entries jb)) W k).
  { apply (moves_unique (fun s => op (frame_at iamax (tau s) (act k)) (z 0))); [exact (MD (fun _ => z 0))|]. destruct (basis_moves W rb GR st ms tr m D LM WZ) as (jb' & E & M). rewrite EJ in E. injection E as <-. specialize (M k K). rewrite EM in M. exact M. }
  rewrite ED in P. exact P.
Qed.

Variable o : friction_options.
Let kd := fo_profile o.
Let fp := fo_params o.
Let fr k := frame_at iamax c (act k).
Let lam k := lam_at c (act k).
Let slip k := pull_form c (La 0) (at3 V) k.
Let wt k := to_tangent_space (fr k) (slip k).
Hypothesis VP : valid_params fp.
Hypothesis SM : forall k, (k < N)%nat -> smooth_sliding fp (wt k).
Definition pushes (s : R) (k : nat) : v3 := contact_push kd fp (frame_at iamax (tau s) (act k)) (lam_at (tau s) (act k)) (slip_velocity s k).
Lemma start_slip k : slip_velocity 0 k = slip k.
Proof. unfold slip_velocity. rewrite start_velocity. reflexivity. Qed.
Lemma start_push k : (k < N)%nat -> pushes 0 k = contact_push kd fp (fr k) (lam k) (slip k).
Proof. intros K. unfold pushes. rewrite (start_frame k K), start_slip. unfold tau. rewrite (start_lam W rb) by (apply nth_In; exact K). reflexivity. Qed.
Definition lambda_rate k : R := - ct_kappa c * penalty_ddb (ct_delta c) (dpot c (row_at c (act k))) * rate1 c W (row_at c (act k)).
Definition push_rate (jb jbt : mapped m3) k : v3 :=
  v3_add (block_product (transposed (entries jb)) W k)
    (from_contact_coordinates (fr k) (v3_add (m3_mulv (eta_matrix kd fp (wt k) (lam k)) (v3_add (block_product (transposed (entries jbt)) W k)
       (to_contact_coordinates (fr k) (v3_add (constraint_rate (fun v => at3 V (sv c v)) k) (pull_form c (La 0) U k))))) (v3_scale (lambda_rate k * slope kd fp (v2_norm (wt k))) (plane (wt k))))).
Lemma pushes_move jb jbt k : (k < N)%nat -> basis_gradient iamax st (map (fun k => contact_law kd fp (fr k) (lam k) (slip k)) (seq 0 N)) false m = Some jb -> basis_gradient iamax st (map slip (seq 0 N)) true m = Some jbt ->
  moves (fun s => pushes s k) (push_rate jb jbt k).
Proof.
  intros K EB ET. assert (IA : In (act k) (filled t)) by (apply nth_In; exact K).
  pose proof (frame_moves true (fun s => slip_velocity s k) _ (map slip (seq 0 N)) jbt k K (slip_moves k K)) as M1. cbv beta in M1. cbn [map] in M1. specialize (M1 ltac:(rewrite map_length, seq_length; reflexivity)). rewrite start_slip, nth_map_seq in M1 by exact K. specialize (M1 eq_refl ET).
  pose proof (lam_derive c n X SH PL AT PW CP W rb (act k) IA) as ML. fold (lambda_rate k) in ML.
  assert (SM' : smooth_sliding fp (V2 (vy (to_contact_coordinates (frame_at iamax (tau 0) (act k)) (slip_velocity 0 k))) (vz (to_contact_coordinates (frame_at iamax (tau 0) (act k)) (slip_velocity 0 k))))) by (rewrite (start_frame k K), start_slip; exact (SM k K)).
  pose proof (law_moves kd fp _ _ (fun s => lam_at (tau s) (act k)) (lambda_rate k) VP SM' M1 ML) as M2. cbv beta in M2.
  pose proof (frame_moves false _ _ (map (fun k => contact_law kd fp (fr k) (lam k) (slip k)) (seq 0 N)) jb k K M2) as M3'. specialize (M3' ltac:(rewrite map_length, seq_length; reflexivity)). cbv beta in M3'. rewrite nth_map_seq in M3' by exact K. rewrite (start_frame k K), start_slip in M3'. assert (EL0 : lam_at (tau 0) (act k) = lam k) by exact (start_lam W rb (act k) IA). rewrite EL0 in M3'. specialize (M3' eq_refl EB).
  exact M3'.
Qed.
Definition matrix_rate (x : nat -> v3) (i : nat) : v3 := match jac_gradient_triplets ord c (map x (seq 0 N)) m with Some T => block_product T W i | None => v3_0 end.
Lemma matrix_moves x i : (i < m)%nat -> moves (fun s => push_form c (La s) x i) (matrix_rate x i).
Proof. intros I. destruct (jg_moves W rb x m i I WZ) as (A & B & E & _ & _ & M). unfold matrix_rate. fold N. rewrite E. exact M. Qed.
Lemma force_moves jb jbt i : (i < m)%nat -> basis_gradient iamax st (map (fun k => contact_law kd fp (fr k) (lam k) (slip k)) (seq 0 N)) false m = Some jb -> basis_gradient iamax st (map slip (seq 0 N)) true m = Some jbt ->
  moves (fun s => push_form c (La s) (pushes s) i) (v3_add (matrix_rate (fun k => contact_push kd fp (fr k) (lam k) (slip k)) i) (push_form c (La 0) (push_rate jb jbt) i)).
Proof.
  intros I EB ET. pose proof (linear_moves N (fun s x => push_form c (La s) x i) (fun x => matrix_rate x i) pushes (push_rate jb jbt) (fun s => push_linear c n (La s) i SH) (fun x => matrix_moves x i I) (fun k K => pushes_move jb jbt k K EB ET)) as P. cbv beta in P.
  assert (E : matrix_rate (pushes 0) i = matrix_rate (fun k => contact_push kd fp (fr k) (lam k) (slip k)) i).
  { unfold matrix_rate. assert (EM : map (pushes 0) (seq 0 N) = map (fun k => contact_push kd fp (fr k) (lam k) (slip k)) (seq 0 N)) by (apply map_ext_in; intros k K; apply in_seq in K; apply start_push; lia). rewrite EM. reflexivity. }
  rewrite E in P. exact P.
Qed.
Lemma matrix_action x : exists T, jac_gradient_triplets ord c (map (fun k => v3_scale dqdv (x k)) (seq 0 N)) m = Some T /\
  map fst T = jg_places c m (places3 ord (sb_topo b) (trivial_neighborhood t) (filled t)) (places4 (sb_topo b) (trivial_neighborhood t) (filled t)) /\ forall i, (i < m)%nat -> block_product T U i = matrix_rate x i.
Proof.
  destruct (jg_some ord OK c n SH (map (fun k => v3_scale dqdv (x k)) (seq 0 N))) as (A & B & _ & _ & FA & FB & _ & _ & T); [rewrite map_length, seq_length; reflexivity|]. exists (jg_blocks c m A B). split; [exact (T m)|]. split; [rewrite jg_fst, FA, FB; reflexivity|]. intros i I.
  destruct (jg_moves U rb (fun k => v3_scale dqdv (x k)) m i I UZ) as (A1 & B1 & E1 & _ & _ & M1). fold N in E1. rewrite (T m) in E1. injection E1 as E1. rewrite <- E1 in M1.
  destruct (jg_moves U rb x m i I UZ) as (A2 & B2 & E2 & _ & _ & M2). unfold matrix_rate. fold N in E2. rewrite E2. transitivity (v3_scale dqdv (block_product (jg_blocks c m A2 B2) U i)); [|symmetry; apply block_scale].
  apply (moves_unique _ _ _ M1). apply (moves_ext (fun s => v3_scale dqdv (push_form c (matrices_along U rb s) x i))); [intros s; symmetry; apply push_scale|]. apply moves_scale, M2.
Qed.
Lemma constraint_action : m = n -> exists T JJ, jac_jacobian_triplets ord c (fs_constraints st) (map (at3 V) (ct_surface c)) m = Some T /\ update_values m3_add m3_zero (fs_jac_jacobian st) (map snd T) = Some JJ /\
  forall k, v3_scale dqdv (block_product (transposed (entries JJ)) U k) = constraint_rate (fun v => at3 V (sv c v)) k.
Proof.
  intros EN. assert (EV : map (at3 V) (ct_surface c) = map (fun v => at3 V (sv c v)) (seq 0 nv)).
  { unfold nv, b. rewrite <- (LSV c n SH). symmetry. exact (map_nth_seq (at3 V) 0%nat (ct_surface c)). }
  destruct state_inverse as [LI _]. rewrite EV. destruct (jj_some ord OK c n SH (fs_constraints st) (map (fun v => at3 V (sv c v)) (seq 0 nv)) LI) as (A & B & _ & _ & FA & FB & T); [rewrite map_length, seq_length; apply Nat.le_refl|].
  exists (jj_blocks c (fs_constraints st) m A B), (from_triplets m3_add m3_zero (fun _ => true) (jj_blocks c (fs_constraints st) m A B)). split; [exact (T m)|]. split.
  - assert (D6 : exists A B, map fst A = places1 ord (sb_topo b) (trivial_neighborhood t) (filled t) /\ map fst B = places2 (trivial_neighborhood t) (filled t) /\ fs_jac_jacobian st = from_triplets m3_add m3_zero (fun _ => true) (jj_blocks c (fs_constraints st) n A B)) by apply D.
    destruct D6 as (A0 & B0 & FA0 & FB0 & E). rewrite E. apply refreshed_matrix; [exact m3_monoid|]. rewrite !jj_fst, FA, FB, FA0, FB0, EN. reflexivity.
  - intros k. unfold constraint_rate. rewrite (T m), built_transposed. symmetry. apply block_scale.
Qed.
(** Viscous forces multiplied by the change of the normal forces. *)
Definition viscous_part (k : nat) : v3 :=
  v3_scale (fp_viscous fp * (- dqdv * ct_kappa c * penalty_ddb (ct_delta c) (dpot c (row_at c (act k))) * rate1 c U (row_at c (act k)))) (from_contact_coordinates (fr k) (plane (wt k))).
Lemma full_action prev : m = n -> fo_lagged o = false -> fo_incomplete o = false -> respects c U ->
  exists J, friction_jacobian_blocks iamax ord o prev st V dqdv m = Some J /\ forall i, (i < m)%nat -> moves (fun s => push_form c (La s) (pushes s) i) (v3_add (block_product J U i) (v3_scale (-1) (push_form c (La 0) viscous_part i))).
Proof.
  intros EN OL OI RE. assert (MN : (m <= n)%nat) by lia. pose proof (start_matrices W rb : contact_matrices (ct_topo c) (ct_points c) = Some (La 0)) as EL. assert (D1 : fs_contact st = c) by apply D.
  assert (EV : contact_mul (friction_maps st) V = map slip (seq 0 N)) by exact (velocities_known iamax ord c n SH V st (La 0) D LV EL).
  assert (EC : combine (map slip (seq 0 N)) (combine (fs_lambda st) (fs_frames st)) = map (fun k => (slip k, (lam k, fr k))) (seq 0 N)) by exact (contacts_known iamax ord c n SH V st (La 0) D).
  unfold friction_jacobian_blocks. rewrite OL, OI. cbv zeta. rewrite D1, EV, EC.
  assert (ECS : map (contact_space_friction (fo_profile o) (fo_params o)) (map (fun k => (slip k, (lam k, fr k))) (seq 0 N)) = map (fun k => contact_law kd fp (fr k) (lam k) (slip k)) (seq 0 N)) by (rewrite map_map; reflexivity). rewrite ECS.
  assert (EBC : map (fun p => v3_scale dqdv (from_contact_coordinates (snd p) (fst p))) (combine (map (fun k => contact_law kd fp (fr k) (lam k) (slip k)) (seq 0 N)) (fs_frames st)) = map (fun k => v3_scale dqdv (contact_push kd fp (fr k) (lam k) (slip k))) (seq 0 N)).
  { rewrite (frames_seq iamax ord c n SH st D), combine_maps, map_map. reflexivity. }
  rewrite EBC. destruct (matrix_action (fun k => contact_push kd fp (fr k) (lam k) (slip k))) as (TA & EA & FA & AA). rewrite EA.
  destruct (basis_moves W rb GR st (map (fun k => contact_law kd fp (fr k) (lam k) (slip k)) (seq 0 N)) false m D ltac:(rewrite map_length, seq_length; reflexivity) WZ) as (jb & EB & _). rewrite EB.
  destruct (basis_moves W rb GR st (map slip (seq 0 N)) true m D ltac:(rewrite map_length, seq_length; reflexivity) WZ) as (jbt & ET & _). rewrite ET.
  destruct (constraint_action EN) as (TJ & JJ & EJ & EU & AJ). rewrite EJ, EU.
  eexists. split; [reflexivity|]. intros i I. rewrite within_apply by assumption.
  assert (EG : combine (fs_jac_gradient st) (map snd TA) = TA). { assert (D7 : fs_jac_gradient st = map fst TA) by (rewrite FA, EN; apply D). rewrite D7. apply combine_parts. } rewrite EG.
  rewrite !block_app, !scaled_apply, (AA i I).
  set (dh := map (eta_block (fo_profile o) (fo_params o)) (map (fun k => (slip k, (lam k, fr k))) (seq 0 N))). set (G := entries (fs_gradient st)). set (bs := full_basis (fs_frames st)). set (bt := full_basis_transpose (fs_frames st)). set (H := fun k => eta_matrix kd fp (wt k) (lam k)).
  assert (E1 : block_product (lambda_product o st (map slip (seq 0 N)) m dqdv) U i = push_form c (La 0) (fun k => v3_scale (- dqdv * ct_kappa c * penalty_ddb (ct_delta c) (dpot c (row_at c (act k))) * rate1 c U (row_at c (act k))) (from_contact_coordinates (fr k) (plane (friction_profile kd (wt k) 1 fp)))) i)
    by exact (lambda_action iamax ord c n SH V m st o (La 0) D EL dqdv U i RE I UZ).
  assert (E2 : block_product (matrix_product G (transposed (entries jb))) U i = push_form c (La 0) (fun k => block_product (transposed (entries jb)) U k) i)
    by exact (product_action iamax ord c n SH st (La 0) D EL (transposed (entries jb)) U i (fun k => block_product (transposed (entries jb)) U k) (fun _ _ => eq_refl)).
  assert (E3 : block_product (matrix_product G (premultiply bs (premultiply dh (transposed (entries jbt))))) U i = push_form c (La 0) (fun k => from_contact_coordinates (fr k) (m3_mulv (H k) (block_product (transposed (entries jbt)) U k))) i)
    by exact (product_action iamax ord c n SH st (La 0) D EL _ U i _ (fun k K => eta_action iamax ord c n SH V st o (La 0) D (transposed (entries jbt)) U k _ K eq_refl)).
  assert (E4 : block_product (matrix_product G (premultiply bs (premultiply dh (premultiply bt (transposed (entries JJ)))))) U i = push_form c (La 0) (fun k => from_contact_coordinates (fr k) (m3_mulv (H k) (to_contact_coordinates (fr k) (block_product (transposed (entries JJ)) U k)))) i)
    by exact (product_action iamax ord c n SH st (La 0) D EL _ U i _ (fun k K => eta_action iamax ord c n SH V st o (La 0) D _ U k _ K (to_action iamax ord c n SH st D (transposed (entries JJ)) U k _ K eq_refl))).
  assert (E5 : block_product (matrix_product G (premultiply bs (premultiply dh (premultiply bt (transposed G))))) U i = push_form c (La 0) (fun k => from_contact_coordinates (fr k) (m3_mulv (H k) (to_contact_coordinates (fr k) (pull_form c (La 0) U k)))) i)
    by exact (lagged_action iamax ord c n SH V m st o (La 0) D LV MN EL U i UZ).
  rewrite E1, E2, E3, E4, E5, <- !push_scale. clear E1 E2 E3 E4 E5.
  match goal with |- moves _ (v3_add (v3_add ?a (v3_add ?r (v3_add ?b (v3_add ?c (v3_add ?d ?e))))) ?f) => replace (v3_add (v3_add a (v3_add r (v3_add b (v3_add c (v3_add d e))))) f) with (v3_add r (v3_add (v3_add a (v3_add b (v3_add c (v3_add d e)))) f)) by (generalize a r b c d e f; intros; apply v3_eq; unv; ring) end.
  rewrite <- !push_add. pose proof (force_moves jb jbt i I EB ET) as FM. match type of FM with moves _ (v3_add ?a ?x) => match goal with |- moves _ (v3_add ?a' ?y) => replace y with x; [exact FM|] end end.
  apply push_ext. intros k K. unfold push_rate, lambda_rate. rewrite <- AJ. fold (H k). unfold W. rewrite !block_scale, rate_scale.
  assert (EP : plane (friction_profile kd (wt k) 1 fp) = v3_scale (slope kd fp (v2_norm (wt k)) + fp_viscous fp) (plane (wt k))).
  { rewrite profile_slope. unfold plane, v2_scale, v3_scale. cbn [v2x v2y]. generalize (v2x (wt k)) (v2y (wt k)) (slope kd fp (v2_norm (wt k))) (fp_viscous fp). intros x y z u. apply v3_eq; cbn [vx vy vz]; ring. }
  unfold viscous_part. rewrite EP. clear EP. unfold from_contact_coordinates, to_contact_coordinates. repeat (rewrite mulv_plus || rewrite mulv_scale_r).
  match goal with |- context [m3_mulv (m3_transpose ?F) (plane ?w)] => generalize (m3_mulv (m3_transpose F) (plane w)) end. intros pw.
  match goal with |- v3_add (v3_scale _ ?a) (v3_add (v3_add (v3_scale _ ?b) (v3_add (v3_scale _ ?d) ?e)) _) = _ => generalize a b d e end. generalize (fp_viscous fp). intros vi. intros xa xb xd xe.
  generalize (slope kd fp (v2_norm (wt k))) (rate1 c U (row_at c (act k))) (penalty_ddb (ct_delta c) (dpot c (row_at c (act k)))) (ct_kappa c). intros r1' r2' r3' r4'. clear. apply v3_eq; unv; ring.
Qed.
End Total.
End Motion.
