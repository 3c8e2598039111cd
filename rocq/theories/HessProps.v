(** Second derivatives of the implicit potential: theorems, each with an example. *)
From Coq Require Import Reals List ZArith Lra Lia Psatz Bool Sorting.Sorted.
From Coquelicot Require Import Coquelicot.
From Verif Require Import Vec3 Mat3 RList Calc Dual KernelModel KernelSpec KernelProofs FieldModel FieldSpec FieldProofs FieldProps MassSpec NeighborModel NeighborSpec NeighborProofs NeighborProps UpdateProps
  SurfJacModel SurfJacSpec SurfJacProofs SurfJacProps HessModel HessSpec HessProofs HessMixProofs.
From Verif Require ElasticModel.
Import ListNotations.
Local Open Scope R_scope.
Local Notation m3_get := ElasticModel.m3_get.

Lemma line_0 q u : v3_line q u 0 = q.
Proof. apply v3_eq; unv; ring. Qed.
(** C149: the Hessian in the query point is symmetric, is the derivative of the gradient along every line, and is the second derivative
    of the potential in every pair of directions. *)
Theorem query_hessian_is_derivative : forall k P v S q view c, valid_kernel k -> nearest S q view c -> regular_view k S q view -> smooth_background k P v S q c ->
  exists H, query_hessian_at q S view k P = Some H /\ m3_symmetric H /\
    (forall u, exists J, locally 0 (fun s => query_jacobian_at (v3_line q u s) S view None k P = Some (J s)) /\ moves J (m3_mulv H u)) /\
    (forall x u, is_derive (fun s => Derive (fun t => potential_at (v3_line (v3_line q u s) x t) S view k P v) 0) 0 (v3_dot x (m3_mulv H u))).
Proof.
  intros k P v S q view c Vk NE RV SB.
  assert (G : forall u, exists H J, query_hessian_at q S view k P = Some H /\ locally 0 (fun s => query_jacobian_at (v3_line q u s) S view None k P = Some (J s)) /\ moves J (m3_mulv H u)).
  { intros u. pose proof (query_gradient_derive k P v view c (v3_line q u) S u Vk (moves_line q u)) as D. rewrite line_0 in D. exact (D NE RV SB). }
  destruct (G v3_0) as (H & _ & EH & _). exists H. split; [exact EH|]. split; [apply symmetric_form_transpose, (sf_query _ _ _ _ _ _ EH)|].
  assert (GU : forall u, exists J, locally 0 (fun s => query_jacobian_at (v3_line q u s) S view None k P = Some (J s)) /\ moves J (m3_mulv H u)).
  { intros u. destruct (G u) as (H' & J & EH' & LJ & MJ). rewrite EH in EH'. injection EH' as <-. exists J. auto. }
  split; [exact GU|]. intros x u. destruct (GU u) as (J & LJ & MJ).
  assert (MS : moving_samples (fun _ => S) view (fun _ => v3_0) (fun _ => v3_0)).
  { intros i _. split; [apply moves_const|split; [apply moves_const|reflexivity]]. }
  pose proof (view_near k P v view c (v3_line q u) (fun _ => S) u (fun _ => v3_0) (fun _ => v3_0) (moves_line q u) MS) as VN. cbv beta in VN. rewrite line_0 in VN. specialize (VN NE RV SB).
  apply is_derive_ext_loc with (fun s => v3_dot (J s) x).
  - eapply filter_imp; [|exact (filter_and _ _ LJ VN)]. intros s (EJ & N1 & R1 & B1).
    destruct (query_jacobian_is_derivative k P v S (v3_line q u s) view c x Vk N1 R1 B1) as (J' & EJ' & D). rewrite EJ in EJ'. injection EJ' as <-.
    symmetry. apply is_derive_unique. exact D.
  - pose proof (moves_dot J (fun _ => x) (m3_mulv H u) v3_0 MJ (moves_const x)) as D. evar_last; [exact D|]. rewrite dot_0_r, dot_comm. real_eq. ring.
Qed.
Lemma flat_cubic : valid_kernel (Cubic 1).
Proof. cbn. lra. Qed.
Example query_hessian_is_derivative_ex : forall ty, exists H, query_hessian_at above (sb_samples (flat ty)) (rows ty) (Cubic 1) (sb_bg (flat ty)) = Some H /\ m3_symmetric H /\
    (forall u, exists J, locally 0 (fun s => query_jacobian_at (v3_line above u s) (sb_samples (flat ty)) (rows ty) None (Cubic 1) (sb_bg (flat ty)) = Some (J s)) /\ moves J (m3_mulv H u)) /\
    (forall x u, is_derive (fun s => Derive (fun t => potential_at (v3_line (v3_line above u s) x t) (sb_samples (flat ty)) (rows ty) (Cubic 1) (sb_bg (flat ty)) 0) 0) 0 (v3_dot x (m3_mulv H u))).
Proof. intros ty. apply (query_hessian_is_derivative _ _ 0 _ _ _ 0 flat_cubic (flat_nearest ty) (flat_regular ty) (flat_background ty 0)). Qed.

(** ** A single triangle *)
(** A single triangle below a query point. *)
Definition tent (P : bg_params) : base := Base P [(0, 1, 2)%nat] [V3 1 0 0; V3 0 1 0; V3 (-1) (-1) 0] [Sample (V3 0 0 0) (V3 0 0 3) v3_0 0] [] SFace (build_tree [Sample (V3 0 0 0) (V3 0 0 3) v3_0 0]).
Definition overhead : v3 := V3 0 0 1.
Lemma norm_z d : 0 < d -> v3_norm (V3 0 0 d) = d.
Proof. intros D. unfold v3_norm, v3_dot. cbn [vx vy vz]. replace (0 * 0 + 0 * 0 + d * d) with (d * d) by ring. apply sqrt_square. lra. Qed.
Lemma sub_z s : v3_sub overhead (V3 0 0 s) = V3 0 0 (1 - s).
Proof. apply v3_eq; unfold overhead; unv; ring. Qed.
Lemma unit_z : unit_of (V3 0 0 3) = V3 0 0 1.
Proof. unfold unit_of. rewrite norm_z by lra. apply v3_eq; unv; field. Qed.
Lemma cubic_value d : 0 < d < 2 -> k_f (Cubic 2) d = 1 - 3 * (d / 2) * (d / 2) + 2 * (d / 2) * (d / 2) * (d / 2) /\ k_df (Cubic 2) d = 3 / 4 * d * (d - 2) /\ k_ddf (Cubic 2) d = 3 / 2 * (d - 1).
Proof.
  intros D. unfold k_f, k_df, k_ddf, cubic_f, cubic_f_gen, cubic_df, cubic_ddf, ops_R. cbn [o_of o_val o_add o_sub o_mul o_div].
  destruct (Rlt_dec 2 d); [lra|]. repeat split; field.
Qed.

Definition tent_bg (S : list sample) (ty : field_type) : bg := bg_new_impl overhead S [0%nat] (Local 0) (Cubic 2) (BgParams ty true) None.
Section Tent.
Variables (S : list sample) (s : R) (ty : field_type).
Hypothesis (D : -1 < s < 1) (P : s_pos (smp S 0) = V3 0 0 s) (N : s_nml (smp S 0) = V3 0 0 3) (V : s_value (smp S 0) = 0).
Let b := tent_bg S ty.
Lemma tb_dist : b_dist b = 1 - s.
Proof. unfold b, tent_bg, bg_new_impl. cbn [b_dist ci_get]. rewrite P, sub_z, norm_z by lra. reflexivity. Qed.
Lemma tb_disp : b_disp b = V3 0 0 (1 - s).
Proof. unfold b, tent_bg, bg_new_impl. cbn [b_disp ci_get]. rewrite P, sub_z. reflexivity. Qed.
Lemma tb_weight : background_weight b = k_f (Cubic 2) (1 + s).
Proof.
  unfold background_weight. rewrite tb_dist. change (b_kernel b) with (Cubic 2). change (b_weighted b) with true. cbn [k_radius]. destruct (Rlt_dec 2 (1 - s)); [lra|]. f_equal. ring.
Qed.
Lemma tb_sample : s_weight (Cubic 2) (1 - s) overhead (smp S 0) = k_f (Cubic 2) (1 - s).
Proof. unfold s_weight, k_eval. cbn [with_closest]. rewrite P, sub_z, norm_z by lra. reflexivity. Qed.
Lemma tb_wsi : weight_sum_inv b = 1.
Proof.
  assert (E : b_sum b = 1).
  { change (b_sum b) with (rsum [s_weight (Cubic 2) (b_dist b) overhead (smp S 0)] + background_weight b). rewrite tb_dist, tb_sample, tb_weight. rewrite rsum_cons, rsum_nil.
    destruct (cubic_value (1 - s) ltac:(lra)) as (-> & _). destruct (cubic_value (1 + s) ltac:(lra)) as (-> & _). field. }
  unfold weight_sum_inv. rewrite E. destruct (Req_EM_T 1 0); [lra|field].
Qed.
Lemma tb_sample_grad : s_weight_grad (Cubic 2) (1 - s) overhead (smp S 0) = V3 0 0 (k_df (Cubic 2) (1 - s)).
Proof. unfold s_weight_grad, k_grad. cbn [with_closest]. rewrite P, sub_z, norm_z by lra. destruct (Rlt_dec 0 (1 - s)); [|lra]. apply v3_eq; unv; field; lra. Qed.
Lemma tb_grad : background_weight_gradient b None = V3 0 0 (- k_df (Cubic 2) (1 + s)) /\ background_weight_gradient b (Some 0%nat) = V3 0 0 (k_df (Cubic 2) (1 + s)).
Proof.
  unfold background_weight_gradient. rewrite tb_dist, tb_disp. change (b_kernel b) with (Cubic 2). change (b_weighted b) with true. change (b_index b) with (Local 0). cbn [k_radius negb Nat.eqb]. destruct (Rlt_dec 2 (1 - s)); [lra|].
  replace (2 - (1 - s)) with (1 + s) by ring. split; apply v3_eq; unv; field; lra.
Qed.
Lemma tb_sample_hess : s_weight_hess (Cubic 2) (1 - s) overhead (smp S 0) = M3 (V3 (k_df (Cubic 2) (1 - s) / (1 - s)) 0 0) (V3 0 (k_df (Cubic 2) (1 - s) / (1 - s)) 0) (V3 0 0 (k_ddf (Cubic 2) (1 - s))).
Proof. unfold s_weight_hess, k_hess. cbn [with_closest]. rewrite P, sub_z, norm_z by lra. destruct (Rlt_dec 0 (1 - s)); [|lra]. cbv [m3_add m3_scale m3_sub m3_I outer v3_scale v3_add v3_sub m3_diag r0 r1 r2 vx vy vz]. f_equal; f_equal; field; lra. Qed.
Lemma tb_bg_hess i : background_weight_hessian b i = match i with None | Some O => M3 (V3 (- k_df (Cubic 2) (1 + s) / (1 - s)) 0 0) (V3 0 (- k_df (Cubic 2) (1 + s) / (1 - s)) 0) (V3 0 0 (k_ddf (Cubic 2) (1 + s))) | _ => m3_0 end.
Proof.
  unfold background_weight_hessian. rewrite tb_dist, tb_disp. change (b_kernel b) with (Cubic 2). change (b_weighted b) with true. change (b_index b) with (Local 0). cbn [k_radius negb]. destruct (Rlt_dec 2 (1 - s)); [lra|].
  replace (2 - (1 - s)) with (1 + s) by ring. destruct i as [[|i]|]; cbn [Nat.eqb]; try reflexivity; cbv [m3_add m3_scale m3_sub m3_I outer v3_scale v3_add v3_sub m3_diag r0 r1 r2 vx vy vz]; f_equal; f_equal; field; lra.
Qed.
Lemma tb_total_grad : total_gradient b = v3_0 /\ neighbor_weight_gradient b = v3_0.
Proof.
  assert (E : v3_add (vsum (map (fun i => s_weight_grad (b_kernel b) (b_dist b) (b_q b) (smp (b_all b) i)) (b_view b))) (background_weight_gradient b None) = v3_0).
  { destruct tb_grad as [-> _]. change (b_view b) with [0%nat]. change (b_kernel b) with (Cubic 2). change (b_q b) with overhead. change (b_all b) with S. rewrite tb_dist. cbn [map vsum fold_right]. rewrite tb_sample_grad.
    destruct (cubic_value (1 - s) ltac:(lra)) as (_ & -> & _). destruct (cubic_value (1 + s) ltac:(lra)) as (_ & -> & _). apply v3_eq; unv; field. }
  split; [exact E|]. unfold neighbor_weight_gradient. rewrite E. apply v3_eq; unv; ring.
Qed.
Lemma tb_total_hess : total_hessian b = m3_0.
Proof.
  unfold total_hessian. rewrite tb_bg_hess. change (b_view b) with [0%nat]. change (b_kernel b) with (Cubic 2). change (b_q b) with overhead. change (b_all b) with S. rewrite tb_dist. cbn [map msum fold_right]. rewrite tb_sample_hess.
  destruct (cubic_value (1 - s) ltac:(lra)) as (_ & -> & ->). destruct (cubic_value (1 + s) ltac:(lra)) as (_ & -> & ->). cbv [m3_add m3_0 m3_scale v3_add v3_0 v3_scale r0 r1 r2 vx vy vz]. f_equal; f_equal; field; lra.
Qed.
Lemma tb_orientation : orientation b = 1.
Proof. unfold orientation. rewrite tb_disp. change (b_all b) with S. change (ci_get (b_index b)) with 0%nat. rewrite N. unfold signum. destruct (Rlt_dec _ 0) as [H|]; [|reflexivity]. unfold v3_dot in H. cbn [vx vy vz] in H. lra. Qed.
Lemma tent_jacobian : ty = FDistance -> query_jacobian_at overhead S [0%nat] None (Cubic 2) (BgParams ty true) = Some (V3 0 0 1).
Proof.
  intros TY. unfold query_jacobian_at, bg_new, bg_local. cbn [closest_sample fold_left]. fold (tent_bg S ty). fold b. f_equal. cbv zeta. destruct tb_total_grad as [TG ->]. rewrite tb_wsi. cbn [map vsum fold_right].
  unfold bg_query_jacobian. fold (total_gradient b). rewrite TG, tb_wsi, tb_weight. destruct tb_grad as [-> _]. unfold field_value, field_gradient. rewrite tb_orientation, tb_dist, tb_disp. change (b_weighted b) with true.
  replace (b_value b) with BClosest by (unfold b, tent_bg, bg_new_impl; rewrite TY; reflexivity). destruct (Req_EM_T (1 - s) 0); [lra|].
  unfold sample_query_jacobian_at. rewrite tb_sample, tb_sample_grad, P, N, V, sub_z, unit_z.
  destruct (cubic_value (1 - s) ltac:(lra)) as (-> & -> & _). destruct (cubic_value (1 + s) ltac:(lra)) as (-> & -> & _). apply v3_eq; unv; field; lra.
Qed.
Lemma tent_hessian : ty = FZero -> s = 0 -> exists H, query_hessian_at overhead S [0%nat] (Cubic 2) (BgParams ty true) = Some H /\ vz (r2 H) = - (3 / 2).
Proof.
  intros TY S0. unfold query_hessian_at, bg_local. cbn [closest_sample fold_left]. fold (tent_bg S ty). fold b. destruct tb_total_grad as [TG NG]. rewrite NG, tb_wsi. unfold neighbor_weight_hessian. rewrite tb_total_hess, tb_wsi, tb_dist. cbn [map msum fold_right].
  eexists. split; [reflexivity|]. unfold bg_query_hessian. rewrite TG, tb_total_hess, tb_wsi. unfold field_value, field_gradient, field_hessian. change (b_weighted b) with true.
  replace (b_value b) with (BConstant 0) by (unfold b, tent_bg, bg_new_impl; rewrite TY; reflexivity). unfold sample_hessian_term. rewrite tb_sample, tb_sample_grad, tb_sample_hess, P, N, V, sub_z, unit_z. destruct tb_grad as [-> _]. rewrite tb_bg_hess.
  destruct (cubic_value (1 - s) ltac:(lra)) as (-> & -> & ->). destruct (cubic_value (1 + s) ltac:(lra)) as (_ & -> & ->). cbv [m3_add m3_0 m3_scale m3_sub v3_add v3_0 v3_scale v3_sub v3_dot sym_outer outer r0 r1 r2 vx vy vz]. rewrite S0. field.
Qed.
End Tent.
Definition tent_topo (ty : field_type) : query_topo := QLocal (LocalMls (LCubic 2) 1 0 (tent (BgParams ty true))) (Nbh [0%nat] [[0%nat]] [[0%nat]]).
Lemma tent_row : exists row, sample_query_row (tent_topo FDistance) overhead [0%nat] = Some row /\ block_row_product row (fun _ => V3 0 0 1) = V3 0 0 (3 / 2).
Proof.
  set (S := sb_samples (q_base (tent_topo FDistance))).
  assert (P : s_pos (smp S 0) = V3 0 0 0) by reflexivity. assert (N : s_nml (smp S 0) = V3 0 0 3) by reflexivity. assert (V : s_value (smp S 0) = 0) by reflexivity. assert (D : -1 < 0 < 1) by lra.
  pose proof (tb_dist S 0 FDistance D P) as Ed. pose proof (tb_wsi S 0 FDistance D P) as Ew. pose proof (tb_total_grad S 0 FDistance D P) as [_ En].
  pose proof (tb_sample S 0 D P) as Es. pose proof (tb_sample_grad S 0 D P) as Eg. pose proof (tb_sample_hess S 0 D P) as Eh. pose proof (tb_bg_hess S 0 FDistance D P) as Eb. destruct (tb_grad S 0 FDistance D P) as [_ Ec].
  unfold sample_query_row. change (sb_samples (q_base (tent_topo FDistance))) with S. replace (q_kernel (tent_topo FDistance)) with (Cubic 2) by (cbn; unfold lm_radius; cbn; f_equal; lra).
  change (sb_bg (q_base (tent_topo FDistance))) with (BgParams FDistance true). change (sb_verts (q_base (tent_topo FDistance))) with [V3 1 0 0; V3 0 1 0; V3 (-1) (-1) 0]. change (sb_topo (q_base (tent_topo FDistance))) with [(0, 1, 2)%nat].
  unfold bg_local. cbn [closest_sample fold_left]. fold (tent_bg S FDistance). set (b := tent_bg S FDistance) in *.
  unfold vertex_weight_gradients, vertex_weight_hessians. rewrite Ew. change (b_view b) with [0%nat]. cbn [scatter fold_left nth_error tri_verts length repeat subtract_at option_map].
  cbn [map all_some]. unfold face_unit_normal_gradients. rewrite N, norm_z by lra. cbn [map all_some nth_error tri_at option_map].
  change (b_kernel b) with (Cubic 2). change (b_q b) with overhead. change (b_all b) with S. rewrite Ed.
  rewrite Eg, Eh, (Eb (Some 0%nat)), Ec, En. replace (1 - 0) with 1 in * by ring. replace (1 + 0) with 1 in * by ring. 
  cbn [unseen flat_map app tri_verts existsb Nat.eqb orb combine map position nth_error fst snd nth].
  eexists. split; [reflexivity|]. unfold sample_query_component. rewrite Es, Eg, Eh, P, N, V. change (v3_sub overhead (V3 0 0 0)) with (v3_sub overhead (V3 0 0 0)). rewrite (sub_z 0), unit_z. destruct (cubic_value 1 ltac:(lra)) as (-> & -> & ->).
  unfold block_row_product. cbv [map fold_right fst snd msum fold_right m3_add m3_0 m3_scale m3_sub m3_mul m3_mulv m3_neg m3_transpose m3_diag m3_I scaled_tangent_projection area_normal_gradient cross_matrix v3_add v3_0 v3_scale v3_sub v3_neg v3_dot outer r0 r1 r2 vx vy vz].
  f_equal; field.
Qed.
Lemma tent_ok P : well_formed (tent P) /\ (forall tr, In tr (sb_topo (tent P)) -> distinct_corners tr) /\ in_place (tent P).
Proof.
  split; [split; [|reflexivity]|split].
  - intros t v [<-|[]]. cbn. lia.
  - intros t [<-|[]]. unfold distinct_corners. cbn. repeat constructor; cbn; intuition discriminate.
  - intros [|i] L; [|cbn in L; lia]. cbn. split; apply v3_eq; cbn; lra.
Qed.
Lemma tent_view P : nearest (sb_samples (tent P)) overhead [0%nat] 0 /\ regular_view (Cubic 2) (sb_samples (tent P)) overhead [0%nat].
Proof.
  split; [split; [left; reflexivity|intros j [<-|[]]; congruence]|]. intros i [<-|[]]. unfold away. cbn [tent sb_samples smp nth s_pos s_nml]. change (V3 0 0 0) with (V3 0 0 0). rewrite sub_z. rewrite norm_z by lra. split; [|split].
  - intros E. injection E. lra.
  - intros E. injection E. lra.
  - cbn. lra.
Qed.

(** ** Layout of the query Hessian *)
Lemma rows_nonempty (qs : list v3) (ns : list (list nat)) : length qs = length ns ->
  map (fun p => (fst p, snd (snd p))) (filter (fun p : nat * (v3 * list nat) => negb (is_nil (snd (snd p)))) (enumerate (combine qs ns))) = nonempty ns.
Proof.
  unfold nonempty, enumerate. rewrite combine_length. intros L. rewrite L, Nat.min_id. generalize 0%nat. revert qs L. induction ns as [|a ns IH]; intros [|q qs] L m; try discriminate; [reflexivity|].
  cbn [length seq combine filter snd]. destruct a; cbn [is_nil negb map fst snd]; rewrite IH by (cbn in L; lia); reflexivity.
Qed.
Lemma row_spec t qs j i q nbrs : nth_error (hessian_rows t qs) j = Some (i, (q, nbrs)) -> nth_error qs i = Some q /\ nth_error (trivial_neighborhood t) i = Some nbrs /\ nbrs <> [].
Proof.
  intros E. apply nth_error_In in E. unfold hessian_rows in E. apply filter_In in E. destruct E as [E N]. apply enumerate_nth, nth_error_combine in E. destruct E. split; [assumption|]. split; [assumption|].
  intros ->. discriminate.
Qed.
Lemma row_total q S nbrs k P : nbrs <> [] -> exists H, query_hessian_at q S nbrs k P = Some H.
Proof. intros N. destruct (closest_some q S nbrs N) as (c & C). unfold query_hessian_at, bg_local. rewrite C. eauto. Qed.
Lemma all_some_nth {A B} (f : A -> option B) : forall l r, all_some (map f l) = Some r -> forall j b, nth_error r j = Some b <-> exists a, nth_error l j = Some a /\ f a = Some b.
Proof.
  intros l r E. apply all_some_forall2 in E. induction E as [|a b l r H E IH]; intros [|j] y; cbn; try (split; [discriminate|intros (x & X & _); discriminate]).
  - split; [intros X; injection X as <-; eauto|intros (x & X & F); injection X as <-; congruence].
  - apply IH.
Qed.
(** C150: one block per query point with neighbours, in their order; each is the Hessian of its query point times the multiplier at the
    same place in the list. *)
Theorem query_hessian_blocks_exact : forall t qs mults, length qs = length (trivial_neighborhood t) ->
  exists bs, query_hessian_blocks t qs mults = Some bs /\
    (forall j i B, nth_error bs j = Some (i, B) <-> exists m q nbrs H, nth_error (query_hessian_block_indices t) j = Some i /\ nth_error mults j = Some m /\
       nth_error qs i = Some q /\ nth_error (trivial_neighborhood t) i = Some nbrs /\ query_hessian_at q (sb_samples (q_base t)) nbrs (q_kernel t) (sb_bg (q_base t)) = Some H /\ B = m3_scale m H) /\
    (length mults = num_neighborhoods t -> map fst bs = query_hessian_block_indices t) /\
    (forall i, In i (query_hessian_block_indices t) <-> nth i (trivial_neighborhood t) [] <> []) /\ StronglySorted lt (query_hessian_block_indices t).
Proof.
  intros t qs mults L. pose proof (rows_nonempty qs (trivial_neighborhood t) L) as RN. fold (hessian_rows t qs) in RN.
  assert (EI : query_hessian_block_indices t = map fst (hessian_rows t qs)) by (unfold query_hessian_block_indices; rewrite <- RN, map_map; reflexivity).
  unfold query_hessian_blocks. set (f := fun p : nat * (v3 * list nat) * R => _).
  destruct (all_some_total f (combine (hessian_rows t qs) mults)) as [bs EB].
  { intros [[i [q nbrs]] m] I. apply in_combine_l in I. apply In_nth_error in I. destruct I as [j J]. destruct (row_spec _ _ _ _ _ _ J) as (_ & _ & N).
    destruct (row_total q (sb_samples (q_base t)) nbrs (q_kernel t) (sb_bg (q_base t)) N) as [H EH]. unfold f. rewrite EH. eexists. reflexivity. }
  exists bs. split; [exact EB|]. split; [|split; [|split]].
  - intros j i B. rewrite (all_some_nth f _ _ EB j (i, B)), EI. split.
    + intros ([[i' [q nbrs]] m] & X & F). apply nth_error_combine in X. destruct X as [X1 X2]. destruct (row_spec _ _ _ _ _ _ X1) as (Q & N & _). unfold f in F.
      destruct (query_hessian_at q _ nbrs _ _) as [H|] eqn:EH; [|discriminate]. injection F as <- <-. exists m, q, nbrs, H. split; [rewrite nth_error_map, X1; reflexivity|auto].
    + intros (m & q & nbrs & H & X1 & X2 & Q & N & EH & ->). rewrite nth_error_map in X1. destruct (nth_error (hessian_rows t qs) j) as [[i' [q' n']]|] eqn:X; [|discriminate]. injection X1 as ->.
      destruct (row_spec _ _ _ _ _ _ X) as (Q' & N' & _). assert (q' = q) by congruence. assert (n' = nbrs) by congruence. subst.
      exists (i, (q, nbrs), m). split; [apply nth_error_combine; auto|]. unfold f. rewrite EH. reflexivity.
  - intros LM. rewrite EI. assert (LR : length (hessian_rows t qs) = length mults) by (rewrite LM; unfold num_neighborhoods; rewrite <- nonempty_length, <- RN, map_length; reflexivity).
    clear -EB LR. revert mults bs EB LR. induction (hessian_rows t qs) as [|[i [q nbrs]] l IH]; intros [|m mults] bs EB LR; try discriminate; cbn [combine map all_some] in EB; [injection EB as <-; reflexivity|].
    destruct (f (i, (q, nbrs), m)) as [b|] eqn:F; [|discriminate]. destruct (all_some (map f (combine l mults))) as [bs'|] eqn:E; [|discriminate]. injection EB as <-. cbn [map fst]. f_equal; [|apply (IH mults); [exact E|cbn in LR; lia]].
    unfold f in F. destruct (query_hessian_at q _ nbrs _ _); [|discriminate]. injection F as <-. reflexivity.
  - intros i. unfold query_hessian_block_indices. rewrite in_map_iff. split.
    + intros ([k x] & <- & I). apply nonempty_in in I. destruct I as [I N]. cbn [fst]. rewrite (nth_error_nth _ _ _ I). exact N.
    + intros N. exists (i, nth i (trivial_neighborhood t) []). split; [reflexivity|]. apply nonempty_in. split; [|exact N]. apply nth_error_nth'.
      destruct (le_lt_dec (length (trivial_neighborhood t)) i) as [G|G]; [|exact G]. exfalso. apply N. apply nth_overflow. exact G.
  - unfold query_hessian_block_indices, nonempty, enumerate. assert (G : forall l m, StronglySorted lt (map fst (filter (fun p : nat * list nat => negb (is_nil (snd p))) (combine (seq m (length l)) l))) /\
      List.Forall (fun x => (m <= x)%nat) (map fst (filter (fun p : nat * list nat => negb (is_nil (snd p))) (combine (seq m (length l)) l)))).
    { clear. induction l as [|a l IH]; intros m; cbn [length seq combine filter]; [split; constructor|]. destruct (IH (Datatypes.S m)) as [A B].
      assert (B' : List.Forall (fun x => (m < x)%nat) (map fst (filter (fun p : nat * list nat => negb (is_nil (snd p))) (combine (seq (Datatypes.S m) (length l)) l)))) by (eapply List.Forall_impl; [|exact B]; cbv beta; lia).
      destruct (negb _); cbn [map fst]; [split; constructor; try assumption; try lia|split; [exact A|]]; eapply List.Forall_impl; try exact B'; cbv beta; lia. }
    apply (G (trivial_neighborhood t) 0%nat).
Qed.
Lemma enum_eqb n r i a : (r < 3)%nat -> (a < 3)%nat -> Nat.eqb (3 * n + r) (3 * i + a) = andb (Nat.eqb n i) (Nat.eqb r a).
Proof. intros R A. destruct (Nat.eqb_spec n i) as [->|N]; destruct (Nat.eqb_spec r a) as [->|M]; cbn [andb]; [apply Nat.eqb_eq|apply Nat.eqb_neq|apply Nat.eqb_neq|apply Nat.eqb_neq]; lia. Qed.
Definition six_indices (i : nat) : list (nat * nat) := flat_map (fun r => map (fun c => (3 * i + r, 3 * i + c)%nat) (seq 0 (r + 1))) [0; 1; 2]%nat.
Lemma six_sum n B i a i' a' : (a < 3)%nat -> (a' < 3)%nat ->
  rsum (map (fun p => if andb (Nat.eqb (fst (fst p)) (3 * i + a)) (Nat.eqb (snd (fst p)) (3 * i' + a')) then snd p else 0) (combine (six_indices n) (lower_entries B)))
  = if andb (andb (Nat.eqb n i) (Nat.eqb n i')) (Nat.leb a' a) then m3_get B a a' else 0.
Proof.
  intros A A'. change (six_indices n) with [(3 * n + 0, 3 * n + 0); (3 * n + 1, 3 * n + 0); (3 * n + 1, 3 * n + 1); (3 * n + 2, 3 * n + 0); (3 * n + 2, 3 * n + 1); (3 * n + 2, 3 * n + 2)]%nat.
  unfold lower_entries. cbn [combine map fst snd]. rewrite !enum_eqb by lia. rewrite !rsum_cons, rsum_nil.
  destruct (Nat.eqb n i); destruct (Nat.eqb n i'); cbn [andb]; rewrite ?andb_false_r; try ring.
  destruct a as [|[|[|a]]]; [| | |lia]; (destruct a' as [|[|[|a']]]; [| | |lia]); cbn; ring.
Qed.
Lemma entry_sum bs i a i' a' : (a < 3)%nat -> (a' < 3)%nat -> (forall p, In p bs -> m3_symmetric (snd p)) ->
  lower_entry (flat_map six_indices (map fst bs)) (flat_map (fun p => lower_entries (snd p)) bs) (3 * i + a) (3 * i' + a')
  = rsum (map (fun p => if andb (Nat.eqb (fst p) i) (Nat.eqb (fst p) i') then m3_get (snd p) a a' else 0) bs).
Proof.
  intros A A' SY.
  assert (C : combine (flat_map six_indices (map fst bs)) (flat_map (fun p => lower_entries (snd p)) bs) = flat_map (fun p => combine (six_indices (fst p)) (lower_entries (snd p))) bs).
  { clear. induction bs as [|p bs IH]; [reflexivity|]. cbn [map flat_map]. rewrite combine_app_eq by reflexivity. rewrite IH. reflexivity. }
  unfold lower_entry. rewrite C. clear C.
  assert (M : forall (g : nat * nat * R -> R) (l : list (nat * m3)), rsum (map g (flat_map (fun p => combine (six_indices (fst p)) (lower_entries (snd p))) l)) = rsum (map (fun p => rsum (map g (combine (six_indices (fst p)) (lower_entries (snd p))))) l)).
  { intros g l. induction l as [|p l IH]; [reflexivity|]. cbn [flat_map map]. rewrite map_app, rsum_app, rsum_cons, IH. reflexivity. }
  destruct (Nat.leb_spec (3 * i' + a') (3 * i + a)) as [LE|GT]; rewrite M; apply rsum_ext; intros [n B] I; cbn [fst snd]; rewrite six_sum by assumption.
  - destruct (Nat.eqb_spec n i) as [->|]; [|reflexivity]. destruct (Nat.eqb_spec i i') as [->|]; [|reflexivity]. cbn [andb]. destruct (Nat.leb_spec a' a); [reflexivity|lia].
  - specialize (SY _ I). cbn [snd] in SY. rewrite (andb_comm (Nat.eqb n i')). destruct (Nat.eqb_spec n i) as [->|]; [|reflexivity]. destruct (Nat.eqb_spec i i') as [->|]; [|reflexivity]. cbn [andb]. destruct (Nat.leb_spec a a'); [|lia].
    destruct B as [[b0 b1 b2] [b3 b4 b5] [b6 b7 b8]]. unfold m3_symmetric, m3_transpose in SY. cbn [r0 r1 r2 vx vy vz] in SY. injection SY as S1 S2 S3 S4 S5 S6. destruct a as [|[|[|a]]]; [| | |lia]; (destruct a' as [|[|[|a']]]; [| | |lia]); cbn; congruence.
Qed.
Lemma block_symmetric t qs mults bs : query_hessian_blocks t qs mults = Some bs -> forall p, In p bs -> m3_symmetric (snd p).
Proof.
  unfold query_hessian_blocks. intros E [i B] I. apply all_some_forall2 in E. induction E as [|a b l r H E IH]; [destruct I|]. destruct I as [->|I]; [|apply IH; exact I].
  destruct a as [[idx [q nbrs]] m]. destruct (query_hessian_at q _ nbrs _ _) as [A|] eqn:Q; [|discriminate]. injection H as <- <-. apply symmetric_form_transpose, sf_scale, (sf_query _ _ _ _ _ _ Q).
Qed.
Lemma nodup_sum (bs : list (nat * m3)) (f : m3 -> R) i B : NoDup (map fst bs) -> In (i, B) bs -> rsum (map (fun p => if Nat.eqb (fst p) i then f (snd p) else 0) bs) = f B.
Proof.
  induction bs as [|[n A] bs IH]; intros N I; [destruct I|]. cbn [map fst snd] in *. inversion N as [|? ? N1 N2]; subst. rewrite rsum_cons. destruct I as [E|I].
  - injection E as -> ->. rewrite Nat.eqb_refl, rsum_zero; [ring|]. intros [m C] IC. cbn [fst snd]. destruct (Nat.eqb_spec m i) as [->|]; [|reflexivity]. exfalso. apply N1. apply (in_map fst) in IC. exact IC.
  - destruct (Nat.eqb_spec n i) as [->|]; [exfalso; apply N1; apply (in_map fst) in I; exact I|]. rewrite IH by assumption. ring.
Qed.
Lemma sorted_nodup l : StronglySorted lt l -> NoDup l.
Proof. induction 1 as [|a l H IH F]; constructor; [|exact IH]. intros I. rewrite List.Forall_forall in F. specialize (F a I). lia. Qed.
(** C150: the values and the index pairs describe the block diagonal matrix of the Hessians by its lower triangle; both lists have the
    announced length. *)
Theorem query_hessian_entries_exact : forall t qs mults, length qs = length (trivial_neighborhood t) -> length mults = num_neighborhoods t ->
  exists bs vals, query_hessian_blocks t qs mults = Some bs /\ query_hessian_values t qs mults = Some vals /\
    length vals = num_query_hessian_entries t /\ length (query_hessian_indices t) = num_query_hessian_entries t /\
    (forall r c, In (r, c) (query_hessian_indices t) -> (c <= r)%nat) /\
    (forall i B a a', In (i, B) bs -> (a < 3)%nat -> (a' < 3)%nat -> lower_entry (query_hessian_indices t) vals (3 * i + a) (3 * i + a') = m3_get B a a') /\
    (forall i i' a a', i <> i' \/ ~ In i (map fst bs) -> (a < 3)%nat -> (a' < 3)%nat -> lower_entry (query_hessian_indices t) vals (3 * i + a) (3 * i' + a') = 0).
Proof.
  intros t qs mults LQ LM. destruct (query_hessian_blocks_exact t qs mults LQ) as (bs & EB & _ & FI & _ & SO). specialize (FI LM).
  exists bs, (flat_map (fun p => lower_entries (snd p)) bs). split; [exact EB|]. split; [unfold query_hessian_values; rewrite EB; reflexivity|].
  assert (LI : length (query_hessian_block_indices t) = num_neighborhoods t) by (unfold query_hessian_block_indices, num_neighborhoods; rewrite map_length, nonempty_length; reflexivity).
  assert (EQ : query_hessian_indices t = flat_map six_indices (map fst bs)) by (unfold query_hessian_indices; rewrite FI; reflexivity).
  assert (ND : NoDup (map fst bs)) by (rewrite FI; apply sorted_nodup, SO).
  split; [|split; [|split; [|split]]].
  - unfold num_query_hessian_entries. rewrite <- LI, <- FI, map_length. clear. induction bs as [|p bs IH]; [reflexivity|]. cbn [flat_map length]. rewrite app_length, IH. cbn. lia.
  - unfold num_query_hessian_entries. rewrite <- LI, EQ, <- FI. clear. induction (map fst bs) as [|p l IH]; [reflexivity|]. cbn [flat_map length]. rewrite app_length, IH. cbn. lia.
  - intros r c. rewrite EQ. intros I. apply in_flat_map in I. destruct I as (i & _ & I). unfold six_indices in I. apply in_flat_map in I. destruct I as (x & _ & I). apply in_map_iff in I. destruct I as (y & E & Y). injection E as <- <-. apply in_seq in Y. lia.
  - intros i B a a' I A A'. rewrite EQ, (entry_sum _ _ _ _ _ A A' (block_symmetric _ _ _ _ EB)). rewrite <- (nodup_sum bs (fun M => m3_get M a a') i B ND I). apply rsum_ext. intros p _. destruct (Nat.eqb (fst p) i); reflexivity.
  - intros i i' a a' N A A'. rewrite EQ, (entry_sum _ _ _ _ _ A A' (block_symmetric _ _ _ _ EB)). apply rsum_zero. intros p I. destruct (Nat.eqb_spec (fst p) i) as [<-|]; [|reflexivity]. destruct (Nat.eqb_spec (fst p) i') as [<-|]; [|reflexivity].
    exfalso. destruct N as [N|N]; [congruence|]. apply N, in_map, I.
Qed.
(** C150: writing scaled values replaces as many places as there are values and touches no others. *)
Theorem query_hessian_scaled_exact : forall t qs mults scale out vals, query_hessian_values t qs mults = Some vals ->
  exists out', query_hessian_scaled_values t qs mults scale out = Some out' /\ length out' = length out /\
    forall j, nth_error out' j = match nth_error out j, nth_error vals j with Some _, Some x => Some (x * scale) | o, _ => o end.
Proof.
  intros t qs mults scale out vals E. unfold query_hessian_scaled_values. rewrite E. eexists. split; [reflexivity|]. split; [apply zip_update_length|].
  clear E. revert vals. induction out as [|a out IH]; intros [|x vals] [|j]; cbn [zip_update nth_error]; try reflexivity; [destruct (nth_error out j); reflexivity|apply IH].
Qed.
(** Three query points, the second without neighbours. *)
Definition three (ty : sample_type) : query_topo := QLocal (flat_mls ty) (Nbh [0; 0; 0]%nat [[0; 1]; []; [1]]%nat [[0; 1]; []; [1]]%nat).
Example query_hessian_blocks_exact_ex : forall ty, exists B0 B2, query_hessian_blocks (three ty) [above; V3 9 9 9; V3 1 1 1] [2; 5] = Some [(0%nat, B0); (2%nat, B2)] /\
  query_hessian_block_indices (three ty) = [0; 2]%nat.
Proof.
  intros ty. destruct (query_hessian_blocks_exact (three ty) [above; V3 9 9 9; V3 1 1 1] [2; 5] eq_refl) as (bs & E & _ & F & _). specialize (F eq_refl). change (query_hessian_block_indices (three ty)) with [0; 2]%nat in F.
  destruct bs as [|[i A] [|[j B] [|? ?]]]; try discriminate. cbn in F. injection F as -> ->. exists A, B. split; [exact E|reflexivity].
Qed.
Example query_hessian_entries_exact_ex : forall ty, exists bs vals, query_hessian_blocks (three ty) [above; V3 9 9 9; V3 1 1 1] [2; 5] = Some bs /\ query_hessian_values (three ty) [above; V3 9 9 9; V3 1 1 1] [2; 5] = Some vals /\
  length vals = 12%nat /\ query_hessian_indices (three ty) = [(0, 0); (1, 0); (1, 1); (2, 0); (2, 1); (2, 2); (6, 6); (7, 6); (7, 7); (8, 6); (8, 7); (8, 8)]%nat.
Proof. intros ty. destruct (query_hessian_entries_exact (three ty) [above; V3 9 9 9; V3 1 1 1] [2; 5] eq_refl eq_refl) as (bs & vals & A & B & C & _). exists bs, vals. auto. Qed.
Example query_hessian_scaled_exact_ex : forall ty, exists x y out', query_hessian_scaled_values (three ty) [above; V3 9 9 9; V3 1 1 1] [2; 5] 3 (repeat 7 13) = Some out' /\ length out' = 13%nat /\
  nth_error out' 0 = Some (x * 3) /\ nth_error out' 11 = Some (y * 3) /\ nth_error out' 12 = Some 7.
Proof.
  intros ty. destruct (query_hessian_entries_exact (three ty) [above; V3 9 9 9; V3 1 1 1] [2; 5] eq_refl eq_refl) as (bs & vals & A & B & C & _).
  destruct (query_hessian_scaled_exact _ _ _ 3 (repeat 7 13) _ B) as (out' & E & L & N). change (num_query_hessian_entries (three ty)) with 12%nat in C.
  exists (nth 0 vals 0), (nth 11 vals 0), out'. split; [exact E|]. split; [exact L|]. split; [|split]; rewrite N; match goal with |- context [nth_error (repeat 7 13) ?n] => change (nth_error (repeat 7 13) n) with (Some 7) end; cbv iota beta.
  - rewrite (nth_error_nth' vals 0) by lia. reflexivity.
  - rewrite (nth_error_nth' vals 0) by lia. reflexivity.
  - rewrite (proj2 (nth_error_None vals 12)) by lia. reflexivity.
Qed.
(** C150, refuted: given one multiplier per query point, as the documentation asks, a query point after one without neighbours gets the
    multiplier of another. *)
Theorem query_hessian_multipliers_refuted : exists t qs mults bs i q nbrs H, length qs = length (trivial_neighborhood t) /\ length mults = length qs /\
  well_formed (q_base t) /\ in_place (q_base t) /\ query_hessian_blocks t qs mults = Some bs /\ nth_error qs i = Some q /\ nth_error (trivial_neighborhood t) i = Some nbrs /\
  query_hessian_at q (sb_samples (q_base t)) nbrs (q_kernel t) (sb_bg (q_base t)) = Some H /\ ~ In (i, m3_scale (nth i mults 0) H) bs.
Proof.
  set (t := QLocal (LocalMls (LCubic 2) 1 0 (tent (BgParams FZero true))) (Nbh [0; 0]%nat [[]; [0]]%nat [[]; [0]]%nat)).
  destruct (tent_hessian (sb_samples (q_base t)) 0 FZero ltac:(lra) eq_refl eq_refl eq_refl eq_refl eq_refl) as (H & EH & HZ).
  assert (K : q_kernel t = Cubic 2) by (cbn; unfold lm_radius; cbn; f_equal; lra).
  exists t, [V3 9 9 9; overhead], [0; 1], [(1%nat, m3_scale 0 H)], 1%nat, overhead, [0%nat], H.
  split; [reflexivity|]. split; [reflexivity|]. destruct (tent_ok (BgParams FZero true)) as (A & _ & B). split; [exact A|]. split; [exact B|].
  split; [|split; [reflexivity|split; [reflexivity|split; [rewrite K; exact EH|]]]].
  - unfold query_hessian_blocks, hessian_rows. change (trivial_neighborhood t) with [[]; [0%nat]]. cbn [enumerate combine length seq filter snd is_nil negb map all_some fst]. rewrite K. change (sb_bg (q_base t)) with (BgParams FZero true). rewrite EH. reflexivity.
  - cbn [nth]. intros [E|[]]. apply (f_equal (fun p => vz (r2 (snd p)))) in E. revert E. cbn [snd m3_scale r2 vz v3_scale]. rewrite HZ. lra.
Qed.
Example query_hessian_multipliers_refuted_ex : vz (V3 0 0 3) = 3 /\ sb_topo (tent (BgParams FZero true)) = [(0, 1, 2)%nat] /\ length (nonempty [[]; [0%nat]]) = 1%nat.
Proof. repeat split. Qed.

(** ** The derivative of the gradient in the vertices of the surface *)
(** C151: the blocks of a row, one for every corner of a neighbouring triangle, give the rate of the gradient at a moving query point
    while the vertices move and the samples follow. *)
Theorem sample_query_hessian_is_derivative : forall t U rebuild (q : R -> v3) dq view c, let b := q_base t in let k := q_kernel t in let P := sb_bg b in
  sb_type b = SFace -> well_formed b -> (forall tr, In tr (sb_topo b) -> distinct_corners tr) -> in_place b -> (forall i, In i view -> (i < length (sb_samples b))%nat) -> NoDup view ->
  valid_kernel k -> moves q dq -> nearest (sb_samples b) (q 0) view c -> regular_view k (sb_samples b) (q 0) view -> smooth_background k P 0 (sb_samples b) (q 0) c ->
  quiet_background k P (sb_samples b) (q 0) c ->
  exists H row J, query_hessian_at (q 0) (sb_samples b) view k P = Some H /\ sample_query_row t (q 0) view = Some row /\
    NoDup (map fst row) /\ (forall v, In v (map fst row) <-> exists i, In i view /\ depends_on b i v) /\
    locally 0 (fun s => query_jacobian_at (q s) (sb_samples (moved b U rebuild s)) view None k P = Some (J s)) /\
    moves J (v3_add (m3_mulv H dq) (block_row_product row U)).
Proof.
  intros t U rebuild q dq view c b k P TY WF DC IP LEN ND Vk Mq NE RV SB QB.
  destruct (mixed_gradient_derive t U rebuild q dq view c TY WF DC IP LEN ND Vk Mq NE RV SB QB) as (H & row & J & EH & ER & FR & LJ & MJ).
  exists H, row, J. split; [exact EH|]. split; [exact ER|]. rewrite FR. split; [apply unseen_nodup|]. split; [|auto].
  intros v. rewrite unseen_in, in_flat_map. unfold depends_on. rewrite TY. destruct WF as [_ WF]. fold b in WF. rewrite TY in WF. split.
  - intros [(tr & I & V) _]. apply in_map_iff in I. destruct I as (i & <- & I). exists i. split; [exact I|]. exists (nth i (sb_topo b) (0, 0, 0)%nat). split; [apply nth_error_nth'; rewrite <- WF; apply LEN, I|exact V].
  - intros (i & I & tr & T & V). split; [|intros []]. exists tr. split; [|exact V]. apply in_map_iff. exists i. split; [apply nth_error_nth; exact T|exact I].
Qed.
Lemma flat_distinct' ty : forall tr, In tr (sb_topo (flat ty)) -> distinct_corners tr.
Proof. destruct (flat_ok ty) as (_ & [B _] & _). exact B. Qed.
Example sample_query_hessian_is_derivative_ex : forall U dq, exists H row J, query_hessian_at above (sb_samples (flat SFace)) [0; 1]%nat (Cubic 1) (sb_bg (flat SFace)) = Some H /\ sample_query_row (flat_topo SFace) above [0; 1]%nat = Some row /\
    map fst row = [0; 1; 2; 3]%nat /\ locally 0 (fun s => query_jacobian_at (v3_line above dq s) (sb_samples (moved (flat SFace) U true s)) [0; 1]%nat None (Cubic 1) (sb_bg (flat SFace)) = Some (J s)) /\
    moves J (v3_add (m3_mulv H dq) (block_row_product row U)).
Proof.
  intros U dq. destruct (flat_ok SFace) as (A & _ & C & _). rewrite <- (flat_kernel SFace).
  pose proof (mixed_gradient_derive (flat_topo SFace) U true (v3_line above dq) dq [0; 1]%nat 0 eq_refl A (flat_distinct' SFace) C) as D. cbv zeta in D. rewrite flat_kernel, line_0 in *.
  destruct D as (H & row & J & E1 & E2 & E3 & E4 & E5).
  - intros i [<-|[<-|[]]]; cbn; lia.
  - repeat constructor; cbn; intuition discriminate.
  - exact flat_cubic.
  - apply moves_line.
  - exact (flat_nearest SFace).
  - exact (flat_regular SFace).
  - exact (flat_background SFace 0).
  - left. discriminate.
  - exists H, row, J. auto.
Qed.
(** C151, refuted for a weighted distance background: a triangle moves towards the query point, the gradient stays the same, and the
    product with the velocities is not zero. *)
Theorem weighted_distance_mixed_hessian_refuted : exists t q view c U row g, let b := q_base t in let k := q_kernel t in let P := sb_bg b in
  sb_type b = SFace /\ well_formed b /\ (forall tr, In tr (sb_topo b) -> distinct_corners tr) /\ in_place b /\ NoDup view /\
  valid_kernel k /\ nearest (sb_samples b) q view c /\ regular_view k (sb_samples b) q view /\ smooth_background k P 0 (sb_samples b) q c /\
  sample_query_row t q view = Some row /\
  (forall s, -1 < s < 1 -> query_jacobian_at q (sb_samples (moved b U false s)) view None k P = Some g) /\ block_row_product row U <> v3_0.
Proof.
  destruct tent_row as (row & ER & EP). exists (tent_topo FDistance), overhead, [0%nat], 0%nat, (fun _ => V3 0 0 1), row, (V3 0 0 1). cbv zeta.
  assert (K : q_kernel (tent_topo FDistance) = Cubic 2) by (cbn; unfold lm_radius; cbn; f_equal; lra). rewrite K.
  destruct (tent_ok (BgParams FDistance true)) as (A & B & C). destruct (tent_view (BgParams FDistance true)) as (N & V).
  split; [reflexivity|]. split; [exact A|]. split; [exact B|]. split; [exact C|]. split; [repeat constructor; intros []|]. split; [cbn; lra|]. split; [exact N|]. split; [exact V|].
  split; [split; [intros _; cbn [q_base tent_topo tent lm_base sb_samples smp nth s_nml s_pos away]; unfold away, v3_dot, v3_sub, overhead; cbn [smp nth s_nml s_pos vx vy vz]; lra|split; [intros _; exact Logic.I|intros _ E; discriminate E]]|]. split; [exact ER|]. split.
  - intros s Hs. pose proof (moved_sample (tent (BgParams FDistance true)) (fun _ => V3 0 0 1) false s 0 A B ltac:(cbn; lia)) as M. cbv zeta in M. cbn [sb_type tent] in M. destruct M as (MV & MP & MN).
    apply (tent_jacobian _ s); [exact Hs| | | |reflexivity].
    + etransitivity; [exact MP|]. apply v3_eq; cbn; lra.
    + etransitivity; [exact MN|]. apply v3_eq; cbn; lra.
    + exact MV.
  - rewrite EP. intros E. injection E. lra.
Qed.
Example weighted_distance_mixed_hessian_refuted_ex : exists row, sample_query_row (tent_topo FDistance) overhead [0%nat] = Some row /\ block_row_product row (fun _ => V3 0 0 1) = V3 0 0 (3 / 2).
Proof. exact tent_row. Qed.

(** ** Layout of the mixed Hessian *)
Lemma sample_row_spec t q view row : sample_query_row t q view = Some row -> exists tris, all_some (map (nth_error (sb_topo (q_base t))) view) = Some tris /\ map fst row = unseen [] (flat_map tri_verts tris).
Proof.
  unfold sample_query_row. destruct (bg_local _ _ _ _ _ _) as [b|]; [|discriminate]. destruct (vertex_weight_gradients _ _ _); [|discriminate]. destruct (vertex_weight_hessians _ _ _); [|discriminate].
  destruct (all_some (map (fun i => face_unit_normal_gradients _ _ _ _) view)); [|discriminate]. destruct (all_some _) as [tris|] eqn:E; [|discriminate]. intros X. injection X as <-. exists tris. split; [reflexivity|]. rewrite map_map. apply map_id.
Qed.
Lemma sample_row_total t q view : sb_type (q_base t) = SFace -> well_formed (q_base t) -> (forall i, In i view -> (i < length (sb_samples (q_base t)))%nat) -> view <> [] -> exists row, sample_query_row t q view = Some row.
Proof.
  intros TY [WT WL] R N. rewrite TY in WL. unfold sample_query_row. destruct (closest_some q (sb_samples (q_base t)) view N) as (c & C). unfold bg_local. rewrite C. set (b := bg_new_impl _ _ _ _ _ _ _).
  assert (T : forall i, In i view -> nth_error (sb_topo (q_base t)) i = Some (nth i (sb_topo (q_base t)) (0, 0, 0)%nat) /\ forall w, In w (tri_verts (nth i (sb_topo (q_base t)) (0, 0, 0)%nat)) -> (w < length (sb_verts (q_base t)))%nat).
  { intros i I. specialize (R i I). rewrite WL in R. split; [apply nth_error_nth'; exact R|]. intros w. apply WT, nth_In, R. }
  unfold vertex_weight_gradients, vertex_weight_hessians. change (b_view b) with view.
  match goal with |- context [scatter v3_sub _ ?x _ ?l] => destruct (scatter_spec v3_sub v3_0 (sb_topo (q_base t)) x (fun i => nth i (sb_topo (q_base t)) (0, 0, 0)%nat) view l) as (l1 & -> & _) end.
  { intros i I. rewrite repeat_length. apply T, I. }
  match goal with |- context [scatter m3_sub _ ?x _ ?l] => destruct (scatter_spec m3_sub m3_0 (sb_topo (q_base t)) x (fun i => nth i (sb_topo (q_base t)) (0, 0, 0)%nat) view l) as (l2 & -> & _) end.
  { intros i I. rewrite repeat_length. apply T, I. }
  match goal with |- context [all_some (map ?f view)] => destruct (all_some_total f view) as [gs ->] end.
  { intros i I. destruct (T i I) as [E W]. unfold face_unit_normal_gradients. rewrite E. pose proof (tri_at_some _ _ W) as TA. clear E W. destruct (nth i (sb_topo (q_base t)) (0, 0, 0)%nat) as [[? ?] ?]. rewrite TA. cbn [option_map]. eauto. }
  destruct (all_some_total (nth_error (sb_topo (q_base t))) view) as [tris ->]; [intros i I; destruct (T i I) as [E _]; eauto|]. eauto.
Qed.
Definition multiplier_at (mults : option (list R)) (j : nat) (m : R) : Prop := match mults with None => m = 1 | Some l => nth_error l j = Some m end.
Lemma nodup_rows (l : list (nat * list nat)) : NoDup (map fst l) -> (forall p, In p l -> NoDup (snd p)) -> NoDup (flat_map (fun p => map (fun v => (fst p, v)) (snd p)) l).
Proof.
  induction l as [|[i cs] l IH]; intros N C; [constructor|]. cbn [flat_map fst snd map] in *. inversion N as [|? ? N1 N2]; subst.
  assert (ND : forall (a c : list (nat * nat)), NoDup a -> NoDup c -> (forall x, In x a -> ~ In x c) -> NoDup (a ++ c)).
  { clear. induction a as [|x a IH]; intros c A Cc X; [exact Cc|]. inversion A; subst. cbn. constructor; [rewrite in_app_iff; intros [?|?]; [auto|apply (X x); [left; reflexivity|assumption]]|apply IH; auto]. intros y Y. apply X. right. exact Y. }
  apply ND.
  - apply FinFun.Injective_map_NoDup; [intros x y E; injection E as ->; reflexivity|]. apply (C (i, cs)). left. reflexivity.
  - apply IH; [exact N2|]. intros p I. apply C. right. exact I.
  - intros [a v] I J. apply in_map_iff in I. destruct I as (w & E & _). injection E as -> ->. apply in_flat_map in J. destruct J as ([j ds] & J & K). apply in_map_iff in K. destruct K as (w & E & _). cbn [fst] in E. injection E as -> ->. apply N1. apply (in_map fst) in J. exact J.
Qed.
(** C151: the mixed Hessian lists, for each query point with neighbours, the blocks of its row times its multiplier, at the places the
    index iterator lists; no place is listed twice. Surfaces sampled at vertices are refused. *)
Theorem sample_query_hessian_exact : forall t qs mults, well_formed (q_base t) -> indices_ok t -> length qs = length (trivial_neighborhood t) ->
  (forall l, mults = Some l -> length l = num_neighborhoods t) ->
  match sb_type (q_base t) with
  | SVertex => sample_query_hessian t qs mults = Unsupported /\ sample_query_hessian_indices t = Unsupported
  | SFace => exists L I, sample_query_hessian t qs mults = Result (Some L) /\ sample_query_hessian_indices t = Result (Some I) /\ map fst L = I /\ NoDup I /\
      (forall r v, In (r, v) I <-> exists i, In i (nth r (trivial_neighborhood t) []) /\ depends_on (q_base t) i v) /\
      (forall r v B, In (r, v, B) L <-> exists j m q nbrs row A, nth_error (query_hessian_block_indices t) j = Some r /\ multiplier_at mults j m /\ nth_error qs r = Some q /\
         nth_error (trivial_neighborhood t) r = Some nbrs /\ sample_query_row t q nbrs = Some row /\ In (v, A) row /\ B = m3_scale m A)
  end.
Proof.
  intros t qs mults WF (_ & RG & _) LQ LM. unfold sample_query_hessian, sample_query_hessian_indices. destruct (sb_type (q_base t)) eqn:TY; [split; reflexivity|].
  pose proof (rows_nonempty qs (trivial_neighborhood t) LQ) as RN. fold (hessian_rows t qs) in RN.
  assert (EI : query_hessian_block_indices t = map fst (hessian_rows t qs)) by (unfold query_hessian_block_indices; rewrite <- RN, map_map; reflexivity).
  destruct (query_hessian_blocks_exact t qs [] LQ) as (_ & _ & _ & _ & MB & SO).
  assert (LN : length (hessian_rows t qs) = num_neighborhoods t) by (unfold num_neighborhoods; rewrite <- nonempty_length, <- RN, map_length; reflexivity).
  set (ms := match mults with Some m => m | None => _ end). assert (LS : length (hessian_rows t qs) = length ms) by (unfold ms; destruct mults as [l|]; [rewrite (LM l eq_refl); exact LN|rewrite repeat_length; reflexivity]).
  assert (MA : forall j m, (j < length (hessian_rows t qs))%nat -> (multiplier_at mults j m <-> nth_error ms j = Some m)).
  { intros j m J. unfold multiplier_at, ms. destruct mults as [l|]; [reflexivity|]. rewrite (nth_error_nth' _ 1) by (rewrite repeat_length; exact J). rewrite nth_repeat. split; [intros ->; reflexivity|intros X; injection X as <-; reflexivity]. }
  clearbody ms.
  set (f := fun p : nat * (v3 * list nat) * R => let '((row, (q, nbrs)), mult) := p in option_map (map (fun e => (row, fst e, m3_scale mult (snd e)))) (sample_query_row t q nbrs)).
  assert (RT : forall i q nbrs, In (i, (q, nbrs)) (hessian_rows t qs) -> exists row, sample_query_row t q nbrs = Some row).
  { intros i q nbrs I. apply In_nth_error in I. destruct I as [j J]. destruct (row_spec _ _ _ _ _ _ J) as (_ & NN & N). apply sample_row_total; [exact TY|exact WF| |exact N]. intros x X. apply (RG nbrs x); [left; apply nth_error_In with i; exact NN|exact X]. }
  destruct (all_some_total f (combine (hessian_rows t qs) ms)) as [rs EB].
  { intros [[i [q nbrs]] m] I. apply in_combine_l in I. destruct (RT _ _ _ I) as [row E]. unfold f. rewrite E. eexists. reflexivity. }
  rewrite EB. set (g := fun p : nat * list nat => let '(row, nbrs) := p in option_map (fun tris => map (fun v => (row, v)) (unseen [] (flat_map tri_verts tris))) (all_some (map (nth_error (sb_topo (q_base t))) nbrs))).
  assert (EG : all_some (map g (nonempty (trivial_neighborhood t))) = Some (map (map fst) rs)).
  { rewrite <- RN. clear RN EI LN MA RT. revert ms rs LS EB. induction (hessian_rows t qs) as [|[i [q nbrs]] l IH]; intros [|m ms] rs LS EB; try discriminate; cbn [combine map all_some] in EB; [injection EB as <-; reflexivity|].
    destruct (f (i, (q, nbrs), m)) as [r|] eqn:F; [|discriminate]. destruct (all_some (map f (combine l ms))) as [rs'|] eqn:E; [|discriminate]. injection EB as <-. cbn [map all_some fst snd].
    unfold f in F. destruct (sample_query_row t q nbrs) as [row|] eqn:ER; [|discriminate]. injection F as <-. destruct (sample_row_spec _ _ _ _ ER) as (tris & ET & EF).
    rewrite (IH ms rs' ltac:(cbn in LS; lia) E). unfold g at 1. rewrite ET. cbn [option_map]. rewrite <- EF, !map_map. reflexivity. }
  rewrite EG. cbn [option_map].
  assert (EC : concat (map (map fst) rs) = map fst (concat rs)) by (symmetry; apply concat_map).
  assert (INL : forall r v B, In (r, v, B) (concat rs) <-> exists j m q nbrs row A, nth_error (query_hessian_block_indices t) j = Some r /\ multiplier_at mults j m /\ nth_error qs r = Some q /\
         nth_error (trivial_neighborhood t) r = Some nbrs /\ sample_query_row t q nbrs = Some row /\ In (v, A) row /\ B = m3_scale m A).
  { intros r v B. rewrite in_concat, EI. split.
    - intros (l & I & J). apply In_nth_error in I. destruct I as [j I]. apply (all_some_nth f _ _ EB) in I. destruct I as ([[i [q nbrs]] m] & X & F). apply nth_error_combine in X. destruct X as [X1 X2]. destruct (row_spec _ _ _ _ _ _ X1) as (Q & N & _).
      unfold f in F. destruct (sample_query_row t q nbrs) as [row|] eqn:ER; [|discriminate]. injection F as <-. apply in_map_iff in J. destruct J as ([w A] & E & J). cbn [fst snd] in E. injection E as <- <- <-.
      exists j, m, q, nbrs, row, A. split; [rewrite nth_error_map, X1; reflexivity|]. split; [apply MA; [apply nth_error_Some; congruence|exact X2]|auto].
    - intros (j & m & q & nbrs & row & A & X1 & X2 & Q & N & ER & I & ->). rewrite nth_error_map in X1. destruct (nth_error (hessian_rows t qs) j) as [[i' [q' n']]|] eqn:X; [|discriminate]. injection X1 as ->.
      destruct (row_spec _ _ _ _ _ _ X) as (Q' & N' & _). assert (q' = q) by congruence. assert (n' = nbrs) by congruence. subst.
      apply MA in X2; [|apply nth_error_Some; congruence]. exists (map (fun e => (r, fst e, m3_scale m (snd e))) row). split; [|apply in_map_iff; exists (v, A); auto].
      apply nth_error_In with j. apply (all_some_nth f _ _ EB). exists (r, (q, nbrs), m). split; [apply nth_error_combine; auto|]. unfold f. rewrite ER. reflexivity. }
  exists (concat rs), (concat (map (map fst) rs)). split; [reflexivity|]. split; [reflexivity|]. split; [symmetry; exact EC|].
  assert (WL : length (sb_samples (q_base t)) = length (sb_topo (q_base t))) by (destruct WF as [_ WL]; rewrite TY in WL; exact WL).
  assert (INI : forall r v, In (r, v) (concat (map (map fst) rs)) <-> exists i, In i (nth r (trivial_neighborhood t) []) /\ depends_on (q_base t) i v).
  { intros r v. rewrite in_concat. unfold depends_on. rewrite TY. split.
    - intros (l & I & J). apply In_nth_error in I. destruct I as [j I]. apply (all_some_nth g _ _ EG) in I. destruct I as ([i nbrs] & X & F). apply nth_error_In, nonempty_in in X. destruct X as [X _].
      unfold g in F. destruct (all_some (map (nth_error (sb_topo (q_base t))) nbrs)) as [tris|] eqn:ET; [|discriminate]. injection F as <-. apply in_map_iff in J. destruct J as (w & E & J). injection E as -> ->. rewrite (nth_error_nth _ _ _ X). apply unseen_in in J. destruct J as [J _]. apply in_flat_map in J. destruct J as (tr & T & V).
      apply In_nth_error in T. destruct T as [jj T]. apply (all_some_nth _ _ _ ET) in T. destruct T as (x & X1 & X2). exists x. split; [apply nth_error_In with jj; exact X1|eauto].
    - intros (i & I & tr & T & V). assert (NN : nth_error (trivial_neighborhood t) r = Some (nth r (trivial_neighborhood t) [])) by (apply nth_error_nth'; destruct (le_lt_dec (length (trivial_neighborhood t)) r) as [G|G]; [rewrite nth_overflow in I by exact G; destruct I|exact G]).
      assert (X : In (r, nth r (trivial_neighborhood t) []) (nonempty (trivial_neighborhood t))) by (apply nonempty_in; split; [exact NN|intros Z; rewrite Z in I; destruct I]).
      apply In_nth_error in X. destruct X as [j X]. destruct (all_some_total (nth_error (sb_topo (q_base t))) (nth r (trivial_neighborhood t) [])) as [tris ET].
      { intros a Ha. exists (nth a (sb_topo (q_base t)) (0, 0, 0)%nat). apply nth_error_nth'. rewrite <- WL. apply (RG (nth r (trivial_neighborhood t) []) a); [left; apply nth_error_In with r; exact NN|exact Ha]. }
      exists (map (fun v => (r, v)) (unseen [] (flat_map tri_verts tris))). split.
      + apply nth_error_In with j. apply (all_some_nth g _ _ EG). exists (r, nth r (trivial_neighborhood t) []). split; [exact X|]. unfold g. rewrite ET. reflexivity.
      + apply in_map, unseen_in. split; [|intros []]. apply in_flat_map. exists tr. split; [|exact V]. apply In_nth_error in I. destruct I as [jj I]. apply nth_error_In with jj. apply (all_some_nth _ _ _ ET). eauto. }
  split; [|split; [exact INI|exact INL]].
  assert (EQ : exists cols, concat (map (map fst) rs) = flat_map (fun p => map (fun v => (fst p, v)) (snd p)) (combine (query_hessian_block_indices t) cols) /\ (forall c, In c cols -> NoDup c)).
  { unfold query_hessian_block_indices. clear -EG. revert EG. generalize (map (map fst) rs). induction (nonempty (trivial_neighborhood t)) as [|[i nbrs] l IH]; intros r EG; cbn [map all_some] in EG; [injection EG as <-; exists []; split; [reflexivity|intros c []]|].
    destruct (g (i, nbrs)) as [a|] eqn:G; [|discriminate]. destruct (all_some (map g l)) as [r'|] eqn:E; [|discriminate]. injection EG as <-. destruct (IH r' eq_refl) as (cols & E1 & E2).
    unfold g in G. destruct (all_some (map (nth_error (sb_topo (q_base t))) nbrs)) as [tris|]; [|discriminate]. injection G as <-. exists (unseen [] (flat_map tri_verts tris) :: cols). split; [cbn [concat map combine flat_map fst snd]; rewrite E1; reflexivity|]. intros c [<-|C]; [apply unseen_nodup|apply E2, C]. }
  destruct EQ as (cols & EQ & NC). rewrite EQ. apply nodup_rows.
  - apply sorted_nodup in SO. clear -SO. revert cols. induction (query_hessian_block_indices t) as [|i l IH]; intros [|c cols]; try constructor; cbn [combine map fst].
    + inversion SO; subst. intros I. apply in_map_iff in I. destruct I as ([a b] & E & I). apply in_combine_l in I. cbn in E. subst. auto.
    + inversion SO; subst. apply IH. assumption.
  - intros [i c] I. apply in_combine_r in I. apply NC, I.
Qed.
Lemma three_indices ty : indices_ok (three ty).
Proof.
  split; [reflexivity|]. split.
  - intros l i H I. destruct ty; cbn in H |- *; destruct H as [H|H]; (destruct H as [<-|[<-|[<-|[]]]]); cbn in I; intuition lia.
  - intros k. reflexivity.
Qed.
Example sample_query_hessian_exact_ex : exists L, sample_query_hessian (three SFace) [above; V3 9 9 9; V3 1 1 1] (Some [2; 5]) = Result (Some L) /\
  map fst L = [(0, 0); (0, 1); (0, 2); (0, 3); (2, 1); (2, 3); (2, 2)]%nat /\ sample_query_hessian (three SVertex) [above; V3 9 9 9; V3 1 1 1] None = Unsupported.
Proof.
  destruct (flat_ok SFace) as (A & _). pose proof (sample_query_hessian_exact (three SFace) [above; V3 9 9 9; V3 1 1 1] (Some [2; 5]) A (three_indices SFace) eq_refl) as T. cbv beta zeta in T.
  change (sb_type (q_base (three SFace))) with SFace in T. cbv iota in T. destruct T as (L & I & E & EI & EM & _); [intros l X; injection X as <-; reflexivity|].
  exists L. split; [exact E|]. split; [|reflexivity]. rewrite EM. injection EI as <-. reflexivity.
Qed.

Print Assumptions query_hessian_is_derivative.
Print Assumptions query_hessian_blocks_exact.
Print Assumptions query_hessian_entries_exact.
Print Assumptions query_hessian_scaled_exact.
Print Assumptions query_hessian_multipliers_refuted.
Print Assumptions sample_query_hessian_is_derivative.
Print Assumptions weighted_distance_mixed_hessian_refuted.
Print Assumptions sample_query_hessian_exact.
