(** Proofs about the second derivative of the potential when the query point and the vertices of the surface move together. *)
From Coq Require Import Reals List Bool Lra Lia Psatz FunctionalExtensionality.
From Coquelicot Require Import Coquelicot.
From Verif Require Import Vec3 Mat3 RList Calc KernelModel KernelSpec KernelProofs FieldModel FieldSpec FieldProofs FieldDerivProofs
  NeighborModel NeighborSpec UpdateProps SurfJacModel SurfJacSpec SurfJacProofs HessModel HessSpec HessProofs HessMixProofs SurfHessModel SurfHessSpec JetProofs
  SurfHessProofs SurfHessCodeProofs.
Import ListNotations.
Local Open Scope R_scope.

(** ** Adding a common velocity *)
Lemma curve_square a b d e x : curve a b d (v3_add e x) (v3_add e x) = curve a b d e e + 2 * curve a b d x e + curve a b d x x.
Proof. rewrite curve_add, (curve_sym a b d (v3_add e x) e), (curve_sym a b d (v3_add e x) x), !curve_add, (curve_sym a b d e x). ring. Qed.
Lemma bcurve_square k w d e x : bcurve k w d (v3_add e x) (v3_add e x) = bcurve k w d e e + 2 * bcurve k w d x e + bcurve k w d x x.
Proof. unfold bcurve. destruct (k_radius k); [|ring]. destruct (Rlt_dec _ _); [ring|]. destruct (negb w); [ring|]. apply curve_square. Qed.
Lemma fcurve_square P s d e x : fcurve P s d (v3_add e x) (v3_add e x) = fcurve P s d e e + 2 * fcurve P s d x e + fcurve P s d x x.
Proof. unfold fcurve. destruct (p_type P); try ring. apply curve_square. Qed.
Lemma nrate_add_r n a x y : nrate n a (v3_add x y) = nrate n a x + nrate n a y.
Proof. rewrite nrate_sym, nrate_add, (nrate_sym n x), (nrate_sym n y). reflexivity. Qed.
Lemma sum_joint (w psi rw rp cw cp g m h hx rm : nat -> R) (G RG J : R) l :
  rsum (map (fun i => (cw i + 2 * h i + hx i) * psi i + 2 * (rw i + g i) * (rp i + m i) + w i * (cp i + 2 * rm i)) l)
  = rsum (map (fun i => cw i * psi i + 2 * rw i * rp i + w i * cp i) l)
    + 2 * (rsum (map (fun i => (rp i - RG) * g i + (psi i - G) * h i + (rw i * m i + w i * rm i)) l) + RG * rsum (map g l) + G * rsum (map h l) )
    + (rsum (map (fun i => (m i + 0 - J) * g i + (psi i - G) * hx i + (g i * m i + w i * 0)) l) + J * rsum (map g l) + G * rsum (map hx l)).
Proof. induction l as [|a l IH]; cbn [map]; [rewrite !rsum_nil; ring|]. rewrite !rsum_cons, IH. ring. Qed.
Lemma sum_gradient (w psi g m : nat -> R) (G : R) l : rsum (map (fun i => (psi i - G) * g i + w i * m i) l) = rsum (map (fun i => g i * psi i + w i * m i) l) - G * rsum (map g l).
Proof. induction l as [|a l IH]; cbn [map]; [rewrite !rsum_nil; ring|]. rewrite !rsum_cons, IH. ring. Qed.
Section Joint.
Variables (k k0 : kernel) (P : bg_params) (v : R) (view : list nat) (c : nat).
Variables (d n : R -> nat -> v3) (val : nat -> R) (e dn ddn : nat -> v3) (x : v3).
Hypothesis NW : q_W k k0 P view c d 0 <> 0.
Let e' (i : nat) := v3_add (e i) x.
Lemma j_w i : r_w k0 d e' i = r_w k0 d e i + q_g k0 d x 0 i.
Proof. unfold r_w, q_g, e'. apply dot_add_r. Qed.
Lemma j_psi i : r_psi d n e' dn i = r_psi d n e dn i + q_m n x 0 i.
Proof. unfold r_psi, q_m, e'. rewrite dot_add_r. ring. Qed.
Lemma j_bw : r_bw k P c d e' = r_bw k P c d e + q_beta k P c d x 0.
Proof. unfold r_bw, q_beta, e'. apply dot_add_r. Qed.
Lemma j_fv : r_fv P c d n e' = r_fv P c d n e + q_gam P c d n x 0.
Proof. unfold r_fv, q_gam, e'. apply dot_add_r. Qed.
Lemma j_W : r_W k k0 P view c d e' = r_W k k0 P view c d e + (rsum (map (q_g k0 d x 0) view) + q_beta k P c d x 0).
Proof. unfold r_W. rewrite j_bw, (rsum_ext _ (fun i => r_w k0 d e i + q_g k0 d x 0 i)) by (intros i _; apply j_w). rewrite rsum_plus. ring. Qed.
Lemma j_G : r_G k k0 P v view c d n val e' dn = r_G k k0 P v view c d n val e dn + q_J k k0 P v view c d n val x 0.
Proof.
  unfold r_G, q_J. rewrite j_W, j_bw, j_fv.
  rewrite (rsum_ext _ (fun i => (r_w k0 d e i * q_psi d n val 0 i + q_w k0 d 0 i * r_psi d n e dn i) + (q_g k0 d x 0 i * q_psi d n val 0 i + q_w k0 d 0 i * q_m n x 0 i))) by (intros i _; rewrite j_w, j_psi; ring).
  rewrite rsum_plus.
  assert (E : rsum (map (fun i => (q_psi d n val 0 i - q_G k k0 P v view c d n val 0) * q_g k0 d x 0 i + q_w k0 d 0 i * q_m n x 0 i) view)
    = rsum (map (fun i => q_g k0 d x 0 i * q_psi d n val 0 i + q_w k0 d 0 i * q_m n x 0 i) view) - q_G k k0 P v view c d n val 0 * rsum (map (q_g k0 d x 0) view)).
  { apply sum_gradient. }
  rewrite E. ring.
Qed.
Lemma j_const : r_G k k0 P v view c d n val (fun _ => x) (fun _ => v3_0) = q_J k k0 P v view c d n val x 0.
Proof.
  unfold r_G, q_J, r_W.
  rewrite (rsum_ext (fun i => r_w k0 d (fun _ => x) i * q_psi d n val 0 i + q_w k0 d 0 i * r_psi d n (fun _ => x) (fun _ => v3_0) i) (fun i => q_g k0 d x 0 i * q_psi d n val 0 i + q_w k0 d 0 i * q_m n x 0 i)).
  2: { intros i _. unfold r_w, q_g, r_psi, q_m. rewrite nrate_0. ring. }
  assert (E : rsum (map (fun i => (q_psi d n val 0 i - q_G k k0 P v view c d n val 0) * q_g k0 d x 0 i + q_w k0 d 0 i * q_m n x 0 i) view)
    = rsum (map (fun i => q_g k0 d x 0 i * q_psi d n val 0 i + q_w k0 d 0 i * q_m n x 0 i) view) - q_G k k0 P v view c d n val 0 * rsum (map (q_g k0 d x 0) view)).
  { apply sum_gradient. }
  rewrite E. change (map (r_w k0 d (fun _ => x)) view) with (map (q_g k0 d x 0) view).
  change (r_bw k P c d (fun _ => x)) with (q_beta k P c d x 0). change (r_fv P c d n (fun _ => x)) with (q_gam P c d n x 0). ring.
Qed.
Lemma joint_curvature : c_G k k0 P v view c d n val e' dn ddn
  = c_G k k0 P v view c d n val e dn ddn + 2 * r_J k k0 P v view c d n val e dn x + r_J k k0 P v view c d n val (fun _ => x) (fun _ => v3_0) x.
Proof.
  assert (Cw : forall i, c_w k0 d e' i = c_w k0 d e i + 2 * r_g k0 d e x i + r_g k0 d (fun _ => x) x i) by (intros i; apply curve_square).
  assert (Cp : forall i, c_psi2 d n e' dn ddn i = c_psi2 d n e dn ddn i + 2 * r_m n dn x i) by (intros i; unfold c_psi2, r_m, e'; rewrite nrate_add_r; ring).
  assert (Cb : c_bw k P c d e' = c_bw k P c d e + 2 * r_beta k P c d e x + r_beta k P c d (fun _ => x) x) by apply bcurve_square.
  assert (Cf : c_fv P c d n e' = c_fv P c d n e + 2 * r_gam P c d n e x + r_gam P c d n (fun _ => x) x) by apply fcurve_square.
  assert (CW : c_W k k0 P view c d e' = c_W k k0 P view c d e + 2 * (rsum (map (r_g k0 d e x) view) + r_beta k P c d e x) + (rsum (map (r_g k0 d (fun _ => x) x) view) + r_beta k P c d (fun _ => x) x)).
  { unfold c_W. rewrite Cb, (rsum_ext _ (fun i => c_w k0 d e i + 2 * r_g k0 d e x i + r_g k0 d (fun _ => x) x i)) by (intros i _; apply Cw). rewrite !rsum_plus, rsum_scale. ring. }
  unfold c_G, c_N. rewrite CW, Cf, Cb, j_G, j_W, j_bw, j_fv.
  rewrite (rsum_ext _ (fun i => (c_w k0 d e i + 2 * r_g k0 d e x i + r_g k0 d (fun _ => x) x i) * q_psi d n val 0 i + 2 * (r_w k0 d e i + q_g k0 d x 0 i) * (r_psi d n e dn i + q_m n x 0 i) + q_w k0 d 0 i * (c_psi2 d n e dn ddn i + 2 * r_m n dn x i))).
  2: { intros i _. rewrite Cw, Cp, j_w, j_psi. reflexivity. }
  rewrite (sum_joint (q_w k0 d 0) (q_psi d n val 0) (r_w k0 d e) (r_psi d n e dn) (c_w k0 d e) (c_psi2 d n e dn ddn) (q_g k0 d x 0) (q_m n x 0) (r_g k0 d e x) (r_g k0 d (fun _ => x) x) (r_m n dn x)
    (q_G k k0 P v view c d n val 0) (r_G k k0 P v view c d n val e dn) (q_J k k0 P v view c d n val x 0)).
  unfold r_J. rewrite j_const.
  rewrite (rsum_ext (fun i => (r_psi d n (fun _ => x) (fun _ => v3_0) i - q_J k k0 P v view c d n val x 0) * q_g k0 d x 0 i + (q_psi d n val 0 i - q_G k k0 P v view c d n val 0) * r_g k0 d (fun _ => x) x i
      + (r_w k0 d (fun _ => x) i * q_m n x 0 i + q_w k0 d 0 i * r_m n (fun _ => v3_0) x i))
    (fun i => (q_m n x 0 i + 0 - q_J k k0 P v view c d n val x 0) * q_g k0 d x 0 i + (q_psi d n val 0 i - q_G k k0 P v view c d n val 0) * r_g k0 d (fun _ => x) x i + (q_g k0 d x 0 i * q_m n x 0 i + q_w k0 d 0 i * 0))).
  2: { intros i _. unfold r_psi, r_m, r_w, q_g, q_m. rewrite !nrate_0. reflexivity. }
  assert (RWx : r_W k k0 P view c d (fun _ => x) = rsum (map (q_g k0 d x 0) view) + q_beta k P c d x 0) by reflexivity.
  rewrite RWx. change (r_bw k P c d (fun _ => x)) with (q_beta k P c d x 0). change (r_fv P c d n (fun _ => x)) with (q_gam P c d n x 0). ring.
Qed.
End Joint.

(** ** The potential when samples and the query point move *)
Section MovingQuery.
Variables (k : kernel) (P : bg_params) (v : R) (view : list nat) (c : nat) (q : R -> v3) (x : v3) (S : R -> list sample) (dp dn ddn : nat -> v3).
Hypothesis Vk : valid_kernel k.
Hypothesis MQ : vjet q (q 0) x v3_0.
Hypothesis MV : forall i, In i view -> vjet (fun s => s_pos (smp (S s) i)) (s_pos (smp (S 0) i)) (dp i) v3_0 /\
  vjet (fun s => s_nml (smp (S s) i)) (s_nml (smp (S 0) i)) (dn i) (ddn i) /\ forall s, s_value (smp (S s) i) = s_value (smp (S 0) i).
Hypothesis NE : nearest (S 0) (q 0) view c.
Hypothesis RV : regular_view k (S 0) (q 0) view.
Hypothesis SB : smooth_background k P v (S 0) (q 0) c.
Let dd (s : R) (i : nat) := away (S s) (q s) i.
Let nn (s : R) (i : nat) := s_nml (smp (S s) i).
Let val (i : nat) := s_value (smp (S 0) i).
Let k0 := with_closest k (v3_norm (away (S 0) (q 0) c)).
Lemma moving_jet : jet (fun s => potential_at (q s) (S s) view k P v) (q_G k k0 P v view c dd nn val 0)
  (r_G k k0 P v view c dd nn val (fun i => v3_add (v3_scale (-1) (dp i)) x) dn) (c_G k k0 P v view c dd nn val (fun i => v3_add (v3_scale (-1) (dp i)) x) dn ddn).
Proof.
  assert (D0 : 0 < v3_norm (away (S 0) (q 0) c)) by (apply v3_norm_pos, RV, NE).
  assert (MS : moving_samples S view dp dn).
  { intros i Hi. destruct (MV i Hi) as (A & B & C). split; [exact (vjet_moves _ _ _ _ A)|]. split; [exact (vjet_moves _ _ _ _ B)|exact C]. }
  assert (VN := view_near k P v view c q S x dp dn (vjet_moves _ _ _ _ MQ) MS NE RV SB).
  assert (NI : p_weighted P = true -> match k with Interpolating _ _ => False | _ => True end).
  { intros H. destruct SB as (_ & A & _). specialize (A H). destruct k; auto. }
  apply jet_ext_loc with (q_G k k0 P v view c dd nn val).
  - eapply filter_imp; [|exact VN]. intros s (A & B & C). cbv beta in *. symmetry.
    rewrite (potential_quotient k (v3_norm (away (S 0) (q 0) c)) P v (q s) (S s) view c Vk D0 A).
    + unfold quotient, q_G, q_W, q_w, q_psi, q_fv, q_bw. fold k0. f_equal. f_equal. apply rsum_ext. intros i Hi. f_equal. unfold plane_value. rewrite (proj2 (proj2 (MV i Hi)) s). reflexivity.
    + intros i Hi. apply v3_norm_pos, B, Hi.
    + destruct (k_radius k) as [r|] eqn:E; [|exact Logic.I]. apply (regular_radius k _ r); [apply B, A|exact E].
    + exact NI.
  - apply q_G_jet; try assumption.
    + apply with_closest_valid; assumption.
    + apply with_closest_radius.
    + intros i Hi. destruct (MV i Hi) as (A & _). assert (J := vjet_sub _ _ _ _ _ _ _ _ MQ A).
      replace (v3_add (v3_scale (-1) (dp i)) x) with (v3_sub x (dp i)) by (apply v3_eq; unv; ring). replace v3_0 with (v3_sub v3_0 v3_0) at 1 by (apply v3_eq; unv; ring). exact J.
    + intros i Hi. destruct (MV i Hi) as (_ & A & _). exact A.
    + apply NE.
    + intros i Hi. destruct (RV i Hi) as (A & B & C). split; [exact A|]. split; [exact B|]. apply with_closest_regular. exact C.
    + intros T. destruct SB as (A & _). exact (A T).
Qed.
End MovingQuery.
Lemma joint_row_jet t q x nbrs c U rebuild : let b := q_base t in let k := q_kernel t in let S := sb_samples b in
  sb_type b = SFace -> well_formed b -> proper_mesh b -> in_place b -> valid_kernel k -> NoDup nbrs -> (forall i, In i nbrs -> (i < length S)%nat) ->
  nearest S q nbrs c -> regular_view k S q nbrs -> smooth_background k (sb_bg b) 0 S q c -> quiet_background k (sb_bg b) S q c ->
  exists H row J blocks C, query_hessian_at q S nbrs k (sb_bg b) = Some H /\ sample_query_row t q nbrs = Some row /\
    map fst row = unseen [] (flat_map tri_verts (map (fun i => nth i (sb_topo b) (0, 0, 0)%nat) nbrs)) /\
    query_jacobian_at q S nbrs None k (sb_bg b) = Some J /\ surface_row t q nbrs = Some blocks /\
    (forall sq m L, square_rule sq -> face_hessian_at q S nbrs k (sb_topo b) (sb_verts b) (sb_bg b) m = Some L -> form sq U L = m * C) /\
    jet (fun s => potential_at (v3_line q x s) (sb_samples (moved b U rebuild s)) nbrs k (sb_bg b) 0) (potential_at q S nbrs k (sb_bg b) 0)
      (v3_dot J x + paired U (concat (map (cols_of b) nbrs)) blocks)
      (C + 2 * rsum (map (fun p => bil (snd p) x (U (fst p))) row) + bil H x x).
Proof.
  intros b k S0 TY WF PM IP Vk ND LEN NE RV SB QB. assert (DC := proj1 PM).
  destruct (surface_row_derive t U rebuild q nbrs c 0 WF PM IP Vk ND LEN NE RV SB) as (blocks & EB & DS); [intros E; fold b in E; congruence|]. fold b k S0 in DS.
  destruct (mixed_rate t q nbrs c U TY WF DC LEN ND Vk NE RV QB) as (row & ER & FR & RR). fold b k S0 in RR, FR.
  destruct (query_hessian_rate k (sb_bg b) 0 nbrs c (fun _ => q) (fun _ => S0) Vk NE RV SB) as (H & EH & RH). cbv beta in RH, EH.
  assert (Q0 : v3_line q x 0 = q) by (apply v3_eq; unfold v3_line; unv; ring).
  destruct (moving_mesh b U rebuild nbrs WF DC IP LEN) as (E0 & MS & EXT). cbv zeta in E0, EXT, MS. set (S := fun s => keep (sb_samples b) (sb_samples (moved b U rebuild s))) in *. change (keep _ _) with (S 0) in E0. cbv beta in MS.
  assert (NE' := NE). assert (RV' := RV). assert (SB' := SB). fold S0 in E0. rewrite <- E0 in NE', RV', SB'. rewrite <- Q0 in NE', RV', SB'.
  assert (SM : forall s i, In i nbrs -> s_pos (smp (S s) i) = tri_centroid (mesh_line (sb_verts b) U s) (nth i (sb_topo b) (0, 0, 0)%nat)
    /\ s_nml (smp (S s) i) = area_vector (mesh_line (sb_verts b) U s) (nth i (sb_topo b) (0, 0, 0)%nat) /\ s_value (smp (S s) i) = s_value (smp (sb_samples b) i)).
  { intros s i Hi. pose proof (LEN i Hi) as L. unfold S. rewrite keep_smp by (try exact L; apply moved_length). cbn [s_pos s_nml s_value]. destruct (moved_sample b U rebuild s i WF DC L) as [A M]. rewrite TY in M. destruct M as [M1 M2].
    rewrite A, M1, M2. repeat split; reflexivity. }
  assert (RG : forall i, In i nbrs -> forall w, In w (tri_verts (nth i (sb_topo b) (0, 0, 0)%nat)) -> (w < length (sb_verts b))%nat).
  { intros i Hi w. apply (proj1 WF), nth_In. destruct WF as [_ W]. rewrite TY in W. rewrite <- W. apply LEN, Hi. }
  assert (MV : forall i, In i nbrs -> vjet (fun s => s_pos (smp (S s) i)) (s_pos (smp (S 0) i)) (pos_rate b U i) v3_0 /\
    vjet (fun s => s_nml (smp (S s) i)) (s_nml (smp (S 0) i)) (nml_rate b U i) (tri_curve U (nth i (sb_topo b) (0, 0, 0)%nat)) /\ forall s, s_value (smp (S s) i) = s_value (smp (S 0) i)).
  { intros i Hi. destruct (SM 0 i Hi) as (P0 & N0 & V0). rewrite mesh_0 in P0, N0. refine (conj _ (conj _ _)).
    - apply (vjet_ext (fun s => tri_centroid (mesh_line (sb_verts b) U s) (nth i (sb_topo b) (0, 0, 0)%nat))); [intros s; symmetry; apply SM, Hi|]. rewrite P0. unfold pos_rate. rewrite TY. apply centroid_jet, RG, Hi.
    - apply (vjet_ext (fun s => area_vector (mesh_line (sb_verts b) U s) (nth i (sb_topo b) (0, 0, 0)%nat))); [intros s; symmetry; apply SM, Hi|]. rewrite N0. unfold nml_rate. rewrite TY. apply area_jet, RG, Hi.
    - intros s. rewrite V0. apply SM, Hi. }
  assert (MQ : vjet (fun s => v3_line q x s) (v3_line q x 0) x v3_0) by (rewrite Q0; apply vjet_line).
  assert (J := moving_jet k (sb_bg b) 0 nbrs c (fun s => v3_line q x s) x S (pos_rate b U) (nml_rate b U) (fun i => tri_curve U (nth i (sb_topo b) (0, 0, 0)%nat)) Vk MQ MV NE' RV' SB').
  assert (GN := gradient_near k (sb_bg b) 0 nbrs c (fun s => v3_line q x s) S x (pos_rate b U) (nml_rate b U) Vk (vjet_moves _ _ _ _ MQ) MS NE' RV' SB').
  apply (locally_singleton 0) in GN. destruct GN as (Jq & EJ & DJ). rewrite E0, Q0 in EJ. specialize (DJ x).
  pose proof (surface_jet b U rebuild k q nbrs c 0 TY WF DC IP LEN Vk NE RV SB) as JS. cbv zeta in JS. fold S0 in JS.
  assert (DU := eq_trans (eq_sym (is_derive_unique _ _ _ DS)) (is_derive_unique _ _ _ (jet_derive _ _ _ _ JS))).
  set (k0 := with_closest k (v3_norm (away S0 q c))) in *.
  set (C := c_G k k0 (sb_bg b) 0 nbrs c (fun _ => away S0 q) (fun _ i => s_nml (smp S0 i)) (fun i => s_value (smp S0 i)) (fun i => v3_scale (-1) (pos_rate b U i)) (nml_rate b U) (fun i => tri_curve U (nth i (sb_topo b) (0, 0, 0)%nat))) in *.
  assert (EC : forall d d' n n' e (k1 : kernel) va, d 0 = d' 0 -> n 0 = n' 0 ->
    q_G k k1 (sb_bg b) 0 nbrs c d n va 0 = q_G k k1 (sb_bg b) 0 nbrs c d' n' va 0 /\
    q_J k k1 (sb_bg b) 0 nbrs c d n va x 0 = q_J k k1 (sb_bg b) 0 nbrs c d' n' va x 0 /\
    r_G k k1 (sb_bg b) 0 nbrs c d n va e (nml_rate b U) = r_G k k1 (sb_bg b) 0 nbrs c d' n' va e (nml_rate b U) /\
    c_G k k1 (sb_bg b) 0 nbrs c d n va e (nml_rate b U) (fun i => tri_curve U (nth i (sb_topo b) (0, 0, 0)%nat)) = c_G k k1 (sb_bg b) 0 nbrs c d' n' va e (nml_rate b U) (fun i => tri_curve U (nth i (sb_topo b) (0, 0, 0)%nat))).
  { intros d d' n n' e k1 va Ed En.
    unfold c_G, c_N, c_W, c_w, c_psi2, c_bw, c_fv, r_G, r_W, r_w, r_psi, r_bw, r_fv, q_J, q_G, q_W, q_w, q_psi, q_bw, q_fv, q_g, q_m, q_beta, q_gam. rewrite Ed, En. repeat split; reflexivity. }
  assert (Ed : (fun s i => away (S s) (v3_line q x s) i) 0 = (fun _ : R => away S0 q) 0) by (cbv beta; apply functional_extensionality; intros i; rewrite E0, Q0; reflexivity).
  assert (En : (fun s i => s_nml (smp (S s) i)) 0 = (fun _ i => s_nml (smp S0 i)) 0) by (cbv beta; rewrite E0; reflexivity).
  assert (Ev : (fun i => s_value (smp (S 0) i)) = (fun i => s_value (smp S0 i))) by (rewrite E0; reflexivity).
  assert (Ek : with_closest k (v3_norm (away (S 0) (v3_line q x 0) c)) = k0) by (rewrite E0, Q0; reflexivity).
  cbv beta in J, DJ. rewrite Ek, Ev in J. rewrite Ek, Ev in DJ.
  exists H, row, Jq, blocks, C. refine (conj EH (conj ER (conj FR (conj EJ (conj EB (conj _ _)))))).
  - intros sq m L SQ HL. unfold face_hessian_at in HL. rewrite (the_background k (sb_bg b) nbrs c (fun _ => q) (fun _ => S0) NE) in HL. destruct (view_in_range _ _ _); [|discriminate]. injection HL as <-.
    rewrite (form_scale _ SQ). f_equal. unfold C. cbv beta. unfold S0. rewrite (code_form _ SQ b k q nbrs c 0 U ND Vk NE RV SB). unfold pos_rate, nml_rate. rewrite TY. reflexivity.
  - eapply jet_ext; [|eapply jet_eq; [exact J| | |]].
    + intros s. symmetry. apply EXT.
    + rewrite <- (jet_value _ _ _ _ J). cbv beta. rewrite E0, Q0. reflexivity.
    + rewrite j_G. rewrite Rplus_comm. f_equal; [symmetry; exact DJ|]. rewrite DU. exact (proj1 (proj2 (proj2 (EC _ _ _ _ (fun i => v3_scale (-1) (pos_rate b U i)) k0 _ Ed En)))).
    + rewrite (proj2 (proj2 (proj2 (EC _ _ _ _ (fun i => v3_add (v3_scale (-1) (pos_rate b U i)) x) k0 _ Ed En)))).
      rewrite joint_curvature, RR, RH. reflexivity.
Qed.
