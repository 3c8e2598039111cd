(** Proofs about the second derivatives of the potential in the vertices of the surface: the curvature of the potential. *)
From Coq Require Import Reals List Bool Lra Lia Psatz.
From Coquelicot Require Import Coquelicot.
From Verif Require Import Vec3 Mat3 RList Calc KernelModel KernelSpec KernelProofs FieldModel FieldSpec FieldProofs FieldDerivProofs
  NeighborModel NeighborSpec UpdateProps SurfJacModel SurfJacSpec SurfJacProofs HessModel HessSpec HessProofs HessMixProofs SurfHessModel SurfHessSpec JetProofs.
Import ListNotations.
Local Open Scope R_scope.

(** ** Parts *)
Lemma norm_jet f a b c : vjet f a b c -> a <> v3_0 ->
  jet (fun s => v3_norm (f s)) (v3_norm a) (v3_dot a b / v3_norm a) ((v3_dot b b + v3_dot a c) / v3_norm a - v3_dot a b * v3_dot a b / (v3_norm a * v3_norm a * v3_norm a)).
Proof.
  intros J N. pose proof (v3_norm_pos _ N) as Q. assert (P : 0 < v3_dot a a) by (rewrite <- v3_norm_sq; nra).
  unfold v3_norm. eapply jet_eq; [exact (jet_sqrt _ _ _ _ P (vjet_dot _ _ _ _ _ _ _ _ J J))|reflexivity| |].
  - fold (v3_norm a). rewrite (dot_comm b a). field. lra.
  - fold (v3_norm a). rewrite (dot_comm b a), (dot_comm c a). field. lra.
Qed.
Lemma regular_locally k x : regular_distance k x -> locally x (regular_distance k).
Proof.
  destruct k; cbn [regular_distance]; intros H; try (apply locally_ne; exact H).
  - apply filter_forall. intros. exact Logic.I.
  - apply filter_and; apply locally_ne; tauto.
Qed.
Lemma kernel_jet k f a b c : valid_kernel k -> regular_distance k a -> jet f a b c ->
  jet (fun s => k_f k (f s)) (k_f k a) (k_df k a * b) (k_ddf k a * b * b + k_df k a * c).
Proof.
  intros V R J. apply jet_comp; [exact J| |apply (kernel_derivatives k a V R)].
  eapply filter_imp; [|exact (regular_locally k a R)]. intros x X. apply (kernel_derivatives k x V X).
Qed.
Lemma weight_jet k f a e : valid_kernel k -> vjet f a e v3_0 -> a <> v3_0 -> regular_distance k (v3_norm a) ->
  jet (fun s => k_f k (v3_norm (f s))) (k_f k (v3_norm a)) (v3_dot (wgrad k a) e) (curve (k_df k (v3_norm a)) (k_ddf k (v3_norm a)) a e e).
Proof.
  intros V J N R. pose proof (v3_norm_pos _ N) as Q. eapply jet_eq; [exact (kernel_jet k _ _ _ _ V R (norm_jet f a e v3_0 J N))|reflexivity| |].
  - unfold wgrad. rewrite dot_scale_l. field. lra.
  - unfold curve. cbv zeta. rewrite dot_0_r. field. lra.
Qed.
Lemma bgw_jet k weighted f a e : valid_kernel k -> vjet f a e v3_0 -> a <> v3_0 ->
  (match k_radius k with None => True | Some r => v3_norm a <> r end) ->
  (weighted = true -> match k with Interpolating _ _ => False | _ => True end) ->
  jet (fun s => bgw k weighted (v3_norm (f s))) (bgw k weighted (v3_norm a)) (v3_dot (bgw_grad k weighted (v3_norm a) a) e) (bcurve k weighted a e e).
Proof.
  intros V J N R WI. pose proof (norm_jet f a e v3_0 J N) as JN. pose proof (v3_norm_pos _ N) as P. pose proof (jet_value _ _ _ _ JN) as VN. pose proof (jet_derive _ _ _ _ JN) as D.
  unfold bgw, bgw_grad, bcurve. destruct (k_radius k) as [r|] eqn:E.
  2: { rewrite dot_0_l. apply jet_const. }
  destruct (Rlt_dec r (v3_norm a)) as [L|L].
  - rewrite dot_0_l. apply jet_ext_loc with (fun _ => 1); [|apply jet_const].
    rewrite <- VN in L. eapply filter_imp; [|apply (locally_lt (fun _ => r) (fun s => v3_norm (f s)) 0 _ (@is_derive_const _ _ r 0) D L)].
    intros s Hs. cbv beta in Hs. destruct (Rlt_dec r (v3_norm (f s))); [reflexivity|contradiction].
  - assert (L' : v3_norm (f 0) < r) by lra.
    assert (LOC : locally 0 (fun s => v3_norm (f s) < r)) by (apply (locally_lt (fun s => v3_norm (f s)) (fun _ => r) _ 0 D (@is_derive_const _ _ r 0) L')).
    destruct weighted; cbn [negb].
    + apply jet_ext_loc with (fun s => k_f k (r - v3_norm (f s))).
      { eapply filter_imp; [|exact LOC]. intros s Hs. cbv beta in Hs. destruct (Rlt_dec r (v3_norm (f s))); [lra|reflexivity]. }
      assert (RG : regular_distance k (r - v3_norm a)).
      { destruct k as [e0|r'|r' c|r' t|r' e0]; simpl in *; inversion E; subst; lra. }
      eapply jet_eq; [exact (kernel_jet k _ _ _ _ V RG (jet_minus _ _ _ _ _ _ _ _ (jet_const r) JN))|reflexivity| |].
      * rewrite dot_scale_l, dot_neg_l. field. lra.
      * unfold curve. cbv zeta. rewrite dot_0_r. field. lra.
    + rewrite dot_0_l. apply jet_ext_loc with (fun _ => 0); [|apply jet_const].
      eapply filter_imp; [|exact LOC]. intros s Hs. cbv beta in Hs. destruct (Rlt_dec r (v3_norm (f s))); [lra|reflexivity].
Qed.
Lemma fval_jet P v f n a e na dn ddn : vjet f a e v3_0 -> vjet n na dn ddn -> a <> v3_0 -> (p_type P = FDistance -> v3_dot na a <> 0) ->
  jet (fun s => fval P v (v3_norm (f s)) (v3_dot (n s) (f s))) (fval P v (v3_norm a) (v3_dot na a))
    (v3_dot (fgrad P (v3_norm a) (v3_dot na a) a) e) (fcurve P (v3_dot na a) a e e).
Proof.
  intros J JN N HS. pose proof (norm_jet f a e v3_0 J N) as JL. pose proof (v3_norm_pos _ N) as Q.
  unfold fval, fgrad, fcurve. destruct (p_type P); [rewrite dot_0_l; apply jet_const|rewrite dot_0_l; apply jet_const|].
  specialize (HS eq_refl). pose proof (vjet_value _ _ _ _ J) as V. pose proof (vjet_value _ _ _ _ JN) as VN.
  assert (HS' : v3_dot (n 0) (f 0) <> 0) by (rewrite V, VN; exact HS).
  apply jet_ext_loc with (fun s => v3_norm (f s) * signum (v3_dot na a)).
  { eapply filter_imp; [|exact (side_near f n e dn (vjet_moves _ _ _ _ J) (vjet_moves _ _ _ _ JN) HS')]. intros s [_ Hs]. rewrite Hs, V, VN. reflexivity. }
  eapply jet_eq; [exact (jet_mult _ _ _ _ _ _ _ _ JL (jet_const (signum (v3_dot na a))))|reflexivity| |].
  - rewrite dot_scale_l. field. lra.
  - unfold curve. cbv zeta. rewrite dot_0_r. field. lra.
Qed.
(** Curvature of the unit normal against a fixed displacement. *)
Definition ncurve (n dn ddn d : v3) : R :=
  nrate n ddn d - (2 * v3_dot n dn * nrate n dn d + v3_dot n d * nrate n dn dn) / (v3_norm n * v3_norm n).
Lemma plane_jet val f n a e na dn ddn : vjet f a e v3_0 -> vjet n na dn ddn -> na <> v3_0 ->
  jet (fun s => val + v3_dot (n s) (f s) / v3_norm (n s)) (val + v3_dot na a / v3_norm na)
    (v3_dot (unit_of na) e + nrate na dn a) (2 * nrate na dn e + ncurve na dn ddn a).
Proof.
  intros J JN N. pose proof (v3_norm_pos _ N) as Q. pose proof (norm_jet n na dn ddn JN N) as JL. assert (NE : v3_norm na <> 0) by lra.
  eapply jet_eq; [exact (jet_plus _ _ _ _ _ _ _ _ (jet_const val) (jet_div _ _ _ _ _ _ _ _ NE (vjet_dot _ _ _ _ _ _ _ _ JN J) JL))|reflexivity| |].
  - unfold unit_of, nrate. rewrite dot_scale_l. field. lra.
  - unfold ncurve, nrate. rewrite dot_0_r. field. lra.
Qed.

(** ** The quotient *)
Section Curvature.
Variables (k k0 : kernel) (P : bg_params) (v : R) (view : list nat) (c : nat).
Variables (d n : R -> nat -> v3) (val : nat -> R) (e dn ddn : nat -> v3).
Hypothesis Vk : valid_kernel k.
Hypothesis Vk0 : valid_kernel k0.
Hypothesis Ek : k_radius k0 = k_radius k.
Hypothesis Jd : forall i, In i view -> vjet (fun s => d s i) (d 0 i) (e i) v3_0.
Hypothesis Jn : forall i, In i view -> vjet (fun s => n s i) (n 0 i) (dn i) (ddn i).
Hypothesis Hc : In c view.
Hypothesis Hreg : forall i, In i view -> d 0 i <> v3_0 /\ n 0 i <> v3_0 /\ regular_distance k0 (v3_norm (d 0 i)).
Hypothesis Hside : p_type P = FDistance -> v3_dot (n 0 c) (d 0 c) <> 0.
Hypothesis Hwi : p_weighted P = true -> match k with Interpolating _ _ => False | _ => True end.

Definition c_w (i : nat) : R := curve (k_df k0 (v3_norm (d 0 i))) (k_ddf k0 (v3_norm (d 0 i))) (d 0 i) (e i) (e i).
Definition c_psi2 (i : nat) : R := 2 * nrate (n 0 i) (dn i) (e i) + ncurve (n 0 i) (dn i) (ddn i) (d 0 i).
Definition c_bw : R := bcurve k (p_weighted P) (d 0 c) (e c) (e c).
Definition c_fv : R := fcurve P (v3_dot (n 0 c) (d 0 c)) (d 0 c) (e c) (e c).
Definition c_W : R := rsum (map c_w view) + c_bw.
Definition c_N : R := c_fv * q_bw k P c d 0 + 2 * r_fv P c d n e * r_bw k P c d e + q_fv P v c d n 0 * c_bw
  + rsum (map (fun i => c_w i * q_psi d n val 0 i + 2 * r_w k0 d e i * r_psi d n e dn i + q_w k0 d 0 i * c_psi2 i) view).
Definition c_G : R := 1 / q_W k k0 P view c d 0 * (c_N - 2 * r_G k k0 P v view c d n val e dn * r_W k k0 P view c d e - q_G k k0 P v view c d n val 0 * c_W).
Lemma q_G_jet : jet (q_G k k0 P v view c d n val) (q_G k k0 P v view c d n val 0) (r_G k k0 P v view c d n val e dn) c_G.
Proof.
  assert (WP : 0 < q_W k k0 P view c d 0) by exact (W_pos k k0 P view c d n Vk Vk0 Ek Hc Hreg). destruct (Hreg c Hc) as (NC & _ & RC).
  assert (RR : match k_radius k with None => True | Some r => v3_norm (d 0 c) <> r end).
  { destruct (k_radius k) as [r|] eqn:E; [|exact Logic.I]. apply (regular_radius k0 _ r RC). rewrite Ek. first [exact E|reflexivity]. }
  assert (JB : jet (q_bw k P c d) (q_bw k P c d 0) (r_bw k P c d e) c_bw) by exact (bgw_jet k (p_weighted P) (fun s => d s c) _ _ Vk (Jd c Hc) NC RR Hwi).
  assert (JF : jet (q_fv P v c d n) (q_fv P v c d n 0) (r_fv P c d n e) c_fv) by exact (fval_jet P v (fun s => d s c) (fun s => n s c) _ _ _ _ _ (Jd c Hc) (Jn c Hc) NC Hside).
  assert (Jw : forall i, In i view -> jet (fun s => q_w k0 d s i) (q_w k0 d 0 i) (r_w k0 d e i) (c_w i)).
  { intros i Hi. destruct (Hreg i Hi) as (A & B & C). exact (weight_jet k0 (fun s => d s i) _ _ Vk0 (Jd i Hi) A C). }
  assert (Jp : forall i, In i view -> jet (fun s => q_psi d n val s i) (q_psi d n val 0 i) (r_psi d n e dn i) (c_psi2 i)).
  { intros i Hi. destruct (Hreg i Hi) as (A & B & C). exact (plane_jet (val i) (fun s => d s i) (fun s => n s i) _ _ _ _ _ (Jd i Hi) (Jn i Hi) B). }
  assert (JW : jet (q_W k k0 P view c d) (q_W k k0 P view c d 0) (r_W k k0 P view c d e) c_W).
  { exact (jet_plus _ _ _ _ _ _ _ _ (jet_rsum (fun i s => q_w k0 d s i) _ _ _ view Jw) JB). }
  assert (JS := jet_rsum (fun i s => q_w k0 d s i * q_psi d n val s i) _ _ _ view (fun i Hi => jet_mult _ _ _ _ _ _ _ _ (Jw i Hi) (Jp i Hi))).
  cbv beta in JS. assert (NW : q_W k k0 P view c d 0 <> 0) by lra.
  eapply jet_eq; [exact (jet_mult _ _ _ _ _ _ _ _ (jet_plus _ _ _ _ _ _ _ _ (jet_mult _ _ _ _ _ _ _ _ JF JB) JS) (jet_inv _ _ _ _ NW JW))|reflexivity| |].
  - unfold r_G. unfold q_G. field. exact NW.
  - unfold c_G, c_N, r_G, q_G. field. exact NW.
Qed.
End Curvature.

(** ** The potential when samples move *)
Section Potential.
Variables (k : kernel) (P : bg_params) (v : R) (view : list nat) (c : nat) (q : v3) (S : R -> list sample) (dp dn ddn : nat -> v3).
Hypothesis Vk : valid_kernel k.
Hypothesis MV : forall i, In i view -> vjet (fun s => s_pos (smp (S s) i)) (s_pos (smp (S 0) i)) (dp i) v3_0 /\
  vjet (fun s => s_nml (smp (S s) i)) (s_nml (smp (S 0) i)) (dn i) (ddn i) /\ forall s, s_value (smp (S s) i) = s_value (smp (S 0) i).
Hypothesis NE : nearest (S 0) q view c.
Hypothesis RV : regular_view k (S 0) q view.
Hypothesis SB : smooth_background k P v (S 0) q c.
Let dd (s : R) (i : nat) := away (S s) q i.
Let nn (s : R) (i : nat) := s_nml (smp (S s) i).
Let val (i : nat) := s_value (smp (S 0) i).
Let k0 := with_closest k (v3_norm (away (S 0) q c)).
Lemma potential_jet : jet (fun s => potential_at q (S s) view k P v) (q_G k k0 P v view c dd nn val 0)
  (r_G k k0 P v view c dd nn val (fun i => v3_scale (-1) (dp i)) dn) (c_G k k0 P v view c dd nn val (fun i => v3_scale (-1) (dp i)) dn ddn).
Proof.
  assert (D0 : 0 < v3_norm (away (S 0) q c)) by (apply v3_norm_pos, RV, NE).
  assert (MS : moving_samples S view dp dn).
  { intros i Hi. destruct (MV i Hi) as (A & B & C). split; [exact (vjet_moves _ _ _ _ A)|]. split; [exact (vjet_moves _ _ _ _ B)|exact C]. }
  assert (VN := view_near k P v view c (fun _ => q) S v3_0 dp dn (moves_const q) MS NE RV SB).
  assert (NI : p_weighted P = true -> match k with Interpolating _ _ => False | _ => True end).
  { intros H. destruct SB as (_ & A & _). specialize (A H). destruct k; auto. }
  apply jet_ext_loc with (q_G k k0 P v view c dd nn val).
  - eapply filter_imp; [|exact VN]. intros s (A & B & C). cbv beta in *. symmetry.
    rewrite (potential_quotient k (v3_norm (away (S 0) q c)) P v q (S s) view c Vk D0 A).
    + unfold quotient, q_G, q_W, q_w, q_psi, q_fv, q_bw. fold k0. f_equal. f_equal. apply rsum_ext. intros i Hi. f_equal. unfold plane_value. rewrite (proj2 (proj2 (MV i Hi)) s). reflexivity.
    + intros i Hi. apply v3_norm_pos, B, Hi.
    + destruct (k_radius k) as [r|] eqn:E; [|exact Logic.I]. apply (regular_radius k _ r); [apply B, A|exact E].
    + exact NI.
  - apply q_G_jet; try assumption.
    + apply with_closest_valid; assumption.
    + apply with_closest_radius.
    + intros i Hi. destruct (MV i Hi) as (A & _). assert (J := vjet_sub _ _ _ _ _ _ _ _ (vjet_const q) A).
      replace (v3_scale (-1) (dp i)) with (v3_sub v3_0 (dp i)) by (apply v3_eq; unv; ring). replace v3_0 with (v3_sub v3_0 v3_0) at 2 by (apply v3_eq; unv; ring). exact J.
    + intros i Hi. destruct (MV i Hi) as (_ & A & _). exact A.
    + apply NE.
    + intros i Hi. destruct (RV i Hi) as (A & B & C). split; [exact A|]. split; [exact B|]. apply with_closest_regular. exact C.
    + intros T. destruct SB as (A & _). exact (A T).
Qed.
End Potential.

(** ** The samples of a moving surface *)
(** Curvature of the area normal. *)
Definition tri_curve (U : nat -> v3) (t : triangle) : v3 := let '(a, b, c) := t in v3_scale 2 (v3_cross (v3_sub (U b) (U a)) (v3_sub (U c) (U a))).
Lemma vjet_eq f a b c a' b' c' : vjet f a b c -> a = a' -> b = b' -> c = c' -> vjet f a' b' c'.
Proof. intros J -> -> ->. exact J. Qed.
Lemma area_jet V U t : (forall v, In v (tri_verts t) -> (v < length V)%nat) -> vjet (fun s => area_vector (mesh_line V U s) t) (area_vector V t) (tri_rate V U t) (tri_curve U t).
Proof.
  destruct t as [[a b] c]. intros L. assert (a < length V /\ b < length V /\ c < length V)%nat as (LA & LB & LC) by (repeat split; apply L; cbn; tauto).
  apply (vjet_ext (fun s => v3_cross (v3_sub (v3_line (pt V b) (U b) s) (v3_line (pt V a) (U a) s)) (v3_sub (v3_line (pt V c) (U c) s) (v3_line (pt V a) (U a) s)))).
  { intros s. unfold area_vector. rewrite !mesh_pt by assumption. reflexivity. }
  assert (M : forall x y, vjet (fun s => v3_sub (v3_line (pt V x) (U x) s) (v3_line (pt V y) (U y) s)) (v3_sub (pt V x) (pt V y)) (v3_sub (U x) (U y)) (v3_sub v3_0 v3_0)) by (intros x y; apply vjet_sub; apply vjet_line).
  eapply vjet_eq; [exact (vjet_cross _ _ _ _ _ _ _ _ (M b a) (M c a))|reflexivity|reflexivity|].
  unfold tri_curve. apply v3_eq; unfold v3_cross, v3_add, v3_sub, v3_scale, v3_0; cbn [vx vy vz]; ring.
Qed.
Lemma centroid_jet V U t : (forall v, In v (tri_verts t) -> (v < length V)%nat) ->
  vjet (fun s => tri_centroid (mesh_line V U s) t) (tri_centroid V t) (v3_scale (1 / 3) (vsum (map U (tri_verts t)))) v3_0.
Proof.
  destruct t as [[a b] c]. intros L. assert (a < length V /\ b < length V /\ c < length V)%nat as (LA & LB & LC) by (repeat split; apply L; cbn; tauto).
  apply (vjet_ext (fun s => v3_scale (1 / 3) (v3_add (v3_add (v3_line (pt V a) (U a) s) (v3_line (pt V b) (U b) s)) (v3_line (pt V c) (U c) s)))).
  { intros s. unfold tri_centroid, centroid. rewrite !mesh_pt by assumption. reflexivity. }
  eapply vjet_eq; [apply vjet_scale, vjet_add; [apply vjet_add|]; apply vjet_line|reflexivity| |].
  - cbn [tri_verts map]. unfold vsum. cbn [fold_right]. apply v3_eq; unfold v3_add, v3_scale, v3_0; cbn [vx vy vz]; ring.
  - apply v3_eq; unfold v3_add, v3_scale, v3_0; cbn [vx vy vz]; ring.
Qed.
Lemma surface_jet b U rebuild k q view c v : sb_type b = SFace -> well_formed b -> (forall t, In t (sb_topo b) -> distinct_corners t) -> in_place b ->
  (forall i, In i view -> (i < length (sb_samples b))%nat) -> valid_kernel k -> nearest (sb_samples b) q view c -> regular_view k (sb_samples b) q view ->
  smooth_background k (sb_bg b) v (sb_samples b) q c ->
  let S := sb_samples b in
  jet (fun s => potential_at q (sb_samples (moved b U rebuild s)) view k (sb_bg b) v)
    (q_G k (with_closest k (v3_norm (away S q c))) (sb_bg b) v view c (fun _ => away S q) (fun _ i => s_nml (smp S i)) (fun i => s_value (smp S i)) 0)
    (r_G k (with_closest k (v3_norm (away S q c))) (sb_bg b) v view c (fun _ => away S q) (fun _ i => s_nml (smp S i)) (fun i => s_value (smp S i)) (fun i => v3_scale (-1) (pos_rate b U i)) (nml_rate b U))
    (c_G k (with_closest k (v3_norm (away S q c))) (sb_bg b) v view c (fun _ => away S q) (fun _ i => s_nml (smp S i)) (fun i => s_value (smp S i)) (fun i => v3_scale (-1) (pos_rate b U i)) (nml_rate b U)
      (fun i => tri_curve U (nth i (sb_topo b) (0, 0, 0)%nat))).
Proof.
  intros TY WF DC IP LEN VK NE RV SB S0.
  destruct (moving_mesh b U rebuild view WF DC IP LEN) as (E0 & _ & EXT). cbv zeta in E0, EXT. set (S := fun s => keep (sb_samples b) (sb_samples (moved b U rebuild s))) in *. change (keep _ _) with (S 0) in E0.
  assert (SM : forall s i, In i view -> s_pos (smp (S s) i) = tri_centroid (mesh_line (sb_verts b) U s) (nth i (sb_topo b) (0, 0, 0)%nat)
    /\ s_nml (smp (S s) i) = area_vector (mesh_line (sb_verts b) U s) (nth i (sb_topo b) (0, 0, 0)%nat) /\ s_value (smp (S s) i) = s_value (smp (sb_samples b) i)).
  { intros s i Hi. pose proof (LEN i Hi) as L. unfold S. rewrite keep_smp by (try exact L; apply moved_length). cbn [s_pos s_nml s_value]. destruct (moved_sample b U rebuild s i WF DC L) as [A M]. rewrite TY in M. destruct M as [M1 M2].
    rewrite A, M1, M2. repeat split; reflexivity. }
  assert (RG : forall i, In i view -> forall w, In w (tri_verts (nth i (sb_topo b) (0, 0, 0)%nat)) -> (w < length (sb_verts b))%nat).
  { intros i Hi w. apply (proj1 WF), nth_In. destruct WF as [_ W]. rewrite TY in W. rewrite <- W. apply LEN, Hi. }
  assert (MV : forall i, In i view -> vjet (fun s => s_pos (smp (S s) i)) (s_pos (smp (S 0) i)) (pos_rate b U i) v3_0 /\
    vjet (fun s => s_nml (smp (S s) i)) (s_nml (smp (S 0) i)) (nml_rate b U i) (tri_curve U (nth i (sb_topo b) (0, 0, 0)%nat)) /\ forall s, s_value (smp (S s) i) = s_value (smp (S 0) i)).
  { intros i Hi. destruct (SM 0 i Hi) as (P0 & N0 & V0). rewrite mesh_0 in P0, N0. refine (conj _ (conj _ _)).
    - apply (vjet_ext (fun s => tri_centroid (mesh_line (sb_verts b) U s) (nth i (sb_topo b) (0, 0, 0)%nat))); [intros s; symmetry; apply SM, Hi|]. rewrite P0. unfold pos_rate. rewrite TY. apply centroid_jet, RG, Hi.
    - apply (vjet_ext (fun s => area_vector (mesh_line (sb_verts b) U s) (nth i (sb_topo b) (0, 0, 0)%nat))); [intros s; symmetry; apply SM, Hi|]. rewrite N0. unfold nml_rate. rewrite TY. apply area_jet, RG, Hi.
    - intros s. rewrite V0. apply SM, Hi. }
  assert (NE' := NE). assert (RV' := RV). assert (SB' := SB). rewrite <- E0 in NE', RV', SB'.
  assert (J := potential_jet k (sb_bg b) v view c q S (pos_rate b U) (nml_rate b U) (fun i => tri_curve U (nth i (sb_topo b) (0, 0, 0)%nat)) VK MV NE' RV' SB').
  eapply jet_ext; [|eapply jet_eq; [exact J| | |]].
  - intros s. symmetry. apply EXT.
  - unfold S0. rewrite <- E0. reflexivity.
  - unfold S0. rewrite <- E0. reflexivity.
  - unfold S0. rewrite <- E0. reflexivity.
Qed.
