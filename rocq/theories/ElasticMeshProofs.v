From Coq Require Import Reals List Arith Bool Lra Lia Psatz.
From Coquelicot Require Import Coquelicot.
From Verif Require Import Calc Vec3 Mat3 RList ElasticModel ElasticSpec ElasticProofs.
Import ListNotations.
Local Open Scope R_scope.

(** * Rigid motion *)
Lemma shape_rigid Q c x : shape_matrix (tet_map (rigid Q c) x) = m3_mul (shape_matrix x) (m3_transpose Q).
Proof. unfold tet_map, rigid. dm. unm. apply m3_ext; ring. Qed.
Lemma inner_mul_tr A Q : m3_inner (m3_mul A (m3_transpose Q)) (m3_mul A (m3_transpose Q)) = m3_inner A (m3_mul A (m3_mul (m3_transpose Q) Q)).
Proof. dm. unm. ring. Qed.
Lemma left_right_inverse Q : m3_mul Q (m3_transpose Q) = m3_I -> m3_mul (m3_transpose Q) Q = m3_I.
Proof.
  intros H. assert (Hd : m3_det Q * m3_det Q = 1). { rewrite <- (det_transpose Q) at 2. rewrite <- det_mul, H. unm. ring. }
  assert (Hq : m3_det Q <> 0) by (intros E; rewrite E in Hd; lra).
  (* Q^T Q = (1/det) adj Q Q Q^T Q = (1/det) adj Q Q = I *)
  assert (HA : m3_mul (m3_transpose (m3_cof Q)) Q = m3_scale (m3_det Q) m3_I) by (clear; dm; unm; apply m3_ext; ring).
  assert (HB : m3_mul (m3_mul (m3_transpose (m3_cof Q)) Q) (m3_mul (m3_transpose Q) Q) = m3_mul (m3_transpose (m3_cof Q)) Q).
  { rewrite <- mul_assoc. rewrite (mul_assoc Q). rewrite H, mul_I_l. reflexivity. }
  rewrite HA, mul_scale_l, mul_I_l in HB. rewrite <- (scale_1 (m3_mul (m3_transpose Q) Q)), <- (scale_1 m3_I).
  replace 1 with (/ m3_det Q * m3_det Q) by (field; exact Hq). rewrite <- !scale_scale, HB. reflexivity.
Qed.
Lemma energy_args_rigid B v lam m x Q c : rotation Q -> let e := at_shape B v lam m x in let e' := at_shape B v lam m (tet_map (rigid Q c) x) in
  m3_inner (deformation_gradient e') (deformation_gradient e') = m3_inner (deformation_gradient e) (deformation_gradient e) /\ m3_det (deformation_gradient e') = m3_det (deformation_gradient e).
Proof.
  intros [Ho Hd]. cbv zeta. unfold deformation_gradient, at_shape. cbn [Dx DX_inv]. rewrite shape_rigid, mul_assoc. split.
  - rewrite inner_mul_tr, (left_right_inverse Q Ho), mul_I_r. reflexivity.
  - rewrite det_mul, det_transpose, Hd. ring.
Qed.
Lemma nh_energy_rigid B v lam m x Q c : rotation Q -> nh_energy (at_shape B v lam m (tet_map (rigid Q c) x)) = nh_energy (at_shape B v lam m x).
Proof.
  intros HQ. destruct (energy_args_rigid B v lam m x Q c HQ) as [HI HJ]. unfold nh_energy. cbv zeta. rewrite HI, HJ. reflexivity.
Qed.
Lemma snh_energy_rigid B v lam m x Q c : rotation Q -> snh_energy (at_shape B v lam m (tet_map (rigid Q c) x)) = snh_energy (at_shape B v lam m x).
Proof.
  intros HQ. destruct (energy_args_rigid B v lam m x Q c HQ) as [HI HJ]. unfold snh_energy. cbv zeta. rewrite HI, HJ. reflexivity.
Qed.

(** * Rest shape *)
Lemma det_I : m3_det m3_I = 1. Proof. unm. ring. Qed.
Lemma norm_I : m3_inner m3_I m3_I = 3. Proof. unm. ring. Qed.
Lemma cof_I : m3_cof m3_I = m3_I. Proof. unm. apply m3_ext; ring. Qed.
Lemma inv_transpose_I : m3_inv_transpose m3_I = m3_I.
Proof. unfold m3_inv_transpose. rewrite det_I, cof_I, Rinv_1, scale_1. reflexivity. Qed.
Lemma zero_rows v B : close_rows (m3_scale v (m3_mul (m3_transpose B) m3_0)) = Tet v3_0 v3_0 v3_0 v3_0.
Proof. dm. unm. f_equal; f_equal; ring. Qed.
Lemma nh_rest B v lam m x : m3_mul B (shape_matrix x) = m3_I -> nh_energy (at_shape B v lam m x) = Fin 0 /\ nh_gradient (at_shape B v lam m x) = Some (Tet v3_0 v3_0 v3_0 v3_0).
Proof.
  intros H. assert (HF : deformation_gradient (at_shape B v lam m x) = m3_I) by exact H.
  rewrite nh_energy_fin, nh_gradient_some by (rewrite HF, det_I; lra). rewrite HF. split.
  - f_equal. unfold nh_density. cbv zeta. rewrite det_I, norm_I, ln_1. ring.
  - f_equal. rewrite <- (zero_rows v B). change (vol (at_shape B v lam m x)) with v. change (DX_inv (at_shape B v lam m x)) with B. f_equal. f_equal. f_equal.
    unfold nh_stress. rewrite det_I, ln_1, inv_transpose_I. cbn [mu lambda at_shape]. unm. apply m3_ext; ring.
Qed.
Lemma snh_rest B v lam m x : lam <> 0 -> m3_mul B (shape_matrix x) = m3_I -> snh_gradient (at_shape B v lam m x) = Some (Tet v3_0 v3_0 v3_0 v3_0).
Proof.
  intros Hl H. unfold snh_gradient. f_equal. rewrite <- (zero_rows v B). change (vol (at_shape B v lam m x)) with v. change (DX_inv (at_shape B v lam m x)) with B. f_equal. f_equal. f_equal.
  change (deformation_gradient (at_shape B v lam m x)) with (m3_mul B (shape_matrix x)). rewrite H. unfold snh_stress. cbv zeta. rewrite det_I, norm_I, cof_I. cbn [mu lambda at_shape]. unm. apply m3_ext; field; exact Hl.
Qed.
Lemma nh_hooke lam m D : nh_dstress lam m m3_I D = hooke lam m D.
Proof. unfold nh_dstress, hooke. cbv zeta. rewrite det_I, ln_1, inv_transpose_I. dm. unm. apply m3_ext; ring. Qed.
Lemma snh_hooke lam m D : lam + 5 * m / 6 <> 0 -> snh_dstress (lam + 5 * m / 6) (4 * m / 3) m3_I D = hooke lam m D.
Proof.
  intros H. assert (H' : lam * 6 + 5 * m <> 0) by (intros E; apply H; lra).
  unfold snh_dstress, hooke. cbv zeta. rewrite det_I, norm_I, cof_I. dm. unm. apply m3_ext; field; repeat match goal with |- _ /\ _ => split end; try exact H'; lra.
Qed.

(** * Energy bounds *)
Lemma v3_lagrange a b : v3_dot (v3_cross a b) (v3_cross a b) = v3_dot a a * v3_dot b b - v3_dot a b * v3_dot a b.
Proof. dm. unm. ring. Qed.
Lemma v3_sq_nonneg a : 0 <= v3_dot a a.
Proof. dm. unm. nra. Qed.
Lemma hadamard A : m3_det A * m3_det A <= v3_dot (r0 A) (r0 A) * v3_dot (r1 A) (r1 A) * v3_dot (r2 A) (r2 A).
Proof.
  unfold m3_det. pose proof (v3_lagrange (r0 A) (v3_cross (r1 A) (r2 A))) as H1. pose proof (v3_lagrange (r1 A) (r2 A)) as H2.
  pose proof (v3_sq_nonneg (v3_cross (r0 A) (v3_cross (r1 A) (r2 A)))). pose proof (v3_sq_nonneg (r0 A)). pose proof (Rle_0_sqr (v3_dot (r1 A) (r2 A))) as H3. unfold Rsqr in H3. nra.
Qed.
Lemma ln_le_minus_1 x : 0 < x -> ln x <= x - 1.
Proof. intros H. destruct (Req_dec x 1) as [->|Hx]; [rewrite ln_1; lra|]. pose proof (exp_ineq1 (ln x)) as E. rewrite exp_ln in E by exact H.
  destruct (Req_dec (ln x) 0) as [E0|E0]; [|specialize (E E0); lra]. rewrite E0. rewrite <- ln_1 in E0. apply ln_inv in E0; lra. Qed.
Lemma ln_eq_minus_1 x : 0 < x -> ln x = x - 1 -> x = 1.
Proof.
  intros H E. destruct (Req_dec (ln x) 0) as [E0|E0]; [rewrite <- ln_1 in E0; apply ln_inv in E0; lra|].
  pose proof (exp_ineq1 (ln x) E0) as E1. rewrite exp_ln in E1 by exact H. lra.
Qed.
Lemma rows_pos A : 0 < m3_det A -> 0 < v3_dot (r0 A) (r0 A) /\ 0 < v3_dot (r1 A) (r1 A) /\ 0 < v3_dot (r2 A) (r2 A).
Proof.
  intros H. pose proof (hadamard A) as Hh. pose proof (v3_sq_nonneg (r0 A)) as P0. pose proof (v3_sq_nonneg (r1 A)) as P1. pose proof (v3_sq_nonneg (r2 A)) as P2.
  assert (0 < m3_det A * m3_det A) by nra.
  split; [|split]; match goal with |- 0 < ?a => destruct (Req_dec a 0) as [E|E]; [rewrite E in Hh; exfalso; nra|lra] end.
Qed.
Lemma log_bound A : 0 < m3_det A -> 2 * ln (m3_det A) <= m3_inner A A - 3.
Proof.
  intros H. destruct (rows_pos A H) as (P0 & P1 & P2). pose proof (hadamard A) as Hh.
  replace (2 * ln (m3_det A)) with (ln (m3_det A * m3_det A)) by (rewrite ln_mult by exact H; ring).
  assert (L : ln (m3_det A * m3_det A) <= ln (v3_dot (r0 A) (r0 A) * v3_dot (r1 A) (r1 A) * v3_dot (r2 A) (r2 A))).
  { destruct Hh as [Hh|Hh]; [left; apply ln_increasing; [nra|exact Hh]|rewrite Hh; lra]. }
  rewrite !ln_mult in L by (try assumption; apply Rmult_lt_0_compat; assumption).
  pose proof (ln_le_minus_1 _ P0). pose proof (ln_le_minus_1 _ P1). pose proof (ln_le_minus_1 _ P2). unfold m3_inner. rewrite ln_mult by assumption. lra.
Qed.
Lemma nh_density_nonneg lam m F : 0 <= lam -> 0 <= m -> 0 < m3_det F -> 0 <= nh_density lam m F.
Proof.
  intros Hl Hm HJ. unfold nh_density. cbv zeta. pose proof (log_bound F HJ) as Hb. pose proof (Rle_0_sqr (ln (m3_det F))) as Hs. unfold Rsqr in Hs.
  assert (0 <= m * (m3_inner F F - 3 - 2 * ln (m3_det F))) by (apply Rmult_le_pos; lra). assert (0 <= lam * (ln (m3_det F) * ln (m3_det F))) by (apply Rmult_le_pos; assumption). lra.
Qed.
Lemma nh_density_zero lam m F : 0 <= lam -> 0 < m -> 0 < m3_det F -> nh_density lam m F = 0 -> rotation F.
Proof.
  intros Hl Hm HJ H0. unfold nh_density in H0. cbv zeta in H0. pose proof (log_bound F HJ) as Hb. pose proof (Rle_0_sqr (ln (m3_det F))) as Hs. unfold Rsqr in Hs.
  assert (0 <= lam * (ln (m3_det F) * ln (m3_det F))) by (apply Rmult_le_pos; assumption).
  assert (E : m3_inner F F - 3 = 2 * ln (m3_det F)). { assert (m * (m3_inner F F - 3 - 2 * ln (m3_det F)) <= 0) by lra. nra. }
  destruct (rows_pos F HJ) as (P0 & P1 & P2). pose proof (hadamard F) as Hh.
  replace (2 * ln (m3_det F)) with (ln (m3_det F * m3_det F)) in E by (rewrite ln_mult by exact HJ; ring).
  assert (L : ln (m3_det F * m3_det F) <= ln (v3_dot (r0 F) (r0 F) * v3_dot (r1 F) (r1 F) * v3_dot (r2 F) (r2 F))).
  { destruct Hh as [Hh|Hh]; [left; apply ln_increasing; [nra|exact Hh]|rewrite Hh; lra]. }
  assert (L3 : ln (v3_dot (r0 F) (r0 F) * v3_dot (r1 F) (r1 F) * v3_dot (r2 F) (r2 F)) = ln (v3_dot (r0 F) (r0 F)) + ln (v3_dot (r1 F) (r1 F)) + ln (v3_dot (r2 F) (r2 F))).
  { rewrite !ln_mult by (try assumption; apply Rmult_lt_0_compat; assumption). ring. }
  pose proof (ln_le_minus_1 _ P0). pose proof (ln_le_minus_1 _ P1). pose proof (ln_le_minus_1 _ P2). unfold m3_inner in E.
  assert (E0 : v3_dot (r0 F) (r0 F) = 1) by (apply ln_eq_minus_1; [exact P0|lra]).
  assert (E1 : v3_dot (r1 F) (r1 F) = 1) by (apply ln_eq_minus_1; [exact P1|lra]).
  assert (E2 : v3_dot (r2 F) (r2 F) = 1) by (apply ln_eq_minus_1; [exact P2|lra]).
  rewrite E0, E1, E2 in *. assert (D : m3_det F * m3_det F = 1).
  { replace (1 + 1 + 1 - 3) with 0 in E by ring. rewrite <- ln_1 in E. symmetry in E. apply ln_inv in E; [lra|nra|lra]. }
  assert (D1 : m3_det F = 1) by nra. split; [|exact D1].
  (* orthogonality of the rows *)
  unfold m3_det in D. pose proof (v3_lagrange (r0 F) (v3_cross (r1 F) (r2 F))) as K1. pose proof (v3_lagrange (r1 F) (r2 F)) as K2. rewrite E0 in K1. rewrite E1, E2 in K2.
  pose proof (v3_sq_nonneg (v3_cross (r0 F) (v3_cross (r1 F) (r2 F)))) as K3. pose proof (Rle_0_sqr (v3_dot (r1 F) (r2 F))) as K4. unfold Rsqr in K4.
  assert (O12 : v3_dot (r1 F) (r2 F) = 0) by nra.
  assert (C : v3_dot (r0 F) (v3_cross (r1 F) (r2 F)) = 1) by (unfold m3_det in D1; exact D1).
  (* r0 = r1 x r2 *)
  assert (U : v3_dot (v3_sub (r0 F) (v3_cross (r1 F) (r2 F))) (v3_sub (r0 F) (v3_cross (r1 F) (r2 F))) = 0).
  { transitivity (v3_dot (r0 F) (r0 F) - 2 * v3_dot (r0 F) (v3_cross (r1 F) (r2 F)) + v3_dot (v3_cross (r1 F) (r2 F)) (v3_cross (r1 F) (r2 F))); [clear; dm; unm; ring|]. rewrite E0, C, K2, O12. ring. }
  assert (R0 : r0 F = v3_cross (r1 F) (r2 F)).
  { revert U. generalize (v3_cross (r1 F) (r2 F)) (r0 F). clear. intros a b. destruct a as [a1 a2 a3], b as [b1 b2 b3]. unm. intros U. assert (b1 - a1 = 0 /\ b2 - a2 = 0 /\ b3 - a3 = 0) as (A & B & D).
    { pose proof (Rle_0_sqr (b1 - a1)). pose proof (Rle_0_sqr (b2 - a2)). pose proof (Rle_0_sqr (b3 - a3)). split; [|split]; apply Rsqr_0_uniq; unfold Rsqr in *; lra. }
    f_equal; lra. }
  assert (O01 : v3_dot (r0 F) (r1 F) = 0) by (rewrite R0; clear; dm; unm; ring).
  assert (O02 : v3_dot (r0 F) (r2 F) = 0) by (rewrite R0; clear; dm; unm; ring).
  clear -E0 E1 E2 O01 O02 O12. destruct F as [[a b c] [d e f] [g h i]]. revert E0 E1 E2 O01 O02 O12. unm. intros. apply m3_ext; lra.
Qed.
Lemma rotation_energy lam m F : rotation F -> nh_density lam m F = 0.
Proof.
  intros [Ho Hd]. unfold nh_density. cbv zeta. rewrite Hd, ln_1.
  assert (HI : m3_inner F F = 3). { transitivity (m3_trace (m3_mul F (m3_transpose F))); [clear; dm; unm; ring|]. rewrite Ho. unm. ring. }
  rewrite HI. ring.
Qed.

(** * Torque of one element *)
Definition tet_torque (x g : tet) : v3 := v3_add (v3_add (v3_add (v3_cross (t0 x) (t0 g)) (v3_cross (t1 x) (t1 g))) (v3_cross (t2 x) (t2 g))) (v3_cross (t3 x) (t3 g)).
Definition tet_total (g : tet) : v3 := v3_add (v3_add (v3_add (t0 g) (t1 g)) (t2 g)) (t3 g).
Lemma close_total H : tet_total (close_rows H) = v3_0.
Proof. unfold tet_total. dm. unm. f_equal; ring. Qed.
(** The torque is the axial vector of [S], the product of the transposed shape matrix with the rows. *)
Definition axial (S : m3) : v3 := V3 (vz (r1 S) - vy (r2 S)) (vx (r2 S) - vz (r0 S)) (vy (r0 S) - vx (r1 S)).
Lemma close_torque x H : tet_torque x (close_rows H) = axial (m3_mul (m3_transpose (shape_matrix x)) H).
Proof. unfold tet_torque, axial. dm. unm. f_equal; ring. Qed.
Lemma axial_sym S : m3_transpose S = S -> axial S = v3_0.
Proof. destruct S as [[a b c] [d e f] [g h i]]. unfold axial. unm. intros H. injection H as H1 H2 H3 H4 H5 H6. f_equal; lra. Qed.
Lemma stress_pull x B v P : m3_mul (m3_transpose (shape_matrix x)) (m3_scale v (m3_mul (m3_transpose B) P)) = m3_scale v (m3_mul (m3_transpose (m3_mul B (shape_matrix x))) P).
Proof. rewrite mul_scale_r, transpose_mul, mul_assoc. reflexivity. Qed.
Lemma isotropic_torque x B v a b : tet_torque x (close_rows (m3_scale v (m3_mul (m3_transpose B) (m3_add (m3_scale a (m3_mul B (shape_matrix x))) (m3_scale b (m3_cof (m3_mul B (shape_matrix x)))))))) = v3_0.
Proof.
  rewrite close_torque, stress_pull. apply axial_sym. rewrite mul_add_r, !mul_scale_r, tr_cof. generalize (m3_mul B (shape_matrix x)). clear. intros F. dm. unm. apply m3_ext; ring.
Qed.
Lemma nh_torque B v lam m x g : nh_gradient (at_shape B v lam m x) = Some g -> tet_torque x g = v3_0.
Proof.
  intros Hg. assert (HJ : 0 < m3_det (m3_mul B (shape_matrix x))).
  { unfold nh_gradient in Hg. cbv zeta in Hg. change (deformation_gradient (at_shape B v lam m x)) with (m3_mul B (shape_matrix x)) in Hg. destruct (Rle_dec (m3_det (m3_mul B (shape_matrix x))) 0); [discriminate Hg|lra]. }
  rewrite nh_gradient_some in Hg by exact HJ. injection Hg as <-. unfold nh_stress, m3_inv_transpose. rewrite scale_scale. apply isotropic_torque.
Qed.
Lemma snh_torque B v lam m x g : snh_gradient (at_shape B v lam m x) = Some g -> tet_torque x g = v3_0.
Proof. intros Hg. injection Hg as <-. unfold snh_stress. cbv zeta. apply isotropic_torque. Qed.
Definition balanced_model (M : tet_model) : Prop :=
  forall B v lam m x g, m_gradient M (at_shape B v lam m x) = Some g -> tet_total g = v3_0 /\ tet_torque x g = v3_0.
Lemma nh_balanced : balanced_model neo_hookean.
Proof.
  intros B v lam m x g H. split; [|exact (nh_torque B v lam m x g H)]. unfold m_gradient, neo_hookean, nh_gradient in H. cbv zeta in H. destruct (Rle_dec _ 0) in H; [discriminate H|]. injection H as <-. apply close_total.
Qed.
Lemma snh_balanced : balanced_model stable_neo_hookean.
Proof. intros B v lam m x g H. split; [|exact (snh_torque B v lam m x g H)]. injection H as <-. apply close_total. Qed.

(** * Scattering *)
Fixpoint lsum (L : nat -> v3 -> R) (k : nat) (l : list v3) : R := match l with [] => 0 | a :: r => L k a + lsum L (S k) r end.
Definition additive (L : nat -> v3 -> R) : Prop := forall i a b, L i (v3_add a b) = L i a + L i b.
Lemma add_at_lsum L l i g l' k : additive L -> add_at l i g = Some l' -> length l' = length l /\ lsum L k l' = lsum L k l + L (k + i)%nat g.
Proof.
  intros HL. revert i l' k. induction l as [|a l IH]; intros i l' k H; [destruct i; discriminate H|]. destruct i as [|i].
  - injection H as <-. split; [reflexivity|]. simpl. rewrite HL, Nat.add_0_r. ring.
  - simpl in H. destruct (add_at l i g) as [m|] eqn:E; [|discriminate H]. injection H as <-. destruct (IH i m (S k) E) as [A B]. split; [simpl; congruence|].
    simpl. rewrite B. replace (k + S i)%nat with (S k + i)%nat by lia. ring.
Qed.
Lemma add_at_some l i g : (i < length l)%nat -> exists l', add_at l i g = Some l' /\ length l' = length l.
Proof.
  revert i. induction l as [|a l IH]; intros i H; [simpl in H; lia|]. destruct i as [|i]; [eexists; split; reflexivity|].
  simpl in H. destruct (IH i ltac:(lia)) as (m & E & Lm). exists (a :: m). simpl. rewrite E. split; [reflexivity|simpl; lia].
Qed.
Definition tet_lsum (L : nat -> v3 -> R) (s : solid_tet) (g : tet) : R := L (c0 s) (t0 g) + L (c1 s) (t1 g) + L (c2 s) (t2 g) + L (c3 s) (t3 g).
Lemma add_tet_lsum L l s g l' : additive L -> add_tet l s g = Some l' -> length l' = length l /\ lsum L 0 l' = lsum L 0 l + tet_lsum L s g.
Proof.
  intros HL H. unfold add_tet, bind in H. destruct (add_at l (c0 s) (t0 g)) as [a|] eqn:E0; [|discriminate H]. destruct (add_at a (c1 s) (t1 g)) as [b|] eqn:E1; [|discriminate H].
  destruct (add_at b (c2 s) (t2 g)) as [c|] eqn:E2; [|discriminate H].
  destruct (add_at_lsum L _ _ _ _ 0 HL E0) as [A0 B0]. destruct (add_at_lsum L _ _ _ _ 0 HL E1) as [A1 B1]. destruct (add_at_lsum L _ _ _ _ 0 HL E2) as [A2 B2]. destruct (add_at_lsum L _ _ _ _ 0 HL H) as [A3 B3].
  split; [congruence|]. rewrite B3, B2, B1, B0. unfold tet_lsum. simpl. ring.
Qed.
Lemma add_tet_some l s g : in_range (length l) s -> exists l', add_tet l s g = Some l' /\ length l' = length l.
Proof.
  intros (H0 & H1 & H2 & H3). unfold add_tet, bind. destruct (add_at_some l (c0 s) (t0 g) H0) as (a & Ea & La). rewrite Ea.
  destruct (add_at_some a (c1 s) (t1 g) ltac:(lia)) as (b & Eb & Lb). rewrite Eb. destruct (add_at_some b (c2 s) (t2 g) ltac:(lia)) as (c & Ec & Lc). rewrite Ec.
  destruct (add_at_some c (c3 s) (t3 g) ltac:(lia)) as (d & Ed & Ld). exists d. split; [exact Ed|congruence].
Qed.
(** Sum of the local contributions, if all are finite. *)
Fixpoint mesh_lsum (L : nat -> v3 -> R) (M : tet_model) (ss : list solid_tet) (dqdv : R) (x v : nat -> v3) : R :=
  match ss with [] => 0 | s :: r => match tet_gradient_with_damping M s dqdv x v with Some g => tet_lsum L s g | None => 0 end + mesh_lsum L M r dqdv x v end.
Lemma mesh_scatter L M ss dqdv x v : additive L -> forall l g, add_mesh_gradient M ss dqdv x v l = Some g ->
  length g = length l /\ lsum L 0 g = lsum L 0 l + mesh_lsum L M ss dqdv x v /\ forall s, In s ss -> exists t, tet_gradient_with_damping M s dqdv x v = Some t.
Proof.
  intros HL. induction ss as [|s ss IH]; intros l g H.
  - injection H as <-. split; [reflexivity|]. split; [simpl; ring|]. intros s [].
  - simpl in H. destruct (tet_gradient_with_damping M s dqdv x v) as [t|] eqn:E; [|discriminate H]. simpl in H. destruct (add_tet l s t) as [l'|] eqn:E'; [|discriminate H]. simpl in H.
    destruct (add_tet_lsum L l s t l' HL E') as [A B]. destruct (IH l' g H) as (C & D & F). split; [congruence|]. split.
    + simpl. rewrite E, D, B. ring.
    + intros s' [<-|Hs]; [exists t; exact E|exact (F s' Hs)].
Qed.
Lemma power_lsum l d : power l d = lsum (fun i a => v3_dot a (d i)) 0 l.
Proof.
  unfold power. generalize 0%nat. induction l as [|a l IH]; intros k; [reflexivity|]. simpl. rewrite rsum_cons, IH. reflexivity.
Qed.
Lemma total_lsum l : v3_total l = V3 (lsum (fun _ a => vx a) 0 l) (lsum (fun _ a => vy a) 0 l) (lsum (fun _ a => vz a) 0 l).
Proof.
  generalize 0%nat. induction l as [|a l IH]; intros k; [reflexivity|]. cbn [v3_total fold_right lsum]. fold (v3_total l). rewrite (IH (S k)). destruct a. reflexivity.
Qed.
Lemma torque_lsum x l : torque x l = V3 (lsum (fun i a => vx (v3_cross (x i) a)) 0 l) (lsum (fun i a => vy (v3_cross (x i) a)) 0 l) (lsum (fun i a => vz (v3_cross (x i) a)) 0 l).
Proof.
  unfold torque. generalize 0%nat. induction l as [|a l IH]; intros k; [reflexivity|]. simpl. fold (v3_total (map (fun p => v3_cross (x (fst p)) (snd p)) (combine (seq (S k) (length l)) l))). rewrite (IH (S k)). reflexivity.
Qed.
Lemma lsum_zero L k n : (forall i, L i v3_0 = 0) -> lsum L k (repeat v3_0 n) = 0.
Proof. intros H. revert k. induction n as [|n IH]; intros k; [reflexivity|]. simpl. rewrite H, IH. ring. Qed.

(** * Energy and gradient of a mesh *)
Lemma damping_form M B v lam m x vv : tet_dot (close_rows (m_product M (at_shape B v lam m x) vv)) vv =
  (let dH := m_product M (at_shape B v lam m x) vv in v3_dot (r0 dH) (t0 vv) + v3_dot (r1 dH) (t1 vv) + v3_dot (r2 dH) (t2 vv) - v3_sum (m3_mulv dH (t3 vv))).
Proof. cbv zeta. generalize (m_product M (at_shape B v lam m x) vv). intros H. unfold v3_sum. dm. unm. ring. Qed.
Lemma gather_move s x d t : gather s (move x d t) = tet_line (gather s x) (gather s d) t.
Proof. reflexivity. Qed.
Lemma prev_const s x v w dqdv t : tet_sub (gather s (move x (fun i => v3_scale dqdv (w i)) t)) (tet_scale dqdv (gather s (move v w t))) = tet_sub (gather s x) (tet_scale dqdv (gather s v)).
Proof.
  unfold gather, move, v3_line, tet_sub, tet_scale. cbn [t0 t1 t2 t3]. f_equal; [destruct (x (c0 s)), (v (c0 s)), (w (c0 s))|destruct (x (c1 s)), (v (c1 s)), (w (c1 s))|destruct (x (c2 s)), (v (c2 s)), (w (c2 s))|destruct (x (c3 s)), (v (c3 s)), (w (c3 s))]; unm; f_equal; ring.
Qed.
Lemma shape_tet_line x d s : shape_matrix (tet_line x d s) = m3_line (shape_matrix x) (shape_matrix d) s.
Proof. apply shape_line. Qed.
Lemma line_0 (f : R -> R) a b c : (forall s, f s = a + s * b + s * s * c) -> is_derive f 0 b.
Proof. intros H. apply is_derive_ext with (f := fun s => a + s * b + s * s * c); [intros s; symmetry; apply H|]. auto_derive; [exact I|ring]. Qed.

Lemma tet_damped_derive M s dqdv x v w g : good_model M -> tet_gradient_with_damping M s dqdv x v = Some g ->
  locally 0 (fun t => exists a, tet_energy_with_damping M s dqdv (move x (fun i => v3_scale dqdv (w i)) t) (move v w t) = Fin a) /\
  is_derive (fun t => fin (tet_energy_with_damping M s dqdv (move x (fun i => v3_scale dqdv (w i)) t) (move v w t))) 0 (dqdv * tet_dot g (gather s w)).
Proof.
  intros [G1 G2] Hg. unfold tet_gradient_with_damping in Hg. cbv zeta in Hg.
  change (elem_of s (gather s x)) with (at_shape (s_DX_inv s) (s_vol s) (s_lambda s) (s_mu s) (gather s x)) in Hg.
  set (B := s_DX_inv s) in *. set (vo := s_vol s) in *. set (la := s_lambda s) in *. set (mm := s_mu s) in *.
  destruct (m_gradient M (at_shape B vo la mm (gather s x))) as [h|] eqn:Eh; [|discriminate Hg]. injection Hg as <-.
  set (w' := fun i => v3_scale dqdv (w i)).
  destruct (G1 B vo la mm (gather s x) (gather s w') h Eh) as [L1 D1].
  set (x0 := tet_sub (gather s x) (tet_scale dqdv (gather s v))) in *.
  destruct (G2 B vo la mm x0) as (q & Q1 & Q2 & Q3).
  assert (HE : forall t, tet_energy_with_damping M s dqdv (move x w' t) (move v w t) =
    match m_energy M (at_shape B vo la mm (tet_line (gather s x) (gather s w') t)) with
    | Fin a => Fin (a + 1 / 2 * s_damping s * (dqdv * dqdv) * q (shape_matrix (tet_line (gather s v) (gather s w) t)) (shape_matrix (tet_line (gather s v) (gather s w) t))) | Inf => Inf end).
  { intros t. unfold tet_energy_with_damping. cbv zeta. unfold w'. rewrite prev_const. fold x0. fold w'.
    change (elem_of s x0) with (at_shape B vo la mm x0). rewrite (gather_move s v w t). rewrite <- (Q1 (tet_line (gather s v) (gather s w) t)).
    rewrite damping_form. cbv zeta. reflexivity. }
  assert (HL : locally 0 (fun t => tet_energy_with_damping M s dqdv (move x w' t) (move v w t) =
     Fin (fin (m_energy M (at_shape B vo la mm (tet_line (gather s x) (gather s w') t))) + 1 / 2 * s_damping s * (dqdv * dqdv) * q (shape_matrix (tet_line (gather s v) (gather s w) t)) (shape_matrix (tet_line (gather s v) (gather s w) t))))).
  { eapply filter_imp; [|exact L1]. intros t [a Ha]. rewrite HE, Ha. reflexivity. }
  split; [eapply filter_imp; [|exact HL]; intros t Ht; eexists; exact Ht|].
  eapply is_derive_ext_loc; [eapply filter_imp; [|exact HL]; intros t Ht; cbv beta in Ht; rewrite Ht; cbn [fin]; reflexivity|].
  replace (dqdv * tet_dot _ (gather s w)) with (tet_dot h (gather s w') + 1 / 2 * s_damping s * (dqdv * dqdv) * (2 * q (shape_matrix (gather s v)) (shape_matrix (gather s w)))).
  - apply @is_derive_plus; [exact D1|]. apply @is_derive_scal.
    apply line_0 with (a := q (shape_matrix (gather s v)) (shape_matrix (gather s v))) (c := q (shape_matrix (gather s w)) (shape_matrix (gather s w))).
    intros t. rewrite !shape_line, Q3, (Q2 (shape_matrix (gather s v))), (Q2 (shape_matrix (gather s w))), !Q3, (Q2 (shape_matrix (gather s w)) (shape_matrix (gather s v))). ring.
  - rewrite <- Q1. change (elem_of s x0) with (at_shape B vo la mm x0). generalize (m_product M (at_shape B vo la mm x0) (gather s v)). intros H. unfold w'.
    change (gather s (fun i => v3_scale dqdv (w i))) with (tet_scale dqdv (gather s w)). generalize (gather s w). clear. intros u. dm. unm. field.
Qed.

Lemma mesh_damped_derive M ss dqdv x v w : good_model M -> (forall s, In s ss -> exists g, tet_gradient_with_damping M s dqdv x v = Some g) ->
  locally 0 (fun t => exists a, mesh_energy M ss dqdv (move x (fun i => v3_scale dqdv (w i)) t) (move v w t) = Fin a) /\
  is_derive (fun t => fin (mesh_energy M ss dqdv (move x (fun i => v3_scale dqdv (w i)) t) (move v w t))) 0 (dqdv * mesh_lsum (fun i a => v3_dot a (w i)) M ss dqdv x v).
Proof.
  intros HM. induction ss as [|s ss IH]; intros H.
  - split; [exists (mkposreal 1 Rlt_0_1); intros t _; eexists; reflexivity|]. simpl. rewrite Rmult_0_r. apply @is_derive_const.
  - destruct (H s (or_introl eq_refl)) as [g Hg]. destruct (tet_damped_derive M s dqdv x v w g HM Hg) as [L1 D1].
    destruct IH as [L2 D2]; [intros s' Hs'; apply H; right; exact Hs'|]. cbn [mesh_energy mesh_lsum]. rewrite Hg. split.
    + eapply filter_imp; [|exact (filter_and _ _ L1 L2)]. intros t [[a Ha] [b Hb]]. rewrite Ha, Hb. eexists. reflexivity.
    + eapply is_derive_ext_loc; [eapply filter_imp; [|exact (filter_and _ _ L1 L2)]|].
      * intros t [[a Ha] [b Hb]]. instantiate (1 := fun t => fin (tet_energy_with_damping M s dqdv (move x (fun i => v3_scale dqdv (w i)) t) (move v w t)) + fin (mesh_energy M ss dqdv (move x (fun i => v3_scale dqdv (w i)) t) (move v w t))).
        cbv beta. rewrite Ha, Hb. reflexivity.
      * rewrite Rmult_plus_distr_l. apply @is_derive_plus; [exact D1|exact D2].
Qed.
