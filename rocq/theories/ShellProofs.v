From Coq Require Import Reals List Arith Bool Lra Lia Psatz.
From Coquelicot Require Import Coquelicot.
From Verif Require Import Calc Vec3 Mat3 RList ElasticModel ElasticSpec ElasticProofs ElasticMeshProofs AngleModel AngleSpec AngleProofs ShellModel ShellSpec.
Import ListNotations.
Local Open Scope R_scope.

Ltac un2 := cbv [m2_mul m2_transpose m2_scale m2_det m2_trace m2_inv m23_add m23_sub m23_scale m23_0 m2_m23 m23_mul_tr tri_shape tri_close tri_dot tri_line tri_map
  tri_total tri_torque flat_normal v3_line v3_add v3_sub v3_neg v3_scale v3_dot v3_cross v3_0 m00 m01 m10 m11 w0 w1 q0 q1 q2 vx vy vz].
Ltac d2 := repeat match goal with A : m2 |- _ => destruct A | A : m23 |- _ => destruct A | v : v3 |- _ => destruct v | t : tri3 |- _ => destruct t end.
Lemma v3_ext a b c a' b' c' : a = a' -> b = b' -> c = c' -> V3 a b c = V3 a' b' c'. Proof. intros. subst. reflexivity. Qed.
Lemma m23_ext a b c d e f a' b' c' d' e' f' : a = a' -> b = b' -> c = c' -> d = d' -> e = e' -> f = f' -> M23 (V3 a b c) (V3 d e f) = M23 (V3 a' b' c') (V3 d' e' f').
Proof. intros. subst. reflexivity. Qed.

Definition m23_inner (A B : m23) : R := v3_dot (w0 A) (w0 B) + v3_dot (w1 A) (w1 B).
Definition m23_line (A D : m23) (s : R) : m23 := m23_add A (m23_scale s D).
Ltac un3 := cbv [m23_inner m23_line]; un2.
Lemma shape_line2 B x d s : m2_m23 B (tri_shape (tri_line x d s)) = m23_line (m2_m23 B (tri_shape x)) (m2_m23 B (tri_shape d)) s.
Proof. d2. un3. apply m23_ext; ring. Qed.
Lemma close_dot a B P d : tri_dot (tri_close (m23_scale a (m2_m23 (m2_transpose B) P))) d = a * m23_inner P (m2_m23 B (tri_shape d)).
Proof. d2. un3. ring. Qed.
(** Gram matrix. *)
Definition gram (F : m23) : R := v3_dot (w0 F) (w0 F) * v3_dot (w1 F) (w1 F) - v3_dot (w0 F) (w1 F) * v3_dot (w0 F) (w1 F).
Lemma gram_det F : m2_det (m23_mul_tr F F) = gram F.
Proof. d2. un2. unfold gram. un2. ring. Qed.
Lemma gram_cross F : gram F = v3_dot (v3_cross (w0 F) (w1 F)) (v3_cross (w0 F) (w1 F)).
Proof. rewrite v3_lagrange. reflexivity. Qed.
Lemma gram_shape B x : gram (m2_m23 B (tri_shape x)) = m2_det B * m2_det B * v3_dot (flat_normal x) (flat_normal x).
Proof. d2. unfold gram. un2. ring. Qed.
Lemma proper_gram B x : proper B x -> 0 < gram (m2_m23 B (tri_shape x)).
Proof.
  intros [HB Hn]. rewrite gram_shape. assert (v3_dot (flat_normal x) (flat_normal x) <> 0) by (intros E; apply Hn, v3_dot_zero, E).
  pose proof (v3_dot_nonneg (flat_normal x)). apply Rmult_lt_0_compat; nra.
Qed.
Lemma dot_line a u b v s : v3_dot (v3_add a (v3_scale s u)) (v3_add b (v3_scale s v)) = v3_dot a b + s * (v3_dot a v + v3_dot u b) + s * s * v3_dot u v.
Proof. d2. un2. ring. Qed.
Lemma gram_line F D s : gram (m23_line F D s) =
  (v3_dot (w0 F) (w0 F) + s * (2 * v3_dot (w0 F) (w0 D)) + s * s * v3_dot (w0 D) (w0 D)) * (v3_dot (w1 F) (w1 F) + s * (2 * v3_dot (w1 F) (w1 D)) + s * s * v3_dot (w1 D) (w1 D))
  - (v3_dot (w0 F) (w1 F) + s * (v3_dot (w0 F) (w1 D) + v3_dot (w1 F) (w0 D)) + s * s * v3_dot (w0 D) (w1 D)) * (v3_dot (w0 F) (w1 F) + s * (v3_dot (w0 F) (w1 D) + v3_dot (w1 F) (w0 D)) + s * s * v3_dot (w0 D) (w1 D)).
Proof. d2. unfold gram. un3. ring. Qed.
Lemma gram_line_pos F D : 0 < gram F -> locally 0 (fun s => 0 < gram (m23_line F D s)).
Proof.
  intros H. apply (locally_pos (fun s => gram (m23_line F D s))).
  - eapply continuous_ext; [intros s; symmetry; apply gram_line|].
    generalize (v3_dot (w0 F) (w0 F)) (v3_dot (w0 F) (w0 D)) (v3_dot (w0 D) (w0 D)) (v3_dot (w1 F) (w1 F)) (v3_dot (w1 F) (w1 D)) (v3_dot (w1 D) (w1 D)) (v3_dot (w0 F) (w1 F)) (v3_dot (w0 F) (w1 D) + v3_dot (w1 F) (w0 D)) (v3_dot (w0 D) (w1 D)).
    intros. apply (@ex_derive_continuous R_AbsRing R_NormedModule). auto_derive. exact I.
  - rewrite gram_line. unfold gram in H. nra.
Qed.

(** * Density, stress and its differential *)
Definition sh_density (lam m : R) (F : m23) : R := 1 / 2 * (m * (v3_dot (w0 F) (w0 F) + v3_dot (w1 F) (w1 F) - 2 - ln (gram F)) + 1 / 4 * lam * ln (gram F) * ln (gram F)).
Definition dual (F : m23) : m23 := m2_m23 (m2_inv (m23_mul_tr F F)) F.
Definition sh_stress (lam m : R) (F : m23) : m23 := m23_add (m23_scale m F) (m23_scale (lam * (1 / 2 * ln (gram F)) - m) (dual F)).
Definition sh_dstress (lam m : R) (F D : m23) : m23 :=
  let G := dual F in let alpha := m - lam * (1 / 2) * ln (gram F) in let Ci := m2_inv (m23_mul_tr F F) in
  let n := normalized (v3_cross (w0 F) (w1 F)) in let E := m23_mul_tr D G in
  let p0 := v3_dot n (w0 D) in let p1 := v3_dot n (w1 D) in
  m23_sub (m23_add (m23_add (m23_scale m D) (m23_scale alpha (m2_m23 (m2_transpose E) G))) (m23_scale (m2_trace E * lam) G))
    (m23_scale alpha (M23 (v3_scale (p0 * m00 Ci + p1 * m10 Ci) n) (v3_scale (p0 * m01 Ci + p1 * m11 Ci) n))).
Lemma dual_inner F U : m23_inner (dual F) U =
  (v3_dot (w1 F) (w1 F) * v3_dot (w0 F) (w0 U) - v3_dot (w0 F) (w1 F) * v3_dot (w1 F) (w0 U) - v3_dot (w0 F) (w1 F) * v3_dot (w0 F) (w1 U) + v3_dot (w0 F) (w0 F) * v3_dot (w1 F) (w1 U)) / gram F.
Proof.
  unfold dual, m2_inv. rewrite gram_det. unfold Rdiv. generalize (/ gram F). intros g. d2. un3. ring.
Qed.
Lemma inner_add2 A B M : m23_inner (m23_add A B) M = m23_inner A M + m23_inner B M. Proof. d2. un3. ring. Qed.
Lemma inner_sub2 A B M : m23_inner (m23_sub A B) M = m23_inner A M - m23_inner B M. Proof. d2. un3. ring. Qed.
Lemma inner_scale2 s A M : m23_inner (m23_scale s A) M = s * m23_inner A M. Proof. d2. un3. ring. Qed.
Lemma sh_density_line lam m F D s : sh_density lam m (m23_line F D s) =
  let a := v3_dot (w0 F) (w0 F) + s * (2 * v3_dot (w0 F) (w0 D)) + s * s * v3_dot (w0 D) (w0 D) in
  let d := v3_dot (w1 F) (w1 F) + s * (2 * v3_dot (w1 F) (w1 D)) + s * s * v3_dot (w1 D) (w1 D) in
  let g := v3_dot (w0 F) (w1 F) + s * (v3_dot (w0 F) (w1 D) + v3_dot (w1 F) (w0 D)) + s * s * v3_dot (w0 D) (w1 D) in
  1 / 2 * (m * (a + d - 2 - ln (a * d - g * g)) + 1 / 4 * lam * ln (a * d - g * g) * ln (a * d - g * g)).
Proof.
  cbv zeta. unfold sh_density. rewrite gram_line. unfold m23_line. cbn [w0 w1 m23_add m23_scale]. rewrite !dot_line.
  replace (v3_dot (w0 D) (w0 F)) with (v3_dot (w0 F) (w0 D)) by (d2; un2; ring). replace (v3_dot (w1 D) (w1 F)) with (v3_dot (w1 F) (w1 D)) by (d2; un2; ring).
  replace (v3_dot (w0 F) (w0 D) + v3_dot (w0 F) (w0 D)) with (2 * v3_dot (w0 F) (w0 D)) by ring.
  replace (v3_dot (w1 F) (w1 D) + v3_dot (w1 F) (w1 D)) with (2 * v3_dot (w1 F) (w1 D)) by ring. reflexivity.
Qed.
Lemma sh_density_derive lam m F D : 0 < gram F -> is_derive (fun s => sh_density lam m (m23_line F D s)) 0 (m23_inner (sh_stress lam m F) D).
Proof.
  intros HJ. unfold sh_stress. rewrite inner_add2, !inner_scale2, dual_inner. unfold m23_inner.
  eapply is_derive_ext; [intros s; symmetry; apply sh_density_line|]. cbv zeta. revert HJ. unfold gram.
  generalize (v3_dot (w0 F) (w0 F)) (v3_dot (w0 F) (w0 D)) (v3_dot (w0 D) (w0 D)) (v3_dot (w1 F) (w1 F)) (v3_dot (w1 F) (w1 D)) (v3_dot (w1 D) (w1 D)) (v3_dot (w0 F) (w1 F)) (v3_dot (w0 F) (w1 D)) (v3_dot (w1 F) (w0 D)) (v3_dot (w0 D) (w1 D)).
  intros a b c d e f g h i j HJ.
  auto_derive.
  - repeat split; try exact I; match goal with |- 0 < ?y => replace y with (a * d - g * g) by ring; exact HJ end.
  - repeat match goal with |- context [ln ?y] => progress (replace y with (a * d - g * g) by ring) end. field.
    repeat split; match goal with |- ?y <> 0 => first [lra|replace y with (a * d - g * g) by ring; lra] end.
Qed.
(** The normal part. *)
Lemma gram3 (a b u d : v3) : v3_dot (v3_cross a b) u * v3_dot (v3_cross a b) d =
  v3_dot u d * (v3_dot a a * v3_dot b b - v3_dot a b * v3_dot a b)
  - v3_dot a u * (v3_dot b b * v3_dot a d - v3_dot a b * v3_dot b d) - v3_dot b u * (v3_dot a a * v3_dot b d - v3_dot a b * v3_dot a d).
Proof. d2. un2. ring. Qed.
Lemma normal_pair F u d : 0 < gram F -> let n := normalized (v3_cross (w0 F) (w1 F)) in
  v3_dot n u * v3_dot n d = v3_dot (v3_cross (w0 F) (w1 F)) u * v3_dot (v3_cross (w0 F) (w1 F)) d / gram F.
Proof.
  intros H n. subst n. unfold normalized, v3_norm. rewrite <- gram_cross. set (c := v3_cross (w0 F) (w1 F)). clearbody c.
  assert (E : forall r v, v3_dot (v3_scale r c) v = r * v3_dot c v) by (intros r v; d2; un2; ring). rewrite !E.
  pose proof (sqrt_lt_R0 _ H) as Hs. pose proof (sqrt_sqrt (gram F) (Rlt_le _ _ H)) as Hq. rewrite <- Hq at 3. field. lra.
Qed.
Lemma dual_0 F u : v3_dot (w0 (dual F)) u = (v3_dot (w1 F) (w1 F) * v3_dot (w0 F) u - v3_dot (w0 F) (w1 F) * v3_dot (w1 F) u) / gram F.
Proof. unfold dual, m2_inv. rewrite gram_det. unfold Rdiv. generalize (/ gram F). intros g. d2. un3. ring. Qed.
Lemma dual_1 F u : v3_dot (w1 (dual F)) u = (v3_dot (w0 F) (w0 F) * v3_dot (w1 F) u - v3_dot (w0 F) (w1 F) * v3_dot (w0 F) u) / gram F.
Proof. unfold dual, m2_inv. rewrite gram_det. unfold Rdiv. generalize (/ gram F). intros g. d2. un3. ring. Qed.
Lemma dstress_inner lam m F D U : m23_inner (sh_dstress lam m F D) U =
  let G := dual F in let alpha := m - lam * (1 / 2) * ln (gram F) in let Ci := m2_inv (m23_mul_tr F F) in let n := normalized (v3_cross (w0 F) (w1 F)) in
  m * (v3_dot (w0 D) (w0 U) + v3_dot (w1 D) (w1 U))
  + alpha * (v3_dot (w0 G) (w0 D) * v3_dot (w0 G) (w0 U) + v3_dot (w0 G) (w1 D) * v3_dot (w1 G) (w0 U) + v3_dot (w1 G) (w0 D) * v3_dot (w0 G) (w1 U) + v3_dot (w1 G) (w1 D) * v3_dot (w1 G) (w1 U))
  + lam * (v3_dot (w0 G) (w0 D) + v3_dot (w1 G) (w1 D)) * m23_inner G U
  - alpha * (m00 Ci * (v3_dot n (w0 U) * v3_dot n (w0 D)) + m10 Ci * (v3_dot n (w0 U) * v3_dot n (w1 D)) + m01 Ci * (v3_dot n (w1 U) * v3_dot n (w0 D)) + m11 Ci * (v3_dot n (w1 U) * v3_dot n (w1 D))).
Proof.
  unfold sh_dstress. cbv zeta. generalize (dual F) (m2_inv (m23_mul_tr F F)) (normalized (v3_cross (w0 F) (w1 F))) (m - lam * (1 / 2) * ln (gram F)). intros G Ci n alpha. d2. un3. ring.
Qed.
Lemma inv_gram F : m2_inv (m23_mul_tr F F) = M2 (v3_dot (w1 F) (w1 F) / gram F) (- v3_dot (w0 F) (w1 F) / gram F) (- v3_dot (w0 F) (w1 F) / gram F) (v3_dot (w0 F) (w0 F) / gram F).
Proof. unfold m2_inv. rewrite gram_det. unfold Rdiv. generalize (/ gram F). intros g. d2. un2. f_equal; ring. Qed.
Lemma sh_stress_inner lam m F U : m23_inner (sh_stress lam m F) U = m * (v3_dot (w0 F) (w0 U) + v3_dot (w1 F) (w1 U)) + (lam * (1 / 2 * ln (gram F)) - m) *
  ((v3_dot (w1 F) (w1 F) * v3_dot (w0 F) (w0 U) - v3_dot (w0 F) (w1 F) * v3_dot (w1 F) (w0 U) - v3_dot (w0 F) (w1 F) * v3_dot (w0 F) (w1 U) + v3_dot (w0 F) (w0 F) * v3_dot (w1 F) (w1 U)) / gram F).
Proof. unfold sh_stress. rewrite inner_add2, !inner_scale2, dual_inner. reflexivity. Qed.
Lemma dot_line_l a u b s : v3_dot (v3_add a (v3_scale s u)) b = v3_dot a b + s * v3_dot u b.
Proof. d2. un2. ring. Qed.
Lemma sh_stress_line lam m F D U s : m23_inner (sh_stress lam m (m23_line F D s)) U =
  let a := v3_dot (w0 F) (w0 F) + s * (2 * v3_dot (w0 F) (w0 D)) + s * s * v3_dot (w0 D) (w0 D) in
  let d := v3_dot (w1 F) (w1 F) + s * (2 * v3_dot (w1 F) (w1 D)) + s * s * v3_dot (w1 D) (w1 D) in
  let g := v3_dot (w0 F) (w1 F) + s * (v3_dot (w0 F) (w1 D) + v3_dot (w1 F) (w0 D)) + s * s * v3_dot (w0 D) (w1 D) in
  let u00 := v3_dot (w0 F) (w0 U) + s * v3_dot (w0 D) (w0 U) in let u01 := v3_dot (w0 F) (w1 U) + s * v3_dot (w0 D) (w1 U) in
  let u10 := v3_dot (w1 F) (w0 U) + s * v3_dot (w1 D) (w0 U) in let u11 := v3_dot (w1 F) (w1 U) + s * v3_dot (w1 D) (w1 U) in
  m * (u00 + u11) + (lam * (1 / 2 * ln (a * d - g * g)) - m) * ((d * u00 - g * u10 - g * u01 + a * u11) / (a * d - g * g)).
Proof.
  cbv zeta. rewrite sh_stress_inner, gram_line. unfold m23_line. cbn [w0 w1 m23_add m23_scale]. rewrite !dot_line, !dot_line_l.
  replace (v3_dot (w0 D) (w0 F)) with (v3_dot (w0 F) (w0 D)) by (d2; un2; ring). replace (v3_dot (w1 D) (w1 F)) with (v3_dot (w1 F) (w1 D)) by (d2; un2; ring). replace (v3_dot (w0 D) (w1 F)) with (v3_dot (w1 F) (w0 D)) by (d2; un2; ring).
  replace (v3_dot (w0 F) (w0 D) + v3_dot (w0 F) (w0 D)) with (2 * v3_dot (w0 F) (w0 D)) by ring.
  replace (v3_dot (w1 F) (w1 D) + v3_dot (w1 F) (w1 D)) with (2 * v3_dot (w1 F) (w1 D)) by ring. reflexivity.
Qed.
Lemma sh_stress_derive lam m F D U : 0 < gram F -> is_derive (fun s => m23_inner (sh_stress lam m (m23_line F D s)) U) 0 (m23_inner (sh_dstress lam m F D) U).
Proof.
  intros HJ. rewrite dstress_inner. cbv zeta. rewrite !(normal_pair F _ _ HJ), !gram3, inv_gram, dual_inner, !dual_0, !dual_1. cbn [m00 m01 m10 m11].
  eapply is_derive_ext; [intros s; symmetry; apply sh_stress_line|]. cbv zeta. revert HJ. unfold gram.
  replace (v3_dot (w0 U) (w0 D)) with (v3_dot (w0 D) (w0 U)) by (d2; un2; ring). replace (v3_dot (w0 U) (w1 D)) with (v3_dot (w1 D) (w0 U)) by (d2; un2; ring).
  replace (v3_dot (w1 U) (w0 D)) with (v3_dot (w0 D) (w1 U)) by (d2; un2; ring). replace (v3_dot (w1 U) (w1 D)) with (v3_dot (w1 D) (w1 U)) by (d2; un2; ring).
  generalize (v3_dot (w0 F) (w0 F)) (v3_dot (w0 F) (w0 D)) (v3_dot (w0 D) (w0 D)) (v3_dot (w1 F) (w1 F)) (v3_dot (w1 F) (w1 D)) (v3_dot (w1 D) (w1 D)) (v3_dot (w0 F) (w1 F)) (v3_dot (w0 F) (w1 D)) (v3_dot (w1 F) (w0 D)) (v3_dot (w0 D) (w1 D)).
  intros a b c d e f g h i j.
  generalize (v3_dot (w0 F) (w0 U)) (v3_dot (w0 F) (w1 U)) (v3_dot (w1 F) (w0 U)) (v3_dot (w1 F) (w1 U)) (v3_dot (w0 D) (w0 U)) (v3_dot (w0 D) (w1 U)) (v3_dot (w1 D) (w0 U)) (v3_dot (w1 D) (w1 U)).
  intros u00 u01 u10 u11 v00 v01 v10 v11 HJ. auto_derive.
  - repeat split; try exact I; match goal with |- 0 < ?y => replace y with (a * d - g * g) by ring; lra | |- ?y <> 0 => replace y with (a * d - g * g) by ring; lra end.
  - repeat match goal with |- context [ln ?y] => progress (replace y with (a * d - g * g) by ring) end. field.
    repeat split; match goal with |- ?y <> 0 => first [lra|replace y with (a * d - g * g) by ring; lra] end.
Qed.

(** * One triangle *)
Lemma tri_F_at B a lam m x : tri_F (at_tri B a lam m x) = m2_m23 B (tri_shape x). Proof. reflexivity. Qed.
Lemma tri_energy_fin B a lam m x : 0 < gram (m2_m23 B (tri_shape x)) -> tri_energy (at_tri B a lam m x) = Fin (a * sh_density lam m (m2_m23 B (tri_shape x))).
Proof.
  intros H. unfold tri_energy. cbv zeta. rewrite tri_F_at, gram_det. destruct (Rle_dec _ 0); [lra|]. f_equal. unfold sh_density. cbn [T_area T_mu T_lambda at_tri m00 m11 m23_mul_tr]. ring.
Qed.
Lemma tri_gradient_pos B a lam m x : 0 < gram (m2_m23 B (tri_shape x)) -> tri_gradient (at_tri B a lam m x) = tri_close (m23_scale a (m2_m23 (m2_transpose B) (sh_stress lam m (m2_m23 B (tri_shape x))))).
Proof. intros H. unfold tri_gradient. cbv zeta. rewrite tri_F_at, gram_det. destruct (Rle_dec _ 0); [lra|]. reflexivity. Qed.
Lemma tri_product_pos B a lam m x d : 0 < gram (m2_m23 B (tri_shape x)) ->
  tri_product (at_tri B a lam m x) d = m23_scale a (m2_m23 (m2_transpose B) (sh_dstress lam m (m2_m23 B (tri_shape x)) (m2_m23 B (tri_shape d)))).
Proof. intros H. unfold tri_product. cbv zeta. rewrite tri_F_at, gram_det. destruct (Rlt_dec 0 _); [|lra]. reflexivity. Qed.
Lemma tri_gradient_derive B a lam m x d : proper B x ->
  locally 0 (fun s => exists y, tri_energy (at_tri B a lam m (tri_line x d s)) = Fin y) /\
  is_derive (fun s => fin (tri_energy (at_tri B a lam m (tri_line x d s)))) 0 (tri_dot (tri_gradient (at_tri B a lam m x)) d).
Proof.
  intros HP. pose proof (proper_gram B x HP) as H. pose proof (gram_line_pos _ (m2_m23 B (tri_shape d)) H) as L.
  assert (L' : locally 0 (fun s => tri_energy (at_tri B a lam m (tri_line x d s)) = Fin (a * sh_density lam m (m23_line (m2_m23 B (tri_shape x)) (m2_m23 B (tri_shape d)) s)))).
  { eapply filter_imp; [|exact L]. intros s Hs. cbv beta in Hs. rewrite <- shape_line2 in Hs |- *. apply tri_energy_fin, Hs. }
  split; [eapply filter_imp; [|exact L']; intros s Hs; eexists; exact Hs|].
  eapply is_derive_ext_loc; [eapply filter_imp; [|exact L']; intros s Hs; cbv beta in Hs; rewrite Hs; cbn [fin]; reflexivity|].
  rewrite tri_gradient_pos by exact H. rewrite close_dot. apply @is_derive_scal. apply sh_density_derive, H.
Qed.
Lemma tri_force_derive B a lam m x d u : proper B x ->
  is_derive (fun s => tri_dot (tri_gradient (at_tri B a lam m (tri_line x d s))) u) 0 (tri_dot (tri_close (tri_product (at_tri B a lam m x) d)) u).
Proof.
  intros HP. pose proof (proper_gram B x HP) as H. pose proof (gram_line_pos _ (m2_m23 B (tri_shape d)) H) as L.
  eapply is_derive_ext_loc with (f := fun s => a * m23_inner (sh_stress lam m (m23_line (m2_m23 B (tri_shape x)) (m2_m23 B (tri_shape d)) s)) (m2_m23 B (tri_shape u))).
  - eapply filter_imp; [|exact L]. intros s Hs. cbv beta in Hs |- *. rewrite <- shape_line2 in Hs |- *. rewrite tri_gradient_pos by exact Hs. rewrite close_dot. reflexivity.
  - rewrite tri_product_pos by exact H. rewrite close_dot. apply @is_derive_scal. apply sh_stress_derive, H.
Qed.

(** * Hessian blocks *)
Definition tri_axis (i j : nat) : tri3 := let u := v3_axis j in match i with O => Tri3 u v3_0 v3_0 | 1%nat => Tri3 v3_0 u v3_0 | _ => Tri3 v3_0 v3_0 u end.
Lemma lt3_cases (P : nat -> Prop) n : (n < 3)%nat -> P 0%nat -> P 1%nat -> P 2%nat -> P n.
Proof. intros H A B C. destruct n as [|[|[|n]]]; [assumption|assumption|assumption|lia]. Qed.
Lemma tri_get_axis t n r : (n < 3)%nat -> (r < 3)%nat -> tri_dot t (tri_axis n r) = tri_get t n r.
Proof.
  intros Hn Hr. revert r Hr. apply (lt3_cases (fun n => forall r, (r < 3)%nat -> tri_dot t (tri_axis n r) = tri_get t n r) n Hn); intros r Hr;
  apply (lt3_cases (fun r => tri_dot t (tri_axis _ r) = tri_get t _ r) r Hr); cbv [tri_axis v3_axis tri_get v3_get]; d2; un2; ring.
Qed.
Definition stiff (lam m : R) (F : m23) (D U : m23) : R := m23_inner (sh_dstress lam m F D) U.
Lemma stiff_sym lam m F D U : stiff lam m F D U = stiff lam m F U D.
Proof.
  unfold stiff. rewrite !dstress_inner. cbv zeta. rewrite inv_gram. cbn [m00 m01 m10 m11]. unfold m23_inner.
  replace (v3_dot (w0 U) (w0 D)) with (v3_dot (w0 D) (w0 U)) by (d2; un2; ring). replace (v3_dot (w1 U) (w1 D)) with (v3_dot (w1 D) (w1 U)) by (d2; un2; ring). ring.
Qed.
Lemma stiff_sum lam m F D B d : stiff lam m F D (m2_m23 B (tri_shape d)) = sum3 (fun k => sum3 (fun c => stiff lam m F D (m2_m23 B (tri_shape (tri_axis k c))) * tri_get d k c)).
Proof. unfold stiff. generalize (sh_dstress lam m F D). intros X. cbv [sum3 tri_axis v3_axis tri_get v3_get]. d2. un3. ring. Qed.
Lemma dP_dstress B a lam m x i r : (i < 3)%nat -> (r < 3)%nat -> let F := m2_m23 B (tri_shape x) in
  tri_dP (at_tri B a lam m x) (dual F) (m2_transpose (m2_inv (m23_mul_tr F F))) (normalized (v3_cross (w0 F) (w1 F))) (m - lam * (1 / 2) * ln (gram F)) r i
  = sh_dstress lam m F (m2_m23 B (tri_shape (tri_axis i r))).
Proof.
  intros Hi Hr F. unfold sh_dstress. cbv zeta. rewrite inv_gram.
  generalize (dual F) (normalized (v3_cross (w0 F) (w1 F))) (m - lam * (1 / 2) * ln (gram F)) (v3_dot (w1 F) (w1 F) / gram F) (- v3_dot (w0 F) (w1 F) / gram F) (v3_dot (w0 F) (w0 F) / gram F).
  intros G n alpha c b c'. clear F. revert r Hr. apply (lt3_cases (fun i => forall r, (r < 3)%nat -> tri_dP (at_tri B a lam m x) G (m2_transpose (M2 c b b c')) n alpha r i = _ ) i Hi); intros r Hr;
  revert Hr; destruct r as [|[|[|r]]]; intros Hr; try lia; cbv [tri_dP tri_dF_row comp axis tri_axis v3_axis at_tri T_DX_inv T_lambda T_mu]; d2; un2; apply m23_ext; ring.
Qed.
Lemma tri_h_get B a lam m x n r k c : (n < 3)%nat -> (r < 3)%nat -> (k < 2)%nat -> (c < 3)%nat -> let F := m2_m23 B (tri_shape x) in
  m23_get (tri_h (at_tri B a lam m x) n r) k c = a * stiff lam m F (m2_m23 B (tri_shape (tri_axis n r))) (m2_m23 B (tri_shape (tri_axis k c))).
Proof.
  intros Hn Hr Hk Hc F. unfold tri_h. cbv zeta. rewrite tri_F_at. fold F. rewrite gram_det.
  change (m2_m23 (m2_transpose (m2_transpose (m2_inv (m23_mul_tr F F)))) F) with (m2_m23 (m2_inv (m23_mul_tr F F)) F). change (m2_m23 (m2_inv (m23_mul_tr F F)) F) with (dual F).
  cbn [T_mu T_lambda T_area T_DX_inv at_tri]. change (TriElem (tri_shape x) B a lam m) with (at_tri B a lam m x).
  unfold F. rewrite (dP_dstress B a lam m x n r Hn Hr). fold F. unfold stiff. rewrite <- close_dot.
  rewrite tri_get_axis by lia. destruct k as [|[|k]]; [| |lia]; reflexivity.
Qed.
Lemma tri_hessian_lower B a lam m x n k r c : (n < 3)%nat -> (k < 3)%nat -> (r < 3)%nat -> (c < 3)%nat -> lower n k r c = true -> let F := m2_m23 B (tri_shape x) in 0 < gram F ->
  tri_hessian (at_tri B a lam m x) n k r c = a * stiff lam m F (m2_m23 B (tri_shape (tri_axis n r))) (m2_m23 B (tri_shape (tri_axis k c))).
Proof.
  intros Hn Hk Hr Hc Hl F H. unfold tri_hessian. rewrite tri_F_at, gram_det. fold F. destruct (Rlt_dec 0 (gram F)); [|contradiction].
  destruct (Nat.ltb_spec k 2) as [Hk2|Hk2].
  - unfold lower in Hl. rewrite (Nat.eqb_sym n k), Hl. apply tri_h_get; assumption.
  - assert (k = 2)%nat as -> by lia. unfold lower in Hl. assert (n = 2)%nat as ->.
    { apply orb_true_iff in Hl. destruct Hl as [Hl|Hl]; [apply Nat.ltb_lt in Hl; lia|]. apply andb_true_iff in Hl. destruct Hl as [Hl _]. apply Nat.eqb_eq in Hl. lia. }
    cbn [Nat.eqb]. rewrite !(tri_h_get B a lam m x) by lia. fold F. unfold stiff. set (X := sh_dstress lam m F _). clearbody X. clear - Hc.
    destruct c as [|[|[|c]]]; [| | |lia]; cbv [tri_axis v3_axis]; d2; un3; ring.
Qed.
Lemma tri_hessian_sym B a lam m x n k r c : (n < 3)%nat -> (k < 3)%nat -> (r < 3)%nat -> (c < 3)%nat -> let F := m2_m23 B (tri_shape x) in 0 < gram F ->
  sym_entry (tri_hessian (at_tri B a lam m x)) n k r c = a * stiff lam m F (m2_m23 B (tri_shape (tri_axis n r))) (m2_m23 B (tri_shape (tri_axis k c))).
Proof.
  intros Hn Hk Hr Hc F H. unfold sym_entry. destruct (lower n k r c) eqn:E; [apply tri_hessian_lower; assumption|].
  rewrite stiff_sym. apply tri_hessian_lower; try assumption. revert E. unfold lower.
  rewrite orb_false_iff, orb_true_iff, andb_true_iff, andb_false_iff, Nat.ltb_ge, Nat.ltb_lt, !Nat.eqb_eq, Nat.leb_le, Nat.eqb_neq, Nat.leb_gt. lia.
Qed.
Lemma tri_block B a lam m x d n r : (n < 3)%nat -> (r < 3)%nat -> 0 < gram (m2_m23 B (tri_shape x)) ->
  tri_sym_apply (tri_hessian (at_tri B a lam m x)) d n r = tri_get (tri_close (tri_product (at_tri B a lam m x) d)) n r.
Proof.
  intros Hn Hr H. rewrite <- tri_get_axis by assumption. rewrite tri_product_pos by exact H. rewrite close_dot. set (F := m2_m23 B (tri_shape x)) in *.
  change (m23_inner (sh_dstress lam m F (m2_m23 B (tri_shape d))) (m2_m23 B (tri_shape (tri_axis n r)))) with (stiff lam m F (m2_m23 B (tri_shape d)) (m2_m23 B (tri_shape (tri_axis n r)))).
  rewrite stiff_sym, stiff_sum. unfold tri_sym_apply, sum3. unfold F. rewrite !tri_hessian_sym by (lia || exact H). ring.
Qed.

(** * Invariances and rest shapes *)
Lemma rows_orth Q u w : m3_mul (m3_transpose Q) Q = m3_I -> v3_dot (m3_mulv Q u) (m3_mulv Q w) = v3_dot u w.
Proof.
  intros H. assert (E : v3_dot (m3_mulv Q u) (m3_mulv Q w) = v3_dot u (m3_mulv (m3_mul (m3_transpose Q) Q) w)) by (clear H; destruct Q as [[] [] []], u, w; unm; ring).
  rewrite E, H. destruct u, w. unm. ring.
Qed.
Definition m23_map (f : v3 -> v3) (A : m23) : m23 := M23 (f (w0 A)) (f (w1 A)).
Lemma shape_rigid2 B Q c x : m2_m23 B (tri_shape (tri_map (rigid Q c) x)) = m23_map (m3_mulv Q) (m2_m23 B (tri_shape x)).
Proof. destruct Q as [[] [] []]. unfold m23_map, rigid, tri_map. d2. un2. unm. un2. apply m23_ext; ring. Qed.
Lemma tri_energy_rigid B a lam m x Q c : m3_mul Q (m3_transpose Q) = m3_I -> tri_energy (at_tri B a lam m (tri_map (rigid Q c) x)) = tri_energy (at_tri B a lam m x).
Proof.
  intros H. unfold tri_energy. cbv zeta. rewrite !tri_F_at, shape_rigid2. assert (E : m23_mul_tr (m23_map (m3_mulv Q) (m2_m23 B (tri_shape x))) (m23_map (m3_mulv Q) (m2_m23 B (tri_shape x))) = m23_mul_tr (m2_m23 B (tri_shape x)) (m2_m23 B (tri_shape x))).
  { unfold m23_mul_tr, m23_map. cbn [w0 w1]. rewrite !rows_orth by (apply left_right_inverse; exact H). reflexivity. }
  rewrite E. reflexivity.
Qed.
Lemma tri_close_balance H : tri_total (tri_close H) = v3_0.
Proof. d2. un2. apply v3_ext; ring. Qed.
Lemma tri_close_torque x H : tri_torque x (tri_close H) = v3_add (v3_cross (w0 (tri_shape x)) (w0 H)) (v3_cross (w1 (tri_shape x)) (w1 H)).
Proof. d2. un2. apply v3_ext; ring. Qed.
Lemma tri_pull_torque x B P a : v3_add (v3_cross (w0 (tri_shape x)) (w0 (m23_scale a (m2_m23 (m2_transpose B) P)))) (v3_cross (w1 (tri_shape x)) (w1 (m23_scale a (m2_m23 (m2_transpose B) P))))
  = v3_scale a (v3_add (v3_cross (w0 (m2_m23 B (tri_shape x))) (w0 P)) (v3_cross (w1 (m2_m23 B (tri_shape x))) (w1 P))).
Proof. d2. un2. apply v3_ext; ring. Qed.
Lemma tri_gradient_torque B a lam m x : tri_torque x (tri_gradient (at_tri B a lam m x)) = v3_0 /\ tri_total (tri_gradient (at_tri B a lam m x)) = v3_0.
Proof.
  destruct (Rlt_dec 0 (gram (m2_m23 B (tri_shape x)))) as [H|H].
  - rewrite tri_gradient_pos by exact H. split; [|apply tri_close_balance]. rewrite tri_close_torque, tri_pull_torque. unfold sh_stress, dual. rewrite inv_gram.
    set (F := m2_m23 B (tri_shape x)). generalize (lam * (1 / 2 * ln (gram F)) - m) (v3_dot (w1 F) (w1 F) / gram F) (- v3_dot (w0 F) (w1 F) / gram F) (v3_dot (w0 F) (w0 F) / gram F).
    intros p q r t. destruct F as [[] []]. un2. apply v3_ext; ring.
  - unfold tri_gradient. cbv zeta. rewrite tri_F_at, gram_det. destruct (Rle_dec _ 0); [|lra]. d2. un2. split; apply v3_ext; ring.
Qed.
Lemma trace_gram F : 4 * gram F <= (v3_dot (w0 F) (w0 F) + v3_dot (w1 F) (w1 F)) * (v3_dot (w0 F) (w0 F) + v3_dot (w1 F) (w1 F)).
Proof. unfold gram. generalize (v3_dot (w0 F) (w0 F)) (v3_dot (w1 F) (w1 F)) (v3_dot (w0 F) (w1 F)). intros p q r. pose proof (Rle_0_sqr (p - q)) as A. pose proof (Rle_0_sqr r) as B. unfold Rsqr in A, B. lra. Qed.
Lemma sh_density_bound F : 0 < gram F -> exists t, 0 < t /\ t * t = gram F /\ 2 * t <= v3_dot (w0 F) (w0 F) + v3_dot (w1 F) (w1 F) /\ ln (gram F) = 2 * ln t.
Proof.
  intros H. exists (sqrt (gram F)). pose proof (sqrt_lt_R0 _ H) as P. pose proof (sqrt_sqrt _ (Rlt_le _ _ H)) as Q. split; [exact P|]. split; [exact Q|]. split.
  - pose proof (trace_gram F). pose proof (v3_dot_nonneg (w0 F)). pose proof (v3_dot_nonneg (w1 F)). nra.
  - rewrite <- Q at 1. rewrite ln_mult by exact P. ring.
Qed.
Lemma sh_density_nonneg lam m F : 0 <= lam -> 0 <= m -> 0 < gram F -> 0 <= sh_density lam m F.
Proof.
  intros Hl Hm H. destruct (sh_density_bound F H) as (t & Ht & _ & Hb & E). unfold sh_density. rewrite E. pose proof (ln_le_minus_1 t Ht).
  assert (0 <= m * (v3_dot (w0 F) (w0 F) + v3_dot (w1 F) (w1 F) - 2 - 2 * ln t)) by (apply Rmult_le_pos; lra). assert (0 <= lam * (2 * ln t * (2 * ln t))) by (apply Rmult_le_pos; nra). lra.
Qed.
Lemma sh_density_zero lam m F : 0 <= lam -> 0 < m -> 0 < gram F -> sh_density lam m F = 0 -> isometry F.
Proof.
  intros Hl Hm H Z. destruct (sh_density_bound F H) as (t & Ht & Hq & Hb & E). unfold sh_density in Z. rewrite E in Z. pose proof (ln_le_minus_1 t Ht) as Hln.
  assert (A : 0 <= m * (v3_dot (w0 F) (w0 F) + v3_dot (w1 F) (w1 F) - 2 - 2 * ln t)) by (apply Rmult_le_pos; lra). assert (C : 0 <= lam * (2 * ln t * (2 * ln t))) by (apply Rmult_le_pos; nra).
  assert (Z' : m * (v3_dot (w0 F) (w0 F) + v3_dot (w1 F) (w1 F) - 2 - 2 * ln t) = 0) by lra. apply Rmult_integral in Z'. destruct Z' as [Z'|Z']; [lra|].
  assert (T : t = 1) by (apply ln_eq_minus_1; [exact Ht|]; lra). subst t. rewrite ln_1 in Z'. unfold gram in Hq. unfold isometry.
  set (p := v3_dot (w0 F) (w0 F)) in *. set (q := v3_dot (w1 F) (w1 F)) in *. set (r := v3_dot (w0 F) (w1 F)) in *. assert (q = 2 - p) by lra. subst q. assert ((p - 1) * (p - 1) + r * r = 0) by nra.
  assert (p - 1 = 0) by nra. assert (r = 0) by nra. lra.
Qed.
Lemma isometry_gram F : isometry F -> gram F = 1. Proof. intros (A & B & C). unfold gram. rewrite A, B, C. ring. Qed.
Lemma isometry_density lam m F : isometry F -> sh_density lam m F = 0.
Proof. intros I. unfold sh_density. rewrite (isometry_gram F I), ln_1. destruct I as (A & B & C). rewrite A, B. ring. Qed.
Lemma isometry_stress lam m F : isometry F -> sh_stress lam m F = m23_0.
Proof.
  intros I. unfold sh_stress, dual. rewrite inv_gram, (isometry_gram F I), ln_1. destruct I as (A & B & C). rewrite A, B, C. d2. un2. apply m23_ext; field.
Qed.
Lemma sub_sq w u k i : v3_dot (v3_sub w (v3_scale k (v3_scale i u))) (v3_sub w (v3_scale k (v3_scale i u))) = v3_dot w w - 2 * k * (v3_dot u w * i) + k * k * (v3_dot u u * (i * i)).
Proof. d2. un2. ring. Qed.
Lemma isotropic_metric M : v3_cross (w0 M) (w1 M) <> v3_0 -> let S := isotropic_shape M in
  m00 S * m00 S + m01 S * m01 S = v3_dot (w0 M) (w0 M) /\ m10 S * m10 S + m11 S * m11 S = v3_dot (w1 M) (w1 M) /\ m00 S * m10 S + m01 S * m11 S = v3_dot (w0 M) (w1 M) /\ 0 < m2_det S.
Proof.
  intros H S. assert (L : gram M <> 0) by (rewrite gram_cross; intros E; apply H, v3_dot_zero, E). assert (LP : 0 < gram M) by (pose proof (v3_dot_nonneg (v3_cross (w0 M) (w1 M))); rewrite <- gram_cross in *; lra).
  assert (P : 0 < v3_dot (w0 M) (w0 M)). { pose proof (v3_dot_nonneg (w0 M)) as [P|P]; [exact P|]. exfalso. unfold gram in LP. rewrite <- P in LP. nra. }
  unfold S, isotropic_shape. cbn [m00 m01 m10 m11]. set (l := v3_norm (w0 M)). assert (Hl : 0 < l) by (apply sqrt_lt_R0, P). assert (Hq : l * l = v3_dot (w0 M) (w0 M)) by apply norm_sq.
  assert (E1 : v3_dot (v3_scale (/ l) (w0 M)) (w1 M) = v3_dot (w0 M) (w1 M) / l) by (clear; d2; un2; unfold Rdiv; ring). rewrite E1.
  set (h := v3_norm _). assert (Hh : h * h = gram M / (l * l)).
  { unfold h. rewrite norm_sq. unfold gram. transitivity (v3_dot (w1 M) (w1 M) - 2 * (v3_dot (w0 M) (w1 M) / l * (v3_dot (w0 M) (w1 M) / l)) + v3_dot (w0 M) (w1 M) / l * (v3_dot (w0 M) (w1 M) / l) * (v3_dot (w0 M) (w0 M) / (l * l))).
    - rewrite sub_sq. unfold Rdiv. rewrite Rinv_mult. ring.
    - rewrite <- Hq. field. lra. }
  split; [rewrite <- Hq; ring|]. split; [|split].
  - rewrite Hh. unfold gram. rewrite <- Hq. field. lra.
  - field. lra.
  - unfold m2_det. cbn [m00 m01 m10 m11]. assert (0 < h). { assert (0 <= h) by apply sqrt_pos. assert (0 < h * h) by (rewrite Hh; apply Rdiv_lt_0_compat; nra). nra. } nra.
Qed.
