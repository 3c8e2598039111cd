From Coq Require Import Reals List Arith Bool Lra Lia Psatz.
From Coquelicot Require Import Coquelicot.
From Verif Require Import Calc Vec3 Mat3 RList ElasticModel ElasticSpec.
Import ListNotations.
Local Open Scope R_scope.

(** * Algebra *)
Ltac unm := cbv [m3_line m3_add m3_sub m3_scale m3_transpose m3_mulv m3_mul m3_trace m3_det m3_inner m3_cof m3_I m3_0 skew_blocks
  v3_add v3_sub v3_neg v3_scale v3_dot v3_cross v3_0 shape_matrix tet_dot tet_add tet_sub tet_scale tet_line close_rows
  r0 r1 r2 vx vy vz t0 t1 t2 t3].
Ltac dm := repeat match goal with A : m3 |- _ => destruct A | v : v3 |- _ => destruct v | t : tet |- _ => destruct t end.
Ltac mring := intros; dm; unm; try (apply f_equal3 || idtac); try (apply f_equal4 || idtac).
Lemma m3_ext a b c d e f g h i a' b' c' d' e' f' g' h' i' : a = a' -> b = b' -> c = c' -> d = d' -> e = e' -> f = f' -> g = g' -> h = h' -> i = i' ->
  M3 (V3 a b c) (V3 d e f) (V3 g h i) = M3 (V3 a' b' c') (V3 d' e' f') (V3 g' h' i').
Proof. intros. subst. reflexivity. Qed.

Lemma det_line F D s : m3_det (m3_line F D s) = m3_det F + s * m3_inner (m3_cof F) D + s * s * m3_inner F (m3_cof D) + s * s * s * m3_det D.
Proof. dm. unm. ring. Qed.
Lemma norm_line F D s : m3_inner (m3_line F D s) (m3_line F D s) = m3_inner F F + s * (2 * m3_inner F D) + s * s * m3_inner D D.
Proof. dm. unm. ring. Qed.
Lemma cof_line F D s M : m3_inner (m3_cof (m3_line F D s)) M = m3_inner (m3_cof F) M + s * m3_inner (skew_blocks F D) M + s * s * m3_inner (m3_cof D) M.
Proof. dm. unm. ring. Qed.
Lemma inner_line F D s M : m3_inner (m3_line F D s) M = m3_inner F M + s * m3_inner D M.
Proof. dm. unm. ring. Qed.
Lemma inner_add A B M : m3_inner (m3_add A B) M = m3_inner A M + m3_inner B M.
Proof. dm. unm. ring. Qed.
Lemma inner_scale s A M : m3_inner (m3_scale s A) M = s * m3_inner A M.
Proof. dm. unm. ring. Qed.
Lemma inner_sym A M : m3_inner A M = m3_inner M A.
Proof. dm. unm. ring. Qed.
Lemma mul_line B X D s : m3_mul B (m3_line X D s) = m3_line (m3_mul B X) (m3_mul B D) s.
Proof. dm. unm. apply m3_ext; ring. Qed.
Lemma shape_line x d s : shape_matrix (tet_line x d s) = m3_line (shape_matrix x) (shape_matrix d) s.
Proof. dm. unm. apply m3_ext; ring. Qed.
Lemma close_rows_dot v B P d : tet_dot (close_rows (m3_scale v (m3_mul (m3_transpose B) P))) d = v * m3_inner P (m3_mul B (shape_matrix d)).
Proof. dm. unm. ring. Qed.
Lemma cof_product F D M : m3_inner (skew_blocks F D) M * m3_det F - m3_inner (m3_cof F) M * m3_inner (m3_cof F) D
  = - m3_inner (m3_mul (m3_cof F) (m3_mul (m3_transpose D) (m3_cof F))) M.
Proof. dm. unm. ring. Qed.
Lemma trace_cof F D : m3_trace (m3_mul (m3_transpose D) (m3_cof F)) = m3_inner (m3_cof F) D.
Proof. dm. unm. ring. Qed.
Lemma det_mul A B : m3_det (m3_mul A B) = m3_det A * m3_det B.
Proof. dm. unm. ring. Qed.
Lemma cof_mul A B : m3_cof (m3_mul A B) = m3_mul (m3_cof A) (m3_cof B).
Proof. dm. unm. apply m3_ext; ring. Qed.
Lemma tr_cof A : m3_mul (m3_transpose A) (m3_cof A) = m3_scale (m3_det A) m3_I.
Proof. dm. unm. apply m3_ext; ring. Qed.
Lemma cof_tr A : m3_mul (m3_cof A) (m3_transpose A) = m3_scale (m3_det A) m3_I.
Proof. dm. unm. apply m3_ext; ring. Qed.
Lemma mul_assoc A B C : m3_mul A (m3_mul B C) = m3_mul (m3_mul A B) C.
Proof. dm. unm. apply m3_ext; ring. Qed.
Lemma mul_scale_l s A B : m3_mul (m3_scale s A) B = m3_scale s (m3_mul A B).
Proof. dm. unm. apply m3_ext; ring. Qed.
Lemma mul_scale_r s A B : m3_mul A (m3_scale s B) = m3_scale s (m3_mul A B).
Proof. dm. unm. apply m3_ext; ring. Qed.
Lemma mul_add_r A B C : m3_mul A (m3_add B C) = m3_add (m3_mul A B) (m3_mul A C).
Proof. dm. unm. apply m3_ext; ring. Qed.
Lemma mul_I_l A : m3_mul m3_I A = A.
Proof. dm. unm. apply m3_ext; ring. Qed.
Lemma mul_I_r A : m3_mul A m3_I = A.
Proof. dm. unm. apply m3_ext; ring. Qed.
Lemma scale_scale a b A : m3_scale a (m3_scale b A) = m3_scale (a * b) A.
Proof. dm. unm. apply m3_ext; ring. Qed.
Lemma scale_1 A : m3_scale 1 A = A.
Proof. dm. unm. apply m3_ext; ring. Qed.
Lemma transpose_mul A B : m3_transpose (m3_mul A B) = m3_mul (m3_transpose B) (m3_transpose A).
Proof. dm. unm. apply m3_ext; ring. Qed.
Lemma transpose_transpose A : m3_transpose (m3_transpose A) = A.
Proof. dm. reflexivity. Qed.
Lemma transpose_scale s A : m3_transpose (m3_scale s A) = m3_scale s (m3_transpose A).
Proof. dm. reflexivity. Qed.
Lemma det_transpose A : m3_det (m3_transpose A) = m3_det A.
Proof. dm. unm. ring. Qed.

Lemma locally_pos (f : R -> R) (x : R) : continuous f x -> 0 < f x -> locally x (fun s => 0 < f s).
Proof.
  intros Hc Hp. apply (Hc (fun u => 0 < u)). apply (open_gt 0 (f x)). exact Hp.
Qed.
Lemma det_line_pos F D : 0 < m3_det F -> locally 0 (fun s => 0 < m3_det (m3_line F D s)).
Proof.
  intros H. apply (locally_pos (fun s => m3_det (m3_line F D s))).
  - apply continuous_ext with (f := fun s => m3_det F + s * m3_inner (m3_cof F) D + s * s * m3_inner F (m3_cof D) + s * s * s * m3_det D); [intros s; symmetry; apply det_line|].
    apply (ex_derive_continuous (fun s => m3_det F + s * m3_inner (m3_cof F) D + s * s * m3_inner F (m3_cof D) + s * s * s * m3_det D)). auto_derive. exact I.
  - rewrite det_line. lra.
Qed.

(** * Neo-Hookean *)
Definition nh_density (lam m : R) (F : m3) : R := let J := m3_det F in 1 / 2 * m * (m3_inner F F - 3) - m * ln J + 1 / 2 * lam * ln J * ln J.
Definition nh_stress (lam m : R) (F : m3) : m3 := m3_add (m3_scale m F) (m3_scale (lam * ln (m3_det F) - m) (m3_inv_transpose F)).
Definition nh_dstress (lam m : R) (F D : m3) : m3 :=
  let G := m3_inv_transpose F in let E := m3_mul (m3_transpose D) G in
  m3_add (m3_add (m3_scale m D) (m3_scale (m - lam * ln (m3_det F)) (m3_mul G E))) (m3_scale (m3_trace E * lam) G).

Lemma nh_density_derive lam m F D : 0 < m3_det F -> is_derive (fun s => nh_density lam m (m3_line F D s)) 0 (m3_inner (nh_stress lam m F) D).
Proof.
  intros HJ. unfold nh_density. cbv zeta.
  apply is_derive_ext with (f := fun s =>
    1 / 2 * m * (m3_inner F F + s * (2 * m3_inner F D) + s * s * m3_inner D D - 3)
    - m * ln (m3_det F + s * m3_inner (m3_cof F) D + s * s * m3_inner F (m3_cof D) + s * s * s * m3_det D)
    + 1 / 2 * lam * ln (m3_det F + s * m3_inner (m3_cof F) D + s * s * m3_inner F (m3_cof D) + s * s * s * m3_det D)
      * ln (m3_det F + s * m3_inner (m3_cof F) D + s * s * m3_inner F (m3_cof D) + s * s * s * m3_det D)).
  { intros s. rewrite det_line, norm_line. reflexivity. }
  unfold nh_stress, m3_inv_transpose. rewrite inner_add, !inner_scale.
  generalize (m3_inner (m3_cof F) D) (m3_inner F (m3_cof D)) (m3_det D) (m3_inner F D) (m3_inner D D) (m3_inner F F). intros j1 j2 j3 a b c.
  revert HJ. generalize (m3_det F). intros J HJ. auto_derive.
  - assert (HE : J + 0 * j1 + 0 * 0 * j2 + 0 * 0 * 0 * j3 = J) by ring. rewrite HE. tauto.
  - replace (J + 0 * j1 + 0 * 0 * j2 + 0 * 0 * 0 * j3) with J by ring. field. lra.
Qed.
Lemma nh_stress_derive lam m F D M : 0 < m3_det F -> is_derive (fun s => m3_inner (nh_stress lam m (m3_line F D s)) M) 0 (m3_inner (nh_dstress lam m F D) M).
Proof.
  intros HJ. unfold nh_stress, nh_dstress, m3_inv_transpose. cbv zeta.
  apply is_derive_ext with (f := fun s => m * (m3_inner F M + s * m3_inner D M) +
    (lam * ln (m3_det F + s * m3_inner (m3_cof F) D + s * s * m3_inner F (m3_cof D) + s * s * s * m3_det D) - m) *
    (/ (m3_det F + s * m3_inner (m3_cof F) D + s * s * m3_inner F (m3_cof D) + s * s * s * m3_det D) *
     (m3_inner (m3_cof F) M + s * m3_inner (skew_blocks F D) M + s * s * m3_inner (m3_cof D) M))).
  { intros s. rewrite inner_add, !inner_scale, inner_line, det_line, cof_line. reflexivity. }
  rewrite !inner_add, !inner_scale. rewrite mul_scale_r, mul_scale_l, mul_scale_r, !inner_scale.
  assert (Ht : m3_trace (m3_scale (/ m3_det F) (m3_mul (m3_transpose D) (m3_cof F))) = / m3_det F * m3_inner (m3_cof F) D).
  { rewrite <- trace_cof. generalize (m3_mul (m3_transpose D) (m3_cof F)). intros A. dm. unm. ring. }
  rewrite Ht. pose proof (cof_product F D M) as Hp.
  revert Hp. generalize (m3_inner (m3_mul (m3_cof F) (m3_mul (m3_transpose D) (m3_cof F))) M) (m3_inner (skew_blocks F D) M) (m3_inner (m3_cof F) M) (m3_inner (m3_cof F) D)
    (m3_inner F (m3_cof D)) (m3_det D) (m3_inner F M) (m3_inner D M) (m3_inner (m3_cof D) M).
  intros q c1 c0 j1 j2 j3 f d c2 Hp. revert HJ Hp. generalize (m3_det F). intros J HJ Hp. auto_derive.
  - assert (HE : J + 0 * j1 + 0 * 0 * j2 + 0 * 0 * 0 * j3 = J) by ring. rewrite HE. split; [exact HJ|]. split; [lra|exact I].
  - replace (J + 0 * j1 + 0 * 0 * j2 + 0 * 0 * 0 * j3) with J by ring.
    assert (Hq : q = c0 * j1 - c1 * J) by lra. rewrite Hq. field. lra.
Qed.

(** * Stable Neo-Hookean *)
Definition snh_density (lam m : R) (F : m3) : R :=
  let I := m3_inner F F in let j := m3_det F - 1 - 75 / 100 * m / lam in 1 / 2 * (m * (I - 3 - ln (I + 1)) + lam * j * j).
Definition snh_dstress (lam m : R) (F D : m3) : m3 :=
  let I := m3_inner F F in
  m3_add (m3_scale m (m3_add (m3_scale (I / (I + 1)) D) (m3_scale (m3_inner F D * 2 / ((I + 1) * (I + 1))) F)))
    (m3_scale lam (m3_add (m3_scale (m3_inner (m3_cof F) D) (m3_cof F)) (m3_scale (m3_det F - (1 + 75 / 100 * m / lam)) (skew_blocks F D)))).
Lemma inner_self_nonneg A : 0 <= m3_inner A A.
Proof. dm. unm. repeat apply Rplus_le_le_0_compat; apply Rle_0_sqr. Qed.

Lemma snh_density_derive lam m F D : is_derive (fun s => snh_density lam m (m3_line F D s)) 0 (m3_inner (snh_stress lam m F) D).
Proof.
  pose proof (inner_self_nonneg F) as HI. unfold snh_density, snh_stress. cbv zeta.
  apply is_derive_ext with (f := fun s =>
    1 / 2 * (m * (m3_inner F F + s * (2 * m3_inner F D) + s * s * m3_inner D D - 3 - ln (m3_inner F F + s * (2 * m3_inner F D) + s * s * m3_inner D D + 1))
    + lam * (m3_det F + s * m3_inner (m3_cof F) D + s * s * m3_inner F (m3_cof D) + s * s * s * m3_det D - 1 - 75 / 100 * m / lam)
      * (m3_det F + s * m3_inner (m3_cof F) D + s * s * m3_inner F (m3_cof D) + s * s * s * m3_det D - 1 - 75 / 100 * m / lam))).
  { intros s. rewrite det_line, norm_line. reflexivity. }
  rewrite inner_add, !inner_scale. revert HI.
  generalize (m3_inner (m3_cof F) D) (m3_inner F (m3_cof D)) (m3_det D) (m3_inner F D) (m3_inner D D) (m3_inner F F) (m3_det F) (75 / 100 * m / lam). intros j1 j2 j3 a b c J al HI. auto_derive.
  - replace (c + 0 * (2 * a) + 0 * 0 * b + 1) with (c + 1) by ring. lra.
  - replace (c + 0 * (2 * a) + 0 * 0 * b + 1) with (c + 1) by ring. field. lra.
Qed.
Lemma snh_stress_derive lam m F D M : is_derive (fun s => m3_inner (snh_stress lam m (m3_line F D s)) M) 0 (m3_inner (snh_dstress lam m F D) M).
Proof.
  pose proof (inner_self_nonneg F) as HI. unfold snh_dstress, snh_stress. cbv zeta.
  apply is_derive_ext with (f := fun s =>
    m * ((m3_inner F F + s * (2 * m3_inner F D) + s * s * m3_inner D D) / (m3_inner F F + s * (2 * m3_inner F D) + s * s * m3_inner D D + 1)) * (m3_inner F M + s * m3_inner D M)
    + lam * (m3_det F + s * m3_inner (m3_cof F) D + s * s * m3_inner F (m3_cof D) + s * s * s * m3_det D - (1 + 75 / 100 * m / lam))
      * (m3_inner (m3_cof F) M + s * m3_inner (skew_blocks F D) M + s * s * m3_inner (m3_cof D) M)).
  { intros s. rewrite inner_add, !inner_scale, norm_line, inner_line, det_line, cof_line. reflexivity. }
  rewrite !inner_add, !inner_scale, !inner_add, !inner_scale. revert HI.
  generalize (m3_inner (skew_blocks F D) M) (m3_inner (m3_cof F) M) (m3_inner (m3_cof F) D)
    (m3_inner F (m3_cof D)) (m3_det D) (m3_inner F M) (m3_inner D M) (m3_inner (m3_cof D) M) (m3_inner F D) (m3_inner D D) (m3_inner F F) (m3_det F) (1 + 75 / 100 * m / lam).
  intros c1 c0 j1 j2 j3 f d c2 a b c J al HI. auto_derive.
  - replace (c + 0 * (2 * a) + 0 * 0 * b + 1) with (c + 1) by ring. apply Rgt_not_eq; lra.
  - field. lra.
Qed.

(** * Elements *)
Lemma elem_gradient_line B v lam m x d s : deformation_gradient (at_shape B v lam m (tet_line x d s)) = m3_line (m3_mul B (shape_matrix x)) (m3_mul B (shape_matrix d)) s.
Proof. unfold deformation_gradient, at_shape. cbn [Dx DX_inv]. rewrite shape_line. apply mul_line. Qed.

Lemma nh_energy_fin e : 0 < m3_det (deformation_gradient e) -> nh_energy e = Fin (vol e * nh_density (lambda e) (mu e) (deformation_gradient e)).
Proof. intros H. unfold nh_energy. cbv zeta. destruct (Rle_dec (m3_det (deformation_gradient e)) 0); [lra|]. reflexivity. Qed.
Lemma nh_gradient_some e : 0 < m3_det (deformation_gradient e) ->
  nh_gradient e = Some (close_rows (m3_scale (vol e) (m3_mul (m3_transpose (DX_inv e)) (nh_stress (lambda e) (mu e) (deformation_gradient e))))).
Proof. intros H. unfold nh_gradient. cbv zeta. destruct (Rle_dec (m3_det (deformation_gradient e)) 0); [lra|]. reflexivity. Qed.
Lemma nh_product_pos e dx : 0 < m3_det (deformation_gradient e) ->
  nh_product e dx = m3_scale (vol e) (m3_mul (m3_transpose (DX_inv e)) (nh_dstress (lambda e) (mu e) (deformation_gradient e) (deformation_gradient_differential e dx))).
Proof. intros H. unfold nh_product. cbv zeta. destruct (Rlt_dec 0 (m3_det (deformation_gradient e))); [reflexivity|lra]. Qed.

(** What a model has to provide for the mesh statements below. *)
Definition good_model (M : tet_model) : Prop :=
  (forall B v lam m x d g, m_gradient M (at_shape B v lam m x) = Some g ->
     locally 0 (fun s => exists a, m_energy M (at_shape B v lam m (tet_line x d s)) = Fin a) /\
     is_derive (fun s => fin (m_energy M (at_shape B v lam m (tet_line x d s)))) 0 (tet_dot g d)) /\
  (forall B v lam m x, exists q : m3 -> m3 -> R,
     (forall d w, tet_dot (close_rows (m_product M (at_shape B v lam m x) d)) w = q (shape_matrix d) (shape_matrix w)) /\
     (forall D W, q D W = q W D) /\ (forall D D' s W, q (m3_line D D' s) W = q D W + s * q D' W)).

Lemma nh_gradient_derive B v lam m x d g : nh_gradient (at_shape B v lam m x) = Some g ->
  locally 0 (fun s => exists a, nh_energy (at_shape B v lam m (tet_line x d s)) = Fin a) /\
  is_derive (fun s => fin (nh_energy (at_shape B v lam m (tet_line x d s)))) 0 (tet_dot g d).
Proof.
  intros Hg. set (F := m3_mul B (shape_matrix x)). set (D := m3_mul B (shape_matrix d)).
  assert (HJ : 0 < m3_det F).
  { unfold nh_gradient in Hg. cbv zeta in Hg. change (deformation_gradient (at_shape B v lam m x)) with F in Hg. destruct (Rle_dec (m3_det F) 0); [discriminate Hg|lra]. }
  rewrite nh_gradient_some in Hg by exact HJ. injection Hg as <-. pose proof (det_line_pos F D HJ) as Hl.
  assert (He : locally 0 (fun s => nh_energy (at_shape B v lam m (tet_line x d s)) = Fin (v * nh_density lam m (m3_line F D s)))).
  { eapply filter_imp; [|exact Hl]. intros s Hs. cbv beta in Hs. rewrite nh_energy_fin; rewrite elem_gradient_line; [reflexivity|exact Hs]. }
  split; [eapply filter_imp; [|exact He]; intros s Hs; eexists; exact Hs|].
  apply is_derive_ext_loc with (f := fun s => v * nh_density lam m (m3_line F D s)).
  - eapply filter_imp; [|exact He]. intros s Hs. cbv beta in Hs. rewrite Hs. reflexivity.
  - change (DX_inv (at_shape B v lam m x)) with B. change (vol (at_shape B v lam m x)) with v. rewrite close_rows_dot.
    apply @is_derive_scal. exact (nh_density_derive lam m F D HJ).
Qed.
Lemma snh_gradient_derive B v lam m x d g : snh_gradient (at_shape B v lam m x) = Some g ->
  is_derive (fun s => fin (snh_energy (at_shape B v lam m (tet_line x d s)))) 0 (tet_dot g d).
Proof.
  intros Hg. injection Hg as <-. change (DX_inv (at_shape B v lam m x)) with B. change (vol (at_shape B v lam m x)) with v. rewrite close_rows_dot.
  apply is_derive_ext with (f := fun s => v * snh_density lam m (m3_line (m3_mul B (shape_matrix x)) (m3_mul B (shape_matrix d)) s)).
  - intros s. unfold snh_energy. cbv zeta. rewrite elem_gradient_line. cbn [fin]. unfold snh_density. cbv zeta. cbn [vol mu lambda at_shape]. ringR.
  - apply @is_derive_scal. apply snh_density_derive.
Qed.

Lemma nh_form_sym G al la m D W : m * m3_inner D W + al * m3_inner (m3_mul G (m3_mul (m3_transpose D) G)) W + m3_trace (m3_mul (m3_transpose D) G) * la * m3_inner G W
  = m * m3_inner W D + al * m3_inner (m3_mul G (m3_mul (m3_transpose W) G)) D + m3_trace (m3_mul (m3_transpose W) G) * la * m3_inner G D.
Proof. dm. unm. ring. Qed.
Lemma nh_form_lin G al la m D D' s W : 
  m * m3_inner (m3_line D D' s) W + al * m3_inner (m3_mul G (m3_mul (m3_transpose (m3_line D D' s)) G)) W + m3_trace (m3_mul (m3_transpose (m3_line D D' s)) G) * la * m3_inner G W
  = (m * m3_inner D W + al * m3_inner (m3_mul G (m3_mul (m3_transpose D) G)) W + m3_trace (m3_mul (m3_transpose D) G) * la * m3_inner G W)
   + s * (m * m3_inner D' W + al * m3_inner (m3_mul G (m3_mul (m3_transpose D') G)) W + m3_trace (m3_mul (m3_transpose D') G) * la * m3_inner G W).
Proof. dm. unm. ring. Qed.
Lemma nh_dstress_inner lam m F D W : m3_inner (nh_dstress lam m F D) W =
  m * m3_inner D W + (m - lam * ln (m3_det F)) * m3_inner (m3_mul (m3_inv_transpose F) (m3_mul (m3_transpose D) (m3_inv_transpose F))) W
  + m3_trace (m3_mul (m3_transpose D) (m3_inv_transpose F)) * lam * m3_inner (m3_inv_transpose F) W.
Proof. unfold nh_dstress. cbv zeta. rewrite !inner_add, !inner_scale. reflexivity. Qed.
Lemma close_zero w : tet_dot (close_rows m3_0) w = 0.
Proof. dm. unm. ring. Qed.

Lemma nh_good : good_model neo_hookean.
Proof.
  split; [exact nh_gradient_derive|]. intros B v lam m x. destruct (Rlt_dec 0 (m3_det (m3_mul B (shape_matrix x)))) as [HJ|HJ].
  - exists (fun D W => v * m3_inner (nh_dstress lam m (m3_mul B (shape_matrix x)) (m3_mul B D)) (m3_mul B W)). split; [|split].
    + intros d w. change (m_product neo_hookean) with nh_product. rewrite nh_product_pos by exact HJ. apply close_rows_dot.
    + intros D W. rewrite !nh_dstress_inner. f_equal. apply nh_form_sym.
    + intros D D' s W. rewrite mul_line, !nh_dstress_inner, nh_form_lin. ring.
  - exists (fun _ _ => 0). split; [|split; [reflexivity|intros; ring]].
    intros d w. change (m_product neo_hookean) with nh_product. unfold nh_product. cbv zeta.
    destruct (Rlt_dec 0 (m3_det (deformation_gradient (at_shape B v lam m x)))) as [H|_]; [elim HJ; exact H|]. apply close_zero.
Qed.

Lemma skew_sym F D W : m3_inner (skew_blocks F D) W = m3_inner (skew_blocks F W) D.
Proof. dm. unm. ring. Qed.
Lemma skew_lin F D D' s W : m3_inner (skew_blocks F (m3_line D D' s)) W = m3_inner (skew_blocks F D) W + s * m3_inner (skew_blocks F D') W.
Proof. dm. unm. ring. Qed.
Lemma inner_line_r F D s M : m3_inner M (m3_line F D s) = m3_inner M F + s * m3_inner M D.
Proof. dm. unm. ring. Qed.
Lemma snh_dstress_inner lam m F D W : m3_inner (snh_dstress lam m F D) W =
  m * (m3_inner F F / (m3_inner F F + 1) * m3_inner D W + m3_inner F D * 2 / ((m3_inner F F + 1) * (m3_inner F F + 1)) * m3_inner F W)
  + lam * (m3_inner (m3_cof F) D * m3_inner (m3_cof F) W + (m3_det F - (1 + 75 / 100 * m / lam)) * m3_inner (skew_blocks F D) W).
Proof. unfold snh_dstress. cbv zeta. rewrite !inner_add, !inner_scale, !inner_add, !inner_scale. reflexivity. Qed.
Lemma snh_product_eq e dx : snh_product e dx = m3_scale (vol e) (m3_mul (m3_transpose (DX_inv e)) (snh_dstress (lambda e) (mu e) (deformation_gradient e) (deformation_gradient_differential e dx))).
Proof. reflexivity. Qed.
Lemma snh_good : good_model stable_neo_hookean.
Proof.
  split.
  - intros B v lam m x d g H. split; [|exact (snh_gradient_derive B v lam m x d g H)]. exists (mkposreal 1 Rlt_0_1). intros s _. eexists. reflexivity.
  - intros B v lam m x. exists (fun D W => v * m3_inner (snh_dstress lam m (m3_mul B (shape_matrix x)) (m3_mul B D)) (m3_mul B W)). split; [|split].
    + intros d w. change (m_product stable_neo_hookean) with snh_product. rewrite snh_product_eq. apply close_rows_dot.
    + intros D W. rewrite !snh_dstress_inner. rewrite (skew_sym _ (m3_mul B W)), (inner_sym (m3_mul B W) (m3_mul B D)). unfold Rdiv. ring.
    + intros D D' s W. rewrite mul_line, !snh_dstress_inner, skew_lin, inner_line, !inner_line_r. unfold Rdiv. ring.
Qed.

(** * Hessian blocks *)
Lemma nh_pullback B X : m3_det (m3_mul B X) <> 0 -> m3_mul (m3_transpose B) (m3_inv_transpose (m3_mul B X)) = m3_inv_transpose X.
Proof.
  intros H. unfold m3_inv_transpose. rewrite cof_mul, mul_scale_r, mul_assoc, tr_cof, mul_scale_l, mul_I_l, scale_scale. rewrite det_mul in *. f_equal.
  assert (m3_det B <> 0) by (intros E; rewrite E in H; apply H; ring). assert (m3_det X <> 0) by (intros E; rewrite E in H; apply H; ring). field. split; assumption.
Qed.
Lemma nh_product_pullback B X D lam m v : m3_det (m3_mul B X) <> 0 ->
  m3_scale v (m3_mul (m3_transpose B) (nh_dstress lam m (m3_mul B X) (m3_mul B D))) =
  let G := m3_inv_transpose X in let E := m3_mul (m3_transpose D) G in
  m3_scale v (m3_add (m3_add (m3_scale m (m3_mul (m3_mul (m3_transpose B) B) D)) (m3_scale (m - lam * ln (m3_det (m3_mul B X))) (m3_mul G E))) (m3_scale (m3_trace E * lam) G)).
Proof.
  intros H. unfold nh_dstress. cbv zeta. rewrite !mul_add_r, !mul_scale_r. rewrite (mul_assoc (m3_transpose B) (m3_inv_transpose _)). rewrite (nh_pullback B X H).
  assert (HE : m3_mul (m3_transpose (m3_mul B D)) (m3_inv_transpose (m3_mul B X)) = m3_mul (m3_transpose D) (m3_inv_transpose X)).
  { rewrite transpose_mul, <- mul_assoc, (nh_pullback B X H). reflexivity. }
  rewrite HE, (mul_assoc (m3_transpose B) B D). reflexivity.
Qed.
Ltac cases_lt := repeat match goal with
  | H : (?n < S _)%nat |- _ => destruct n as [|n]; [clear H|apply Nat.succ_lt_mono in H] | H : (_ < 0)%nat |- _ => inversion H end.
Lemma nh_blocks B v lam m x d n row : 0 < m3_det (m3_mul B (shape_matrix x)) -> (n < 4)%nat -> (row < 3)%nat ->
  sym_apply (nh_hessian (at_shape B v lam m x)) d n row = tet_get (close_rows (nh_product (at_shape B v lam m x) d)) n row.
Proof.
  intros HJ Hn Hr. rewrite nh_product_pos by exact HJ.
  change (vol (at_shape B v lam m x)) with v. change (DX_inv (at_shape B v lam m x)) with B. change (lambda (at_shape B v lam m x)) with lam. change (mu (at_shape B v lam m x)) with m.
  change (deformation_gradient (at_shape B v lam m x)) with (m3_mul B (shape_matrix x)). change (deformation_gradient_differential (at_shape B v lam m x) d) with (m3_mul B (shape_matrix d)).
  rewrite nh_product_pullback by lra. cbv zeta.
  assert (Hdx : m3_det (shape_matrix x) <> 0). { rewrite det_mul in HJ. intros E. rewrite E, Rmult_0_r in HJ. lra. }
  assert (Hh : forall n k row col, nh_hessian (at_shape B v lam m x) n k row col =
    if Nat.ltb n 3 then
      if Nat.ltb k 3 then if (Nat.eqb n k && Nat.leb col row) || Nat.ltb k n then nh_hess_term (at_shape B v lam m x) n k row col else 0 else 0
    else if Nat.ltb k 3 then - sum3 (fun n' => nh_hess_term (at_shape B v lam m x) n' k row col)
    else if Nat.leb col row then sum3 (fun n' => sum3 (fun k' => nh_hess_term (at_shape B v lam m x) n' k' row col)) else 0).
  { intros n' k' row' col'. unfold nh_hessian. change (deformation_gradient (at_shape B v lam m x)) with (m3_mul B (shape_matrix x)). change (Dx (at_shape B v lam m x)) with (shape_matrix x).
    destruct (Rle_dec (m3_det (m3_mul B (shape_matrix x))) 0); [lra|]. destruct (Req_EM_T (m3_det (shape_matrix x)) 0); [contradiction|]. reflexivity. }
  unfold sym_apply, sym_entry. 
  assert (Ht : forall n k row col, nh_hess_term (at_shape B v lam m x) n k row col =
    v * ((m - lam * ln (m3_det (m3_mul B (shape_matrix x)))) * m3_get (m3_transpose (m3_inv_transpose (shape_matrix x))) col n * m3_get (m3_transpose (m3_inv_transpose (shape_matrix x))) row k
      + lam * m3_get (m3_transpose (m3_inv_transpose (shape_matrix x))) row n * m3_get (m3_transpose (m3_inv_transpose (shape_matrix x))) col k)
    + (if Nat.eqb col row then v * m * m3_get (m3_mul (m3_transpose B) B) n k else 0)).
  { reflexivity. }
  revert Ht Hh. clear HJ Hdx. generalize (nh_hess_term (at_shape B v lam m x)) (nh_hessian (at_shape B v lam m x)) (ln (m3_det (m3_mul B (shape_matrix x)))) (m3_inv_transpose (shape_matrix x)).
  intros h H lJ G Ht Hh. clear x. dm.
  cases_lt; cbv [sum4 sum3 lower Nat.ltb Nat.leb Nat.eqb orb andb]; rewrite !Hh; cbv [sum3 Nat.ltb Nat.leb Nat.eqb orb andb]; rewrite !Ht; clear;
    cbv [Nat.eqb m3_get tet_get v3_get]; unm; ring.
Qed.

Lemma norm_transpose A : m3_inner (m3_transpose A) (m3_transpose A) = m3_inner A A.
Proof. dm. unm. ring. Qed.
(** Row [l] of [outer b j] is [b_l] times the axis [j]. *)
Definition outer (b : v3) (j : nat) : m3 := M3 (v3_scale (vx b) (v3_axis j)) (v3_scale (vy b) (v3_axis j)) (v3_scale (vz b) (v3_axis j)).
Definition coef (x y z : R) (j : nat) : R := match j with O => x | 1%nat => y | _ => z end.
Lemma snh_hess_term_form B v lam m x n k row col : (n < 3)%nat -> (k < 3)%nat -> (row < 3)%nat -> (col < 3)%nat ->
  snh_hess_term (at_shape B v lam m x) n k row col =
  v * m3_inner (snh_dstress lam m (m3_mul B (shape_matrix x)) (outer (row3 (m3_transpose B) k) col)) (outer (row3 (m3_transpose B) n) row).
Proof.
  intros Hn Hk Hr Hc. rewrite snh_dstress_inner. unfold snh_hess_term. change (DX_inv (at_shape B v lam m x)) with B. change (vol (at_shape B v lam m x)) with v. cbv zeta.
  assert (Hd : forall i j k l, dfdF (at_shape B v lam m x) i j k l =
    (if Nat.eqb i k && Nat.eqb j l then 1 else 0) * (m * (m3_inner (m3_mul B (shape_matrix x)) (m3_mul B (shape_matrix x)) / (m3_inner (m3_mul B (shape_matrix x)) (m3_mul B (shape_matrix x)) + 1)))
    + m3_get (m3_transpose (m3_mul B (shape_matrix x))) i j * m3_get (m3_transpose (m3_mul B (shape_matrix x))) k l
      * (m * (2 / ((m3_inner (m3_mul B (shape_matrix x)) (m3_mul B (shape_matrix x)) + 1) * (m3_inner (m3_mul B (shape_matrix x)) (m3_mul B (shape_matrix x)) + 1))))
    + m3_get (m3_cof (m3_transpose (m3_mul B (shape_matrix x)))) i j * m3_get (m3_cof (m3_transpose (m3_mul B (shape_matrix x)))) k l * lam
    + m3_get (h_block (m3_transpose (m3_mul B (shape_matrix x))) i k) j l * lam * (m3_det (m3_mul B (shape_matrix x)) - (1 + 75 / 100 * m / lam))).
  { intros i j k' l. unfold dfdF. change (deformation_gradient (at_shape B v lam m x)) with (m3_mul B (shape_matrix x)). change (mu (at_shape B v lam m x)) with m. change (lambda (at_shape B v lam m x)) with lam.
    cbv zeta. rewrite norm_transpose, det_transpose. unfold Rdiv. ring. }
  cbv [sum3]. rewrite !Hd. clear Hd.
  replace (m3_inner (m3_mul B (shape_matrix x)) (outer (row3 (m3_transpose B) k) col) * 2 / ((m3_inner (m3_mul B (shape_matrix x)) (m3_mul B (shape_matrix x)) + 1) * (m3_inner (m3_mul B (shape_matrix x)) (m3_mul B (shape_matrix x)) + 1)))
    with (m3_inner (m3_mul B (shape_matrix x)) (outer (row3 (m3_transpose B) k) col) * (2 / ((m3_inner (m3_mul B (shape_matrix x)) (m3_mul B (shape_matrix x)) + 1) * (m3_inner (m3_mul B (shape_matrix x)) (m3_mul B (shape_matrix x)) + 1)))) by (unfold Rdiv; ring).
  generalize (m3_inner (m3_mul B (shape_matrix x)) (m3_mul B (shape_matrix x)) / (m3_inner (m3_mul B (shape_matrix x)) (m3_mul B (shape_matrix x)) + 1))
     (2 / ((m3_inner (m3_mul B (shape_matrix x)) (m3_mul B (shape_matrix x)) + 1) * (m3_inner (m3_mul B (shape_matrix x)) (m3_mul B (shape_matrix x)) + 1)))
     (m3_det (m3_mul B (shape_matrix x)) - (1 + 75 / 100 * m / lam)).
  generalize (m3_mul B (shape_matrix x)). clear x. intros F p q j.
  assert (Hb : forall i l, (i < 3)%nat -> m3_get (m3_transpose B) i l = coef (vx (row3 (m3_transpose B) i)) (vy (row3 (m3_transpose B) i)) (vz (row3 (m3_transpose B) i)) l).
  { intros i l Hi. cases_lt; unfold m3_get, row3, coef; destruct l as [|[|]]; reflexivity. }
  rewrite !Hb by assumption. clear Hb. generalize (row3 (m3_transpose B) n) (row3 (m3_transpose B) k). clear Hn Hk B. intros a b. dm.
  cases_lt; cbv [coef outer v3_axis Nat.eqb andb h_block skew m3_get]; unm; ring.
Qed.
Lemma outer_sum B D Q : m3_inner Q (m3_mul B D) = sum3 (fun k => sum3 (fun col => m3_get D k col * m3_inner Q (outer (row3 (m3_transpose B) k) col))).
Proof. cbv [sum3 outer v3_axis row3 m3_get]. dm. unm. ring. Qed.
Lemma snh_form_expand lam m F B D M : m3_inner (snh_dstress lam m F (m3_mul B D)) M =
  sum3 (fun k => sum3 (fun col => m3_get D k col * m3_inner (snh_dstress lam m F (outer (row3 (m3_transpose B) k) col)) M)).
Proof.
  assert (Hs : forall D, m3_inner (snh_dstress lam m F D) M = m3_inner (snh_dstress lam m F M) D).
  { intros A. rewrite !snh_dstress_inner. rewrite (skew_sym _ M), (inner_sym M A). unfold Rdiv. ring. }
  rewrite Hs, outer_sum. cbv [sum3]. rewrite !Hs. reflexivity.
Qed.
Lemma snh_form_sym lam m F D M : m3_inner (snh_dstress lam m F D) M = m3_inner (snh_dstress lam m F M) D.
Proof. rewrite !snh_dstress_inner. rewrite (skew_sym _ M), (inner_sym M D). unfold Rdiv. ring. Qed.
Lemma product_entry v B P n row : (n < 3)%nat -> (row < 3)%nat -> m3_get (m3_scale v (m3_mul (m3_transpose B) P)) n row = v * m3_inner P (outer (row3 (m3_transpose B) n) row).
Proof. intros Hn Hr. dm. cases_lt; cbv [m3_get outer v3_axis row3]; unm; ring. Qed.
Lemma close_entry H n row : (n < 4)%nat -> (row < 3)%nat -> tet_get (close_rows H) n row = if Nat.ltb n 3 then m3_get H n row else - m3_get H 0 row - m3_get H 1 row - m3_get H 2 row.
Proof. intros Hn Hr. dm. cases_lt; reflexivity. Qed.
Lemma snh_blocks B v lam m x d n row : (n < 4)%nat -> (row < 3)%nat ->
  sym_apply (snh_hessian (at_shape B v lam m x)) d n row = tet_get (close_rows (snh_product (at_shape B v lam m x) d)) n row.
Proof.
  intros Hn Hr. rewrite snh_product_eq.
  change (vol (at_shape B v lam m x)) with v. change (DX_inv (at_shape B v lam m x)) with B. change (lambda (at_shape B v lam m x)) with lam. change (mu (at_shape B v lam m x)) with m.
  change (deformation_gradient (at_shape B v lam m x)) with (m3_mul B (shape_matrix x)). change (deformation_gradient_differential (at_shape B v lam m x) d) with (m3_mul B (shape_matrix d)).
  set (t := fun n k row col => m3_inner (snh_dstress lam m (m3_mul B (shape_matrix x)) (outer (row3 (m3_transpose B) k) col)) (outer (row3 (m3_transpose B) n) row)).
  assert (Hts : forall n k row col, t n k row col = t k n col row) by (intros; apply snh_form_sym).
  assert (Hp : forall n row, (n < 3)%nat -> (row < 3)%nat -> m3_get (m3_scale v (m3_mul (m3_transpose B) (snh_dstress lam m (m3_mul B (shape_matrix x)) (m3_mul B (shape_matrix d))))) n row
    = v * sum3 (fun k => sum3 (fun col => m3_get (shape_matrix d) k col * t n k row col))).
  { intros n' row' Hn' Hr'. rewrite product_entry by assumption. rewrite snh_form_expand. reflexivity. }
  rewrite close_entry by assumption.
  assert (Hh : forall n k row col, (n < 3)%nat -> (k < 3)%nat -> (row < 3)%nat -> (col < 3)%nat -> snh_hess_term (at_shape B v lam m x) n k row col = v * t n k row col)
    by (intros; apply snh_hess_term_form; assumption).
  unfold sym_apply, sym_entry, snh_hessian. clearbody t. revert Hh. generalize (snh_hess_term (at_shape B v lam m x)). intros h Hh.
  destruct d as [[d00 d01 d02] [d10 d11 d12] [d20 d21 d22] [d30 d31 d32]].
  cases_lt; cbv [sum4 sum3 lower Nat.ltb Nat.leb Nat.eqb orb andb]; rewrite ?Hp by lia; rewrite !Hh by lia; cbv [sum3 shape_matrix t0 t1 t2 t3 m3_get r0 r1 r2 v3_sub vx vy vz tet_get v3_get].
  all: try rewrite (Hts 0 1 0 0)%nat; try rewrite (Hts 0 1 0 1)%nat; try rewrite (Hts 0 1 0 2)%nat; try rewrite (Hts 0 1 1 0)%nat; try rewrite (Hts 0 1 1 1)%nat; try rewrite (Hts 0 1 1 2)%nat; try rewrite (Hts 0 1 2 0)%nat; try rewrite (Hts 0 1 2 1)%nat; try rewrite (Hts 0 1 2 2)%nat.
  all: try rewrite (Hts 0 2 0 0)%nat; try rewrite (Hts 0 2 0 1)%nat; try rewrite (Hts 0 2 0 2)%nat; try rewrite (Hts 0 2 1 0)%nat; try rewrite (Hts 0 2 1 1)%nat; try rewrite (Hts 0 2 1 2)%nat; try rewrite (Hts 0 2 2 0)%nat; try rewrite (Hts 0 2 2 1)%nat; try rewrite (Hts 0 2 2 2)%nat.
  all: try rewrite (Hts 1 2 0 0)%nat; try rewrite (Hts 1 2 0 1)%nat; try rewrite (Hts 1 2 0 2)%nat; try rewrite (Hts 1 2 1 0)%nat; try rewrite (Hts 1 2 1 1)%nat; try rewrite (Hts 1 2 1 2)%nat; try rewrite (Hts 1 2 2 0)%nat; try rewrite (Hts 1 2 2 1)%nat; try rewrite (Hts 1 2 2 2)%nat.
  all: try rewrite (Hts 0 0 0 1)%nat; try rewrite (Hts 0 0 0 2)%nat; try rewrite (Hts 0 0 1 2)%nat; try rewrite (Hts 1 1 0 1)%nat; try rewrite (Hts 1 1 0 2)%nat; try rewrite (Hts 1 1 1 2)%nat; try rewrite (Hts 2 2 0 1)%nat; try rewrite (Hts 2 2 0 2)%nat; try rewrite (Hts 2 2 1 2)%nat.
  all: ring.
Qed.
