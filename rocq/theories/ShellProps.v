(** Properties of triangle shells. *)
From Coq Require Import Reals ZArith List Arith Bool Lra Lia.
From Coquelicot Require Import Coquelicot.
From Verif Require Import Calc Vec3 Mat3 RList ElasticModel ElasticSpec ElasticProofs AngleModel AngleSpec AngleProofs AngleRefProofs AngleProps ShellModel ShellSpec ShellProofs ShellMeshProofs ShellHessProofs ShellBalanceProofs.
Import ListNotations.
Local Open Scope R_scope.

(** Two triangles with the shared edge 0-1, folded by 45 degrees; the edge has turned three times and was flat at rest. *)
Definition eye2 : m2 := M2 1 0 0 1.
Definition fold_dihedral : dihedral := Dihedral fold_edge (6 * PI) (6 * PI) 1 1.
Definition fold_shell : shell := Shell [ShellTri 0 1 2 eye2 (1 / 2) 1 1 (1 / 10); ShellTri 1 0 3 eye2 (1 / 2) 1 1 (1 / 10)] [fold_dihedral] fold_faces.
Lemma fold_in_range : shell_in_range 4 fold_shell.
Proof.
  split; cbn.
  - intros t [<-|[<-|[]]]; cbn; lia.
  - intros d c [<-|[]] H. cbn in H. lia.
Qed.
Lemma fold_distinct : shell_distinct fold_shell.
Proof.
  split; cbn.
  - intros t [<-|[<-|[]]]; cbn; repeat constructor; cbn; lia.
  - intros d [<-|[]]. unfold edge_vertices, edge_vert, face_vert0, face_vert1. cbn. repeat constructor; cbn; lia.
Qed.
Lemma fold_smooth : smooth_at fold_shell fold_pos.
Proof.
  split; cbn [sh_tris sh_dihedrals sh_faces fold_shell].
  - intros t [<-|[<-|[]]]; (split; [cbv [f_DX_inv eye2 m2_det m00 m01 m10 m11]; lra|]); intros E; apply (f_equal vz) in E; revert E; cbn; lra.
  - intros d [<-|[]]. cbn [di_edge di_angle fold_dihedral]. split; [exact fold_valid|]. split; [exact fold_nondegenerate|]. rewrite fold_tracked. pose proof PI_RGT_0. apply Rabs_def1; lra.
Qed.
Lemma fold_edges_valid d : In d (sh_dihedrals fold_shell) -> valid_edge (di_edge d) (sh_faces fold_shell).
Proof. intros [<-|[]]. exact fold_valid. Qed.
Definition tri_a : tri3 := Tri3 (V3 2 0 0) (V3 0 1 0) (V3 0 0 0).
Lemma tri_a_proper : proper eye2 tri_a.
Proof. split; [cbv [eye2 m2_det m00 m01 m10 m11]; lra|]. intros E. apply (f_equal vz) in E. revert E. cbn. lra. Qed.
Lemma tri_a_gram : gram (m2_m23 eye2 (tri_shape tri_a)) = 4. Proof. cbv [gram m2_m23 eye2 tri_shape tri_a m00 m01 m10 m11 w0 w1 q0 q1 q2 v3_dot v3_sub v3_add v3_scale v3_neg vx vy vz]. ring. Qed.

(** C92: the gradient of the energy of a triangle is its derivative. *)
Theorem tri_gradient_is_derivative : forall B a lam m x d, proper B x ->
  locally 0 (fun s => exists y, tri_energy (at_tri B a lam m (tri_line x d s)) = Fin y) /\
  is_derive (fun s => fin (tri_energy (at_tri B a lam m (tri_line x d s)))) 0 (tri_dot (tri_gradient (at_tri B a lam m x)) d).
Proof. exact tri_gradient_derive. Qed.
Example tri_gradient_is_derivative_ex : proper eye2 tri_a /\ vx (q0 (tri_gradient (at_tri eye2 1 0 1 tri_a))) = 3 / 2.
Proof.
  split; [exact tri_a_proper|]. rewrite tri_gradient_pos by (rewrite tri_a_gram; lra). unfold sh_stress, dual. rewrite inv_gram, tri_a_gram.
  cbv [eye2 tri_a tri_close tri_shape m2_m23 m23_add m23_scale m2_transpose m00 m01 m10 m11 w0 w1 q0 q1 q2 v3_dot v3_sub v3_add v3_scale v3_neg vx vy vz]. field.
Qed.

(** C93: the product with a displacement is the derivative of the gradient, and the stored lower triangle is the same symmetric matrix. *)
Theorem tri_hessian_is_derivative : forall B a lam m x d n row, proper B x -> (n < 3)%nat -> (row < 3)%nat ->
  is_derive (fun s => tri_get (tri_gradient (at_tri B a lam m (tri_line x d s))) n row) 0 (tri_get (tri_close (tri_product (at_tri B a lam m x) d)) n row) /\
  tri_sym_apply (tri_hessian (at_tri B a lam m x)) d n row = tri_get (tri_close (tri_product (at_tri B a lam m x) d)) n row.
Proof.
  intros B a lam m x d n row HP Hn Hr. split; [|apply tri_block; [exact Hn|exact Hr|apply proper_gram; exact HP]].
  pose proof (tri_force_derive B a lam m x d (tri_axis n row) HP) as D. rewrite tri_get_axis in D by assumption. eapply is_derive_ext; [|exact D]. intros s. cbv beta. apply tri_get_axis; assumption.
Qed.
Example tri_hessian_is_derivative_ex : proper eye2 tri_a /\ tri_hessian (at_tri eye2 1 0 1 tri_a) 0 0 0 0 = 5 / 4.
Proof.
  split; [exact tri_a_proper|]. rewrite (tri_hessian_lower eye2 1 0 1 tri_a 0 0 0 0) by (try lia; try reflexivity; rewrite tri_a_gram; lra). unfold stiff. rewrite dstress_inner. cbv zeta. unfold m23_inner, dual. rewrite !inv_gram, !tri_a_gram.
  cbv [normalized tri_axis v3_axis eye2 tri_a tri_shape m2_m23 m00 m01 m10 m11 w0 w1 q0 q1 q2 v3_dot v3_cross v3_sub v3_add v3_scale v3_neg v3_0 vx vy vz]. field.
  apply Rgt_not_eq. unfold v3_norm. apply sqrt_lt_R0. unfold v3_dot. cbn. lra.
Qed.

(** C94: the energy of a triangle is not negative, and zero exactly if nothing is stretched. *)
Theorem tri_energy_sign : forall e a, 0 < T_area e -> 0 <= T_lambda e -> 0 < T_mu e -> tri_energy e = Fin a -> 0 <= a /\ (a = 0 <-> isometry (tri_F e)).
Proof.
  intros e a Ha Hl Hm He. unfold tri_energy in He. cbv zeta in He. rewrite gram_det in He. set (F := tri_F e) in *. clearbody F.
  destruct (Rle_dec (gram F) 0) as [HG|HG]; [discriminate He|]. apply Rnot_le_lt in HG.
  assert (E : a = T_area e * sh_density (T_lambda e) (T_mu e) F) by (injection He as <-; unfold sh_density; cbn [m00 m11 m23_mul_tr]; ring). clear He.
  subst a. pose proof (sh_density_nonneg (T_lambda e) (T_mu e) _ Hl (Rlt_le _ _ Hm) HG) as P. split; [apply Rmult_le_pos; lra|]. split.
  - intros E. apply Rmult_integral in E. destruct E as [E|E]; [lra|]. exact (sh_density_zero _ _ _ Hl Hm HG E).
  - intros I. rewrite (isometry_density _ _ _ I). ring.
Qed.
Example tri_energy_sign_ex : tri_energy (at_tri eye2 1 0 1 tri_a) = Fin (3 / 2 - ln 4 / 2) /\ ~ isometry (tri_F (at_tri eye2 1 0 1 tri_a)).
Proof.
  split.
  - rewrite tri_energy_fin by (rewrite tri_a_gram; lra). unfold sh_density. rewrite tri_a_gram. f_equal. cbv [eye2 tri_a tri_shape m2_m23 m00 m01 m10 m11 w0 w1 q0 q1 q2 v3_dot v3_sub v3_add v3_scale v3_neg vx vy vz]. field.
  - intros (A & _). revert A. cbv [tri_F at_tri T_DX_inv T_Dx eye2 tri_a tri_shape m2_m23 m00 m01 m10 m11 w0 w1 q0 q1 q2 v3_dot v3_sub v3_add v3_scale v3_neg vx vy vz]. lra.
Qed.

(** C94: the rest shape computed from positions is free of energy and force in these positions. *)
Theorem tri_rest_force_free : forall x a lam m, flat_normal x <> v3_0 ->
  let B := m2_inv (isotropic_shape (tri_shape x)) in tri_energy (at_tri B a lam m x) = Fin 0 /\ tri_gradient (at_tri B a lam m x) = Tri3 v3_0 v3_0 v3_0.
Proof.
  intros x a lam m H B. pose proof (rest_isometry x H) as I. fold B in I. pose proof (isometry_gram _ I) as G. rewrite tri_energy_fin, tri_gradient_pos by lra. rewrite (isometry_density _ _ _ I), (isometry_stress _ _ _ I). split; [f_equal; ring|].
  generalize B. intros []. un2. f_equal; apply v3_ext; ring.
Qed.
Example tri_rest_force_free_ex : flat_normal tri_a <> v3_0 /\ isotropic_shape (tri_shape tri_a) = M2 2 0 0 1.
Proof.
  split; [apply tri_a_proper|]. assert (N : v3_norm (V3 2 0 0) = 2) by (unfold v3_norm; replace (v3_dot (V3 2 0 0) (V3 2 0 0)) with (2 * 2) by (cbv [v3_dot vx vy vz]; ring); apply sqrt_square; lra).
  unfold isotropic_shape. cbv zeta. replace (tri_shape tri_a) with (M23 (V3 2 0 0) (V3 0 1 0)) by (unfold tri_a; un2; symmetry; apply m23_ext; ring). cbn [w0 w1]. rewrite N.
  replace (v3_dot (v3_scale (/ 2) (V3 2 0 0)) (V3 0 1 0)) with 0 by (un2; ring). f_equal. replace (v3_sub (V3 0 1 0) (v3_scale 0 (v3_scale (/ 2) (V3 2 0 0)))) with (V3 0 1 0) by (un2; symmetry; apply v3_ext; ring).
  unfold v3_norm. replace (v3_dot (V3 0 1 0) (V3 0 1 0)) with 1 by (cbv [v3_dot vx vy vz]; ring). apply sqrt_1.
Qed.

(** C95, finding: a triangle that has collapsed to a line has infinite energy but a gradient of zero. *)
Theorem collapsed_triangle_gradient_refuted : forall B a lam m x, flat_normal x = v3_0 -> tri_energy (at_tri B a lam m x) = Inf /\ tri_gradient (at_tri B a lam m x) = Tri3 v3_0 v3_0 v3_0.
Proof.
  intros B a lam m x H. assert (G : gram (m2_m23 B (tri_shape x)) = 0) by (rewrite gram_shape, H; unfold v3_dot; cbn; ring). unfold tri_energy, tri_gradient. cbv zeta. change (tri_F (at_tri B a lam m x)) with (m2_m23 B (tri_shape x)).
  rewrite gram_det, G. destruct (Rle_dec 0 0); [split; reflexivity|lra].
Qed.
Example collapsed_triangle_gradient_ex : flat_normal (Tri3 (V3 1 0 0) (V3 2 0 0) v3_0) = v3_0 /\ tri_shape (Tri3 (V3 1 0 0) (V3 2 0 0) v3_0) <> m23_0.
Proof. split; [un2; apply v3_ext; ring|]. intros E. apply (f_equal (fun A => vx (w0 A))) in E. revert E. cbn. lra. Qed.

(** C96: the gradient of the bending energy is its derivative. *)
Theorem bending_gradient_is_derivative : forall d x w faces, valid_edge (di_edge d) faces -> nondegenerate (corners (di_edge d) x faces) ->
  Rabs (incremental_angle (di_edge d) (di_angle d) x faces - di_angle d) < PI ->
  is_derive (fun s => bending_energy d (move x w s) faces) 0 (tet_dot (bending_gradient d x faces) (corners (di_edge d) w faces)).
Proof. exact bending_derive. Qed.
Example bending_gradient_is_derivative_ex : valid_edge (di_edge fold_dihedral) fold_faces /\ nondegenerate (corners (di_edge fold_dihedral) fold_pos fold_faces) /\
  bending_energy fold_dihedral fold_pos fold_faces = PI * PI / 32 /\ Rabs (incremental_angle (di_edge fold_dihedral) (di_angle fold_dihedral) fold_pos fold_faces - di_angle fold_dihedral) < PI.
Proof.
  split; [exact fold_valid|]. split; [exact fold_nondegenerate|]. unfold bending_energy. cbn [di_edge di_angle di_ref_angle di_ref_length di_stiffness fold_dihedral]. rewrite fold_tracked. pose proof PI_RGT_0. split; [field|apply Rabs_def1; lra].
Qed.
(** C96: the energy is not negative, and it vanishes exactly at the reference angle, together with all forces. *)
Theorem bending_energy_sign : forall d x faces, 0 < di_ref_length d -> 0 < di_stiffness d -> 0 <= bending_energy d x faces /\
  (bending_energy d x faces = 0 <-> incremental_angle (di_edge d) (di_angle d) x faces = di_ref_angle d) /\
  (bending_energy d x faces = 0 -> bending_gradient d x faces = Tet v3_0 v3_0 v3_0 v3_0).
Proof.
  intros d x faces Hl Hs. unfold bending_energy, bending_gradient, bending_dw. set (z := incremental_angle _ _ _ _ - di_ref_angle d). pose proof (Rmult_lt_0_compat _ _ Hl Hs) as P.
  assert (Z : 1 / 2 * di_ref_length d * di_stiffness d * z * z = 0 -> z = 0) by (intros E; replace (1 / 2 * di_ref_length d * di_stiffness d * z * z) with (di_ref_length d * di_stiffness d * (1 / 2 * (z * z))) in E by field; apply Rmult_integral in E; destruct E as [E|E]; [lra|nra]).
  split; [|split; [split|]].
  - replace (1 / 2 * di_ref_length d * di_stiffness d * z * z) with (di_ref_length d * di_stiffness d * (1 / 2 * (z * z))) by field. apply Rmult_le_pos; nra.
  - intros E. apply Z in E. unfold z in E. lra.
  - intros E. replace z with 0 by (unfold z; lra). ring.
  - intros E. apply Z in E. rewrite E, Rmult_0_r. generalize (edge_angle_gradient (di_edge d) x faces). intros [[] [] [] []]. unfold tet_scale. unm. f_equal; f_equal; ring.
Qed.
Example bending_energy_sign_ex : 0 < di_ref_length fold_dihedral /\ 0 < di_stiffness fold_dihedral /\ bending_energy fold_dihedral fold_pos fold_faces = PI * PI / 32.
Proof. split; [cbn; lra|]. split; [cbn; lra|]. apply bending_gradient_is_derivative_ex. Qed.

(** C97: the gradient of a shell is the derivative of its energy, for positions that follow the velocities. *)
Theorem shell_gradient_is_derivative : forall S dqdv x v w n, shell_in_range n S -> smooth_at S x ->
  exists g, add_shell_gradient S dqdv x v (repeat v3_0 n) = Some g /\ length g = n /\
    locally 0 (fun s => exists a, shell_energy S dqdv (move x (fun i => v3_scale dqdv (w i)) s) (move v w s) = Fin a) /\
    is_derive (fun s => fin (shell_energy S dqdv (move x (fun i => v3_scale dqdv (w i)) s) (move v w s))) 0 (dqdv * power g w).
Proof. exact shell_derive. Qed.
Example shell_gradient_is_derivative_ex : shell_in_range 4 fold_shell /\ smooth_at fold_shell fold_pos.
Proof. exact (conj fold_in_range fold_smooth). Qed.

(** C98: the triplets of the Hessian of a shell are the derivative of its gradient. *)
Theorem shell_hessian_is_derivative : forall S dqdv x v w u n, shell_in_range n S -> shell_distinct S -> smooth_at S x ->
  exists g : R -> list v3, (forall s, add_shell_gradient S dqdv (move x (fun i => v3_scale dqdv (w i)) s) (move v w s) (repeat v3_0 n) = Some (g s)) /\
    is_derive (fun s => power (g s) u) 0 (dqdv * lower_form (combine (shell_hessian_indices S 0 0) (shell_hessian_values S 1 x)) (coords u) (coords w)).
Proof. exact shell_force_derive. Qed.
Example shell_hessian_is_derivative_ex : shell_in_range 4 fold_shell /\ shell_distinct fold_shell /\ smooth_at fold_shell fold_pos /\ length (shell_hessian_values fold_shell 1 fold_pos) = 168%nat.
Proof. split; [exact fold_in_range|]. split; [exact fold_distinct|]. split; [exact fold_smooth|]. rewrite shell_values_length. reflexivity. Qed.

(** C99: pattern and values have the announced size, and all entries lie in the lower triangle of the matrix. *)
Theorem shell_hessian_pattern : forall S scale x n a b, shell_in_range n S -> shell_distinct S ->
  length (shell_hessian_indices S a b) = shell_hessian_size S /\ length (shell_hessian_values S scale x) = shell_hessian_size S /\
  forall p, In p (shell_hessian_indices S a b) -> exists r c, p = ((r + a)%nat, (c + b)%nat) /\ (c <= r < 3 * n)%nat.
Proof. intros S scale x n a b HR HD. split; [apply shell_indices_length|]. split; [apply shell_values_length|]. intros p. apply shell_indices_lower; assumption. Qed.
Example shell_hessian_pattern_ex : shell_in_range 4 fold_shell /\ shell_distinct fold_shell /\ shell_hessian_size fold_shell = 168%nat /\ In (12, 2)%nat (shell_hessian_indices fold_shell 1 2).
Proof. split; [exact fold_in_range|]. split; [exact fold_distinct|]. split; [reflexivity|]. vm_compute. tauto. Qed.
(** The scaling of the values. *)
Theorem shell_hessian_scale : forall S scale x, shell_hessian_values S scale x = map (Rmult scale) (shell_hessian_values S 1 x).
Proof.
  intros S scale x. unfold shell_hessian_values. rewrite map_app. f_equal; rewrite flat_map_concat_map, (flat_map_concat_map _ _), concat_map, map_map; f_equal; apply map_ext; intros e.
  - rewrite map_map. apply map_ext. intros [[[n k] row] col]. unfold tri_value. ring.
  - unfold edge_values. rewrite map_app, !map_map. f_equal; apply map_ext; [intros [[[v row] col] i]|intros [[[rv cv] b] [row col]]]; ring.
Qed.
Example shell_hessian_scale_ex : length (shell_hessian_values fold_shell 5 fold_pos) = 168%nat. Proof. rewrite shell_values_length. reflexivity. Qed.

(** C100: the separately computed diagonal is the diagonal of the matrix. *)
Theorem shell_diagonal_matches : forall S scale x l c j, shell_distinct S -> (c < length l)%nat -> (j < 3)%nat ->
  v3_get (nth c (add_shell_hessian_diagonal S scale x l) v3_0) j = v3_get (nth c l v3_0) j + diagonal_sum (combine (shell_hessian_indices S 0 0) (shell_hessian_values S scale x)) (3 * c + j).
Proof. exact shell_diagonal. Qed.
Example shell_diagonal_matches_ex : shell_distinct fold_shell /\ (3 < length (repeat v3_0 4))%nat. Proof. split; [exact fold_distinct|cbn; lia]. Qed.

(** C101: forces of a shell sum to zero, and so do torques without damping. *)
Theorem shell_conserves_momentum : forall S dqdv x v n g, (forall d, In d (sh_dihedrals S) -> valid_edge (di_edge d) (sh_faces S)) ->
  add_shell_gradient S dqdv x v (repeat v3_0 n) = Some g -> v3_total g = v3_0 /\ ((forall t, In t (sh_tris S) -> f_damping t = 0) -> torque x g = v3_0).
Proof. exact shell_momentum. Qed.
Example shell_conserves_momentum_ex : (forall d, In d (sh_dihedrals fold_shell) -> valid_edge (di_edge d) (sh_faces fold_shell)) /\ exists g, add_shell_gradient fold_shell 1 fold_pos fold_pos (repeat v3_0 4) = Some g.
Proof. split; [exact fold_edges_valid|]. destruct (shell_scatter_some fold_shell 1 fold_pos fold_pos 4 fold_in_range) as (g & Hg & _). exists g. exact Hg. Qed.

(** C102: damping takes energy out of the motion. *)
Theorem shell_damping_dissipates : forall S dqdv x v n g g', 0 <= dqdv -> (forall t, In t (sh_tris S) -> 0 <= f_mu t /\ 0 <= f_area t /\ 0 <= f_damping t) ->
  add_shell_gradient S dqdv x v (repeat v3_0 n) = Some g -> add_shell_gradient (undamped_shell S) dqdv x v (repeat v3_0 n) = Some g' -> power g' v <= power g v.
Proof.
  intros S dqdv x v n g g' Hd HT Hg Hg'. rewrite (damping_power S dqdv x v n g g' Hg Hg'). match goal with |- _ <= _ + dqdv * ?s => assert (P : 0 <= s) end; [|nra]. apply rsum_nonneg. intros y Hy. apply in_map_iff in Hy. destruct Hy as (t & <- & Ht). destruct (HT t Ht) as (A & B & C). cbv zeta.
  apply Rmult_le_pos; [apply Rmult_le_pos; [apply Rmult_le_pos; assumption|assumption]|]. unfold m23_inner. pose proof (v3_dot_nonneg (w0 (m2_m23 (f_DX_inv t) (tri_shape (tri_gather t v))))). pose proof (v3_dot_nonneg (w1 (m2_m23 (f_DX_inv t) (tri_shape (tri_gather t v))))). lra.
Qed.
Example shell_damping_dissipates_ex : (forall t, In t (sh_tris fold_shell) -> 0 <= f_mu t /\ 0 <= f_area t /\ 0 <= f_damping t) /\
  (exists g, add_shell_gradient fold_shell 1 fold_pos fold_pos (repeat v3_0 4) = Some g) /\ exists g', add_shell_gradient (undamped_shell fold_shell) 1 fold_pos fold_pos (repeat v3_0 4) = Some g'.
Proof.
  split; [intros t [<-|[<-|[]]]; cbn; lra|]. split; [apply shell_conserves_momentum_ex|].
  destruct (shell_scatter_some (undamped_shell fold_shell) 1 fold_pos fold_pos 4) as (g & Hg & _); [|exists g; exact Hg]. split; [intros t [<-|[<-|[]]]; cbn; lia|intros d c [<-|[]] H; cbn in H; lia].
Qed.
(** C102, finding: damping also resists a rigid rotation of an unstretched triangle, with a torque. *)
Theorem shell_damping_torque_refuted : exists (t : shell_tri) (x : nat -> v3) (omega : v3) (g : list v3), 0 < f_damping t /\ isometry (m2_m23 (f_DX_inv t) (tri_shape (tri_gather t x))) /\
  add_shell_gradient (Shell [t] [] (fun _ _ => O)) 1 x (fun i => v3_cross omega (x i)) (repeat v3_0 3) = Some g /\ torque x g = V3 0 0 2.
Proof.
  exists (ShellTri 0 1 2 eye2 1 1 1 1), (fun i => match i with 0%nat => V3 1 0 0 | 1%nat => V3 0 1 0 | _ => v3_0 end), (V3 0 0 1).
  set (x := fun i : nat => match i with 0%nat => V3 1 0 0 | 1%nat => V3 0 1 0 | _ => v3_0 end). set (t := ShellTri 0 1 2 eye2 1 1 1 1).
  assert (I : isometry (m2_m23 (f_DX_inv t) (tri_shape (tri_gather t x)))) by (unfold isometry, t, x, tri_gather, eye2; cbn [f_DX_inv f_0 f_1 f_2]; un2; split; [|split]; ring).
  assert (G : tri_gradient (tri_elem_of t (tri_gather t x)) = Tri3 v3_0 v3_0 v3_0).
  { change (tri_elem_of t (tri_gather t x)) with (at_tri eye2 1 1 1 (tri_gather t x)). change (f_DX_inv t) with eye2 in I. rewrite tri_gradient_pos by (rewrite (isometry_gram _ I); lra). rewrite (isometry_stress _ _ _ I). unfold eye2. un2. f_equal; apply v3_ext; ring. }
  eexists. split; [cbn; lra|]. split; [exact I|]. split.
  - unfold add_shell_gradient, shell_forces. cbn [sh_tris sh_dihedrals flat_map app]. unfold membrane_forces. cbv zeta. rewrite G. reflexivity.
  - unfold torque, t, x, eye2. cbn. unfold v3_total. cbn. un2. unm. un2. apply v3_ext; ring.
Qed.

(** C103: the energy of a shell does not change under a rigid motion. *)
Theorem shell_energy_rigid_invariant : forall S dqdv x v Q c, (forall d, In d (sh_dihedrals S) -> valid_edge (di_edge d) (sh_faces S)) -> rotation Q ->
  shell_energy S dqdv (fun i => rigid Q c (x i)) (fun i => m3_mulv Q (v i)) = shell_energy S dqdv x v.
Proof. exact shell_energy_rigid. Qed.
Example shell_energy_rigid_invariant_ex : (forall d, In d (sh_dihedrals fold_shell) -> valid_edge (di_edge d) (sh_faces fold_shell)) /\ rotation (M3 (V3 0 (-1) 0) (V3 1 0 0) (V3 0 0 1)).
Proof. split; [exact fold_edges_valid|]. split; [|unm; ring]. unm. apply m3_ext; ring. Qed.

(** C104: updating the recorded angles at some positions changes neither energy nor forces nor Hessian there, and keeps the angles equivalent to the geometry. *)
Theorem update_angles_keeps_state : forall S dqdv scale x v l, let S' := update_angles S x in
  shell_energy S' dqdv x v = shell_energy S dqdv x v /\ add_shell_gradient S' dqdv x v l = add_shell_gradient S dqdv x v l /\ shell_hessian_values S' scale x = shell_hessian_values S scale x /\
  shell_hessian_indices S' 0 0 = shell_hessian_indices S 0 0 /\ (forall d, In d (sh_dihedrals S') -> same_angle (di_angle d) (edge_angle (di_edge d) x (sh_faces S)) /\ incremental_angle (di_edge d) (di_angle d) x (sh_faces S) = di_angle d).
Proof.
  intros S dqdv scale x v l S'. set (up := fun d => Dihedral (di_edge d) (incremental_angle (di_edge d) (di_angle d) x (sh_faces S)) (di_ref_angle d) (di_ref_length d) (di_stiffness d)).
  assert (W : forall d, bending_dw (up d) x (sh_faces S) = bending_dw d x (sh_faces S)) by (intros d; unfold bending_dw, up; cbn [di_edge di_angle di_ref_length di_stiffness di_ref_angle]; rewrite incremental_idem; reflexivity).
  split; [|split; [|split; [|split]]].
  - unfold shell_energy, S', update_angles. cbn [sh_tris sh_dihedrals sh_faces]. f_equal. rewrite map_map. f_equal. apply map_ext. intros d. unfold bending_energy. cbn [di_edge di_angle di_ref_length di_stiffness di_ref_angle]. rewrite incremental_idem. reflexivity.
  - unfold add_shell_gradient, S', update_angles, shell_forces. cbn [sh_tris sh_dihedrals sh_faces]. f_equal. f_equal. rewrite flat_map_concat_map, map_map, (flat_map_concat_map (fun d => bending_forces d x (sh_faces S))). f_equal. apply map_ext. intros d. unfold bending_forces, bending_gradient. cbv zeta. fold (up d). rewrite W. reflexivity.
  - unfold S', update_angles, shell_hessian_values. cbn [sh_tris sh_dihedrals sh_faces]. f_equal. rewrite flat_map_concat_map, map_map, (flat_map_concat_map (fun d => edge_values d (sh_faces S) scale x)). f_equal. apply map_ext. intros d. unfold edge_values, bending_diag, bending_lower. fold (up d). rewrite W. reflexivity.
  - unfold S', update_angles, shell_hessian_indices. cbn [sh_tris sh_dihedrals sh_faces]. f_equal. rewrite flat_map_concat_map, map_map, (flat_map_concat_map (fun d => edge_indices d (sh_faces S) 0 0)). f_equal.
  - intros d Hd. unfold S', update_angles in Hd. cbn [sh_dihedrals] in Hd. apply in_map_iff in Hd. destruct Hd as (d0 & <- & _). cbn [di_edge di_angle]. split; [apply incremental_spec|apply incremental_idem].
Qed.
Example update_angles_keeps_state_ex : map di_angle (sh_dihedrals (update_angles fold_shell fold_pos)) = [6 * PI - PI / 4].
Proof. cbn [update_angles sh_dihedrals fold_shell map di_angle]. f_equal. exact fold_tracked. Qed.

Print Assumptions tri_gradient_is_derivative.
Print Assumptions tri_hessian_is_derivative.
Print Assumptions tri_energy_sign.
Print Assumptions tri_rest_force_free.
Print Assumptions collapsed_triangle_gradient_refuted.
Print Assumptions bending_gradient_is_derivative.
Print Assumptions bending_energy_sign.
Print Assumptions shell_gradient_is_derivative.
Print Assumptions shell_hessian_is_derivative.
Print Assumptions shell_hessian_pattern.
Print Assumptions shell_hessian_scale.
Print Assumptions shell_diagonal_matches.
Print Assumptions shell_conserves_momentum.
Print Assumptions shell_damping_dissipates.
Print Assumptions shell_damping_torque_refuted.
Print Assumptions shell_energy_rigid_invariant.
Print Assumptions update_angles_keeps_state.
