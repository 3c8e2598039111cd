(** Properties of the bending angle of interior edges. *)
From Coq Require Import Reals ZArith List Arith Bool Lra Lia.
From Coquelicot Require Import Coquelicot.
From Verif Require Import Calc Vec3 Mat3 RList ElasticModel ElasticSpec AngleModel AngleSpec AngleProofs AngleHessProofs AngleRefProofs.
Import ListNotations.
Local Open Scope R_scope.

(** Two triangles that share the edge 0-1, folded by 45 degrees. *)
Definition fold_pos (i : nat) : v3 := match i with 0%nat => v3_0 | 1%nat => V3 1 0 0 | 2%nat => V3 0 1 0 | _ => V3 0 (-1) 1 end.
Definition fold_faces (f i : nat) : nat := match f, i with 0, 0 => 0 | 0, 1 => 1 | 0, _ => 2 | _, 0 => 1 | _, 1 => 0 | _, _ => 3 end%nat.
Definition fold_edge : interior_edge := IEdge 0 1 0 0.
Lemma fold_valid : valid_edge fold_edge fold_faces.
Proof. unfold valid_edge, shares_edge, fold_edge. cbn. split; [lia|]. split; [lia|]. split; [lia|]. left. split; reflexivity. Qed.
Lemma fold_nondegenerate : nondegenerate (corners fold_edge fold_pos fold_faces).
Proof. split; intros E; apply (f_equal vz) in E; revert E; cbn; lra. Qed.
Lemma fold_not_folded : ~ folded (corners fold_edge fold_pos fold_faces).
Proof. intros [E _]. revert E. cbn. unfold v3_dot. cbn. lra. Qed.
Lemma fold_angle : edge_angle fold_edge fold_pos fold_faces = - (PI / 4).
Proof.
  rewrite (edge_angle_corners _ _ _ fold_valid). f_equal. assert (S : sine (corners fold_edge fold_pos fold_faces) = 1).
  { unfold sine, v3_norm, normal0, along, side0, side1. cbn. unfold v3_dot. cbn. replace ((1 - 0) * (1 - 0) + (0 - 0) * (0 - 0) + (0 - 0) * (0 - 0)) with 1 by ring. rewrite sqrt_1. ring. }
  assert (C : cosine (corners fold_edge fold_pos fold_faces) = 1) by (unfold cosine, v3_dot; cbn; ring). rewrite S, C, atan2_right by lra. replace (1 / 1) with 1 by field. apply atan_1.
Qed.
Lemma fold_tracked : incremental_angle fold_edge (6 * PI) fold_pos fold_faces = 6 * PI - PI / 4.
Proof.
  destruct (incremental_spec fold_edge (6 * PI) fold_pos fold_faces) as [[k E] B]. rewrite fold_angle in E. rewrite E in B |- *. pose proof PI_RGT_0 as P. assert (K : (2 < k < 4)%Z).
  { split; apply lt_IZR; [|]; apply (Rmult_lt_reg_l PI); lra. }
  assert (k = 3%Z) by lia. subst. lra.
Qed.

(** C51: projection returns an equivalent angle in [-pi, pi). *)
Theorem projected_angle_equivalent : forall a, same_angle (project_angle a) a /\ - PI <= project_angle a < PI.
Proof. exact project_spec. Qed.
Example projected_angle_equivalent_ex : project_angle (6 * PI - PI / 4) = - (PI / 4).
Proof.
  destruct (project_spec (6 * PI - PI / 4)) as [[k E] B]. rewrite E in B |- *. pose proof PI_RGT_0 as P. assert (K : (-4 < k < -2)%Z) by (split; apply lt_IZR; apply (Rmult_lt_reg_l PI); lra).
  assert (k = (-3)%Z) by lia. subst. lra.
Qed.

(** C51: the tracked angle is within pi of the previous one and equivalent to the geometric angle. *)
Theorem tracked_angle_continuous : forall e previous pos faces,
  same_angle (incremental_angle e previous pos faces) (edge_angle e pos faces) /\ Rabs (incremental_angle e previous pos faces - previous) <= PI.
Proof. intros e r pos faces. destruct (incremental_spec e r pos faces) as [S B]. split; [exact S|]. apply Rabs_le. lra. Qed.
Example tracked_angle_continuous_ex : edge_angle fold_edge fold_pos fold_faces = - (PI / 4) /\ incremental_angle fold_edge (6 * PI) fold_pos fold_faces = 6 * PI - PI / 4.
Proof. exact (conj fold_angle fold_tracked). Qed.

(** C51: hence tracking is exact as long as the true angle moves by less than pi between two evaluations. *)
Theorem tracked_angle_follows : forall e previous pos faces truth,
  same_angle truth (edge_angle e pos faces) -> Rabs (truth - previous) < PI -> incremental_angle e previous pos faces = truth.
Proof.
  intros e r pos faces w S B. destruct (incremental_spec e r pos faces) as [S' B']. apply Rabs_def2 in B. apply same_angle_close; [|lra]. eapply same_angle_trans; [exact S'|]. apply same_angle_sym, S.
Qed.
Example tracked_angle_follows_ex : same_angle (6 * PI - PI / 4) (edge_angle fold_edge fold_pos fold_faces) /\ Rabs (6 * PI - PI / 4 - 6 * PI) < PI.
Proof.
  rewrite fold_angle. split; [exists 3%Z; lra|]. pose proof PI_RGT_0. apply Rabs_def1; lra.
Qed.

(** C88: the angle is the signed angle between the face normals. *)
Theorem edge_angle_is_angle_between_normals : forall e pos faces, valid_edge e faces ->
  let x := corners e pos faces in let areas := v3_norm (normal0 x) * v3_norm (normal1 x) in
  areas * cos (edge_angle e pos faces) = v3_dot (normal0 x) (normal1 x) /\
  areas * sin (edge_angle e pos faces) = - (v3_norm (along x) * v3_dot (side1 x) (normal0 x)) /\
  - PI <= edge_angle e pos faces < PI.
Proof. intros e pos faces V. cbv zeta. destruct (edge_angle_polar e pos faces V) as [C S]. split; [exact C|]. split; [exact S|]. apply edge_angle_range. Qed.
Example edge_angle_is_angle_between_normals_ex : valid_edge fold_edge fold_faces /\ edge_angle fold_edge fold_pos fold_faces = - (PI / 4).
Proof. exact (conj fold_valid fold_angle). Qed.

(** C88: the gradient is the derivative of the angle along every displacement, unless the faces are folded onto each other. *)
Theorem angle_gradient_is_derivative : forall e pos d faces, valid_edge e faces -> nondegenerate (corners e pos faces) -> ~ folded (corners e pos faces) ->
  is_derive (fun s => edge_angle e (move pos d s) faces) 0 (tet_dot (edge_angle_gradient e pos faces) (corners e d faces)).
Proof. exact edge_angle_derive. Qed.
Example angle_gradient_is_derivative_ex : valid_edge fold_edge fold_faces /\ nondegenerate (corners fold_edge fold_pos fold_faces) /\ ~ folded (corners fold_edge fold_pos fold_faces).
Proof. exact (conj fold_valid (conj fold_nondegenerate fold_not_folded)). Qed.

(** C88: it is also the derivative of the tracked angle, across the branch cut of the geometric angle as well. *)
Theorem tracked_angle_gradient_is_derivative : forall e previous pos d faces, valid_edge e faces -> nondegenerate (corners e pos faces) ->
  Rabs (incremental_angle e previous pos faces - previous) < PI ->
  is_derive (fun s => incremental_angle e previous (move pos d s) faces) 0 (tet_dot (edge_angle_gradient e pos faces) (corners e d faces)).
Proof. intros e r pos d faces V N H. apply Rabs_def2 in H. apply tracked_derive; [exact V|exact N|lra]. Qed.
Example tracked_angle_gradient_is_derivative_ex : nondegenerate (corners fold_edge fold_pos fold_faces) /\ Rabs (incremental_angle fold_edge (6 * PI) fold_pos fold_faces - 6 * PI) < PI.
Proof. rewrite fold_tracked. split; [exact fold_nondegenerate|]. pose proof PI_RGT_0. apply Rabs_def1; lra. Qed.

(** C88: forces and torques of the gradient balance, also for degenerate faces. *)
Theorem angle_gradient_balanced : forall e pos faces, valid_edge e faces -> let g := edge_angle_gradient e pos faces in let x := corners e pos faces in
  v3_add (v3_add (v3_add (t0 g) (t1 g)) (t2 g)) (t3 g) = v3_0 /\
  v3_add (v3_add (v3_add (v3_cross (t0 x) (t0 g)) (v3_cross (t1 x) (t1 g))) (v3_cross (t2 x) (t2 g))) (v3_cross (t3 x) (t3 g)) = v3_0.
Proof. exact angle_gradient_balance. Qed.
Example angle_gradient_balanced_ex : edge_angle_gradient fold_edge fold_pos fold_faces = Tet (V3 0 (1 / 2) (3 / 2)) v3_0 (V3 0 0 (-1)) (V3 0 (- (1 / 2)) (- (1 / 2))).
Proof.
  rewrite (gradient_corners _ _ _ fold_valid fold_nondegenerate). unfold angle_gradient. assert (L : v3_norm (along (corners fold_edge fold_pos fold_faces)) = 1).
  { unfold v3_norm, along. cbn. unfold v3_dot. cbn. replace ((1 - 0) * (1 - 0) + (0 - 0) * (0 - 0) + (0 - 0) * (0 - 0)) with 1 by ring. apply sqrt_1. }
  rewrite L. unfold normal0, normal1, along, side0, side1. cbn. unfold v3_add, v3_scale, v3_dot, v3_0. cbn. f_equal; f_equal; field.
Qed.

(** C89: the stored blocks are the symmetric derivative of the gradient along every displacement. *)
Theorem angle_hessian_is_derivative : forall e pos d faces i r, valid_edge e faces -> nondegenerate (corners e pos faces) -> (i < 4)%nat -> (r < 3)%nat ->
  is_derive (fun s => tet_get (edge_angle_gradient e (move pos d s) faces) i r) 0
    (sum4 (fun j => sum3 (fun c => stored_entry (edge_angle_hessian e pos faces) i j r c * tet_get (corners e d faces) j c))).
Proof. exact angle_hessian_derive. Qed.
Example angle_hessian_is_derivative_ex : valid_edge fold_edge fold_faces /\ nondegenerate (corners fold_edge fold_pos fold_faces) /\ stored_entry (edge_angle_hessian fold_edge fold_pos fold_faces) 3 3 1 1 = - (1 / 2).
Proof.
  split; [exact fold_valid|]. split; [exact fold_nondegenerate|]. rewrite (hessian_corners _ _ _ fold_valid fold_nondegenerate). unfold stored_entry, stored, angle_derivatives. cbv zeta.
  assert (L : sqrt (v3_dot (along (corners fold_edge fold_pos fold_faces)) (along (corners fold_edge fold_pos fold_faces))) = 1).
  { unfold along. cbn. unfold v3_dot. cbn. replace ((1 - 0) * (1 - 0) + (0 - 0) * (0 - 0) + (0 - 0) * (0 - 0)) with 1 by ring. apply sqrt_1. }
  rewrite L. unfold normal0, normal1, along, side0, side1. cbn. unfold v3_add, v3_scale, v3_dot, v3_0. cbn. field.
Qed.

(** C90: for faces that traverse the edge in opposite order, the reference angle is the angle of the reference positions. *)
Theorem reference_angle_is_rest_angle : forall e pos faces, valid_edge e faces -> face_vert1 e faces 0 = face_vert0 e faces 1 -> face_vert1 e faces 1 = face_vert0 e faces 0 ->
  ref_edge_angle e (fun f i => pos (faces f i)) = edge_angle e pos faces.
Proof. exact ref_angle_oriented. Qed.
Example reference_angle_is_rest_angle_ex : ref_edge_angle fold_edge (fun f i => fold_pos (fold_faces f i)) = - (PI / 4).
Proof. rewrite reference_angle_is_rest_angle; [exact fold_angle|exact fold_valid|reflexivity|reflexivity]. Qed.

(** C90, finding: for faces that traverse the edge in the same order the reference angle of a flat sheet is a half turn away from its angle. *)
Theorem reference_angle_of_unoriented_faces_refuted : exists e pos faces, valid_edge e faces /\ nondegenerate (corners e pos faces) /\
  edge_angle e pos faces = 0 /\ ref_edge_angle e (fun f i => pos (faces f i)) = - PI.
Proof.
  exists (IEdge 0 1 0 0), (fun i => match i with 0%nat => v3_0 | 1%nat => V3 1 0 0 | 2%nat => V3 0 1 0 | _ => V3 0 (-1) 0 end), (fun f i => match f, i with _, 0 => 0 | _, 1 => 1 | 0, _ => 2 | _, _ => 3 end)%nat.
  set (pos := fun i : nat => match i with 0%nat => v3_0 | 1%nat => V3 1 0 0 | 2%nat => V3 0 1 0 | _ => V3 0 (-1) 0 end). set (faces := fun f i : nat => match f, i with _, 0 => 0 | _, 1 => 1 | 0, _ => 2 | _, _ => 3 end%nat).
  assert (V : valid_edge (IEdge 0 1 0 0) faces). { unfold valid_edge, shares_edge. cbn. split; [lia|]. split; [lia|]. split; [lia|]. right. split; reflexivity. }
  split; [exact V|]. split; [split; intros E; apply (f_equal vz) in E; revert E; cbn; lra|]. split.
  - rewrite (edge_angle_corners _ _ _ V). assert (S : sine (corners (IEdge 0 1 0 0) pos faces) = 0) by (unfold sine, v3_norm, normal0, along, side0, side1; cbn; unfold v3_dot; cbn; ring).
    assert (C : cosine (corners (IEdge 0 1 0 0) pos faces) = 1) by (unfold cosine, v3_dot; cbn; ring). rewrite S, C, atan2_right by lra. replace (0 / 1) with 0 by field. rewrite atan_0. ring.
  - unfold ref_edge_angle. cbn. rewrite !v3_eqb_refl. cbn. unfold v3_norm, v3_dot. cbn.
    match goal with |- atan2 (sqrt ?a) ?b * - signum ?c = _ => replace a with 0 by ring; replace b with (-1) by ring; replace c with 0 by ring end. rewrite sqrt_0, atan2_left0 by lra. unfold signum. destruct (Rlt_dec 0 0); lra.
Qed.

Print Assumptions projected_angle_equivalent.
Print Assumptions tracked_angle_continuous.
Print Assumptions tracked_angle_follows.
Print Assumptions edge_angle_is_angle_between_normals.
Print Assumptions angle_gradient_is_derivative.
Print Assumptions tracked_angle_gradient_is_derivative.
Print Assumptions angle_gradient_balanced.
Print Assumptions angle_hessian_is_derivative.
Print Assumptions reference_angle_is_rest_angle.
Print Assumptions reference_angle_of_unoriented_faces_refuted.
