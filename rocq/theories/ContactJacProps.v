(** Property theorems for the contact Jacobian and the contact frames. *)
From Coq Require Import Reals List Arith Lia Lra.
From Verif Require Import Vec3 Mat3 RList FrictionModel FrictionSpec FrictionProofs ContactJacModel ContactJacSpec ContactJacProofs.
Import ListNotations.
Local Open Scope R_scope.

(** Four vertices, the surface is {0, 2}, the collider is {1, 3}, vertex 3 touches the middle of the edge 0-2. *)
Definition ex_maps : contact_maps :=
  {| cm_matrix := [(O, O, half_I); (O, 1%nat, half_I)]; cm_constrained := [1%nat]; cm_surface := [O; 2%nat]; cm_collider := [1%nat; 3%nat] |}.
Lemma ex_maps_ok : maps_in_range ex_maps 4 /\ maps_separate ex_maps.
Proof.
  split.
  - unfold maps_in_range, ex_maps; simpl. repeat split; intros;
      repeat match goal with H : _ \/ _ |- _ => destruct H | H : False |- _ => destruct H end; subst; simpl; lia.
  - unfold maps_separate, ex_maps; simpl. repeat split; repeat constructor; simpl; intros; lia.
Qed.
Definition ex_frame : frame := {| fr_normal := V3 (3/5) (4/5) 0; fr_tangent := V3 0 0 1 |}.
Lemma ex_frame_ok : orthonormal ex_frame.
Proof. unfold orthonormal, ex_frame, v3_dot; simpl. repeat split; field. Qed.

(** C12. Power is the same measured at the contacts and at the vertices. *)
Theorem contact_jacobian_transpose_is_adjoint (c : contact_maps) (v vc : list v3) (n : nat) :
  maps_in_range c n -> maps_separate c -> length v = n -> length vc = length (cm_constrained c) ->
  inner (length (cm_constrained c)) (contact_mul c v) vc = inner n v (contact_tmul c vc n).
Proof. exact (contact_adjoint c v vc n). Qed.
Print Assumptions contact_jacobian_transpose_is_adjoint.
Example contact_jacobian_transpose_is_adjoint_nonvacuous :
  maps_in_range ex_maps 4 /\ maps_separate ex_maps /\
  contact_mul ex_maps [V3 2 0 0; v3_0; V3 4 0 0; V3 1 0 0] = [V3 2 0 0].
Proof.
  split; [apply ex_maps_ok|]. split; [apply ex_maps_ok|].
  unfold ex_maps. compute_contact. f_equal; f_equal; lra.
Qed.

(** C12, limit: when a vertex belongs to both sides of a contact (two materials of one mesh that share vertices), the two maps are not adjoint. *)
Theorem contact_jacobian_shared_vertex_refuted :
  exists (c : contact_maps) (v vc : list v3), maps_in_range c (length v) /\ length vc = length (cm_constrained c) /\
    inner (length (cm_constrained c)) (contact_mul c v) vc <> inner (length v) v (contact_tmul c vc (length v)).
Proof.
  exists shared_maps. destruct shared_not_adjoint as (v & vc & Hv & Hvc & H). exists v, vc. rewrite Hv.
  split; [exact shared_in_range|]. split; [exact Hvc|exact H].
Qed.
Print Assumptions contact_jacobian_shared_vertex_refuted.

(** C13. Contact coordinates: round trip both ways, inner products preserved, and projecting out the normal is the
    tangential round trip, idempotent, without normal component. *)
Theorem contact_coordinates_round_trip (f : frame) (v w : v3) : orthonormal f ->
  from_contact_coordinates f (to_contact_coordinates f v) = v /\
  to_contact_coordinates f (from_contact_coordinates f v) = v /\
  v3_dot (to_contact_coordinates f v) (to_contact_coordinates f w) = v3_dot v w /\
  v3_dot (fr_normal f) (project_out_normal (fr_normal f) v) = 0 /\
  project_out_normal (fr_normal f) (project_out_normal (fr_normal f) v) = project_out_normal (fr_normal f) v /\
  project_out_normal (fr_normal f) v = from_tangent_space f (to_tangent_space f v).
Proof.
  exact (fun H => conj (proj1 (frame_round_trip f v H)) (conj (proj2 (frame_round_trip f v H)) (conj (frame_isometry f v w H) (project_out_spec f v H)))).
Qed.
Print Assumptions contact_coordinates_round_trip.
Example contact_coordinates_round_trip_nonvacuous : orthonormal ex_frame /\ to_contact_coordinates ex_frame (V3 5 0 7) = V3 3 7 4.
Proof.
  split; [exact ex_frame_ok|]. unfold to_contact_coordinates, contact_basis_matrix, ex_frame, m3_mulv, v3_cross, v3_dot; simpl. f_equal; field.
Qed.

(** C14. A frame built from a unit normal is orthonormal and right-handed, for every tie-breaking of the largest component,
    and the normalisation never divides by zero. *)
Theorem contact_frame_from_normal (n : v3) (imax : nat) : v3_dot n n = 1 -> (imax < 3)%nat ->
  (forall j, (j < 3)%nat -> Rabs (v3_get n j) <= Rabs (v3_get n imax)) ->
  (let a := Nat.modulo (imax + 1) 3 in v3_norm (v3_sub (axis a) (v3_scale (v3_get n a) n)) <> 0) /\
  fr_normal (frame_from_normal n imax) = n /\
  orthonormal (frame_from_normal n imax) /\
  m3_det (contact_basis_matrix (frame_from_normal n imax)) = 1.
Proof.
  exact (fun Hn Hi Hm => let H := frame_from_normal_ok n imax Hn Hi Hm in
    conj (proj1 H) (conj eq_refl (conj (proj2 H) (binormal_right_handed _ (proj2 H))))).
Qed.
Print Assumptions contact_frame_from_normal.
Example contact_frame_from_normal_nonvacuous : let n := V3 (3/5) (4/5) 0 in
  v3_dot n n = 1 /\ (forall j, (j < 3)%nat -> Rabs (v3_get n j) <= Rabs (v3_get n 1)).
Proof.
  unfold v3_dot; simpl. split; [field|]. intros j Hj. destruct j as [|[|[|j]]]; try lia; simpl;
    unfold Rabs; repeat destruct Rcase_abs; lra.
Qed.

(** C15. Proved part: the sparse normal basis and the dense tangent blocks represent the direct conversions, for any number of contacts. *)
Theorem contact_basis_matrices_partial (fs : list frame) (x : nat -> R) (c i : nat) (d : frame) (v : v2) :
  (c < length fs)%nat -> (i < 3)%nat ->
  triplets_row (all_triplets normal_basis_triplets 0 fs) x (3 * c + i) = v3_get (from_normal_space (nth c fs d) (x c)) i /\
  tangent_block_mul (nth c fs d) v = from_tangent_space (nth c fs d) v.
Proof. exact (fun Hc Hi => conj (normal_sprs_ok fs x c i d Hc Hi) (tangent_block_ok (nth c fs d) v)). Qed.
Print Assumptions contact_basis_matrices_partial.
Example contact_basis_matrices_partial_nonvacuous : (1 < length [ex_frame; ex_frame])%nat /\ (2 < 3)%nat.
Proof. simpl. lia. Qed.

(** C15, finding: the sparse tangent basis is not the tangential conversion. *)
Theorem tangent_basis_sprs_refuted : exists (f : frame) (x : nat -> R), orthonormal f /\
  triplets_row (all_triplets tangent_basis_triplets 0 [f]) x 1 <> vy (from_tangent_space f (V2 (x 0%nat) (x 1%nat))).
Proof. exact tangent_sprs_wrong. Qed.
Print Assumptions tangent_basis_sprs_refuted.

(** C62. The power of the friction forces on all vertices is never positive. *)
Theorem friction_power_nonpositive (k : profile_kind) (fp : friction_params) (c : contact_maps) (lambda : list R)
    (frames : list frame) (v : list v3) :
  valid_params fp -> maps_in_range c (length v) -> maps_separate c ->
  length lambda = length (cm_constrained c) -> length frames = length (cm_constrained c) ->
  List.Forall (fun l => 0 <= l) lambda ->
  inner (length v) v (friction_force k fp c lambda frames v) <= 0.
Proof. exact (friction_dissipates k fp c lambda frames v). Qed.
Print Assumptions friction_power_nonpositive.
Example friction_power_nonpositive_nonvacuous :
  valid_params {| fp_dynamic := 3 / 10; fp_static := 6 / 10; fp_viscous := 1 / 10; fp_stribeck := 2; fp_epsilon := 1 / 100 |} /\
  maps_in_range ex_maps 4 /\ maps_separate ex_maps /\ length [2] = length (cm_constrained ex_maps) /\
  length [ex_frame] = length (cm_constrained ex_maps) /\ List.Forall (fun l => 0 <= l) [2].
Proof.
  split; [unfold valid_params; simpl; lra|]. split; [apply ex_maps_ok|]. split; [apply ex_maps_ok|].
  split; [reflexivity|]. split; [reflexivity|]. repeat constructor; lra.
Qed.

(** C62, limit: with a vertex on both sides friction can add energy. *)
Theorem friction_power_shared_vertex_refuted :
  exists (k : profile_kind) (fp : friction_params) (c : contact_maps) (lambda : list R) (frames : list frame) (v : list v3),
    valid_params fp /\ maps_in_range c (length v) /\ List.Forall (fun l => 0 <= l) lambda /\ List.Forall orthonormal frames /\
    0 < inner (length v) v (friction_force k fp c lambda frames v).
Proof.
  destruct shared_not_dissipative as (H1 & H2 & H3). do 6 eexists. split; [exact H1|]. split; [|split; [|split; [|exact H3]]].
  - exact shared_in_range.
  - repeat constructor; lra.
  - repeat constructor; exact H2 || apply H2.
Qed.
Print Assumptions friction_power_shared_vertex_refuted.
