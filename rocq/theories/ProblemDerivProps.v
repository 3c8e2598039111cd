(** The assembled Jacobian as derivative of the residual, one coordinate at a time. *)
From Coq Require Import Reals List Arith Bool Lra Lia.
From Coquelicot Require Import Coquelicot.
From Verif Require Import Vec3 Mat3 RList ElasticModel ElasticSpec MassModel ShellModel ShellSpec VolumeModel SurfJacSpec SurfHessSpec ContactAsmModel ContactHessSpec ProblemModel ProblemSpec ProblemListProofs ProblemProofs ProblemMatrixProofs ProblemDerivSpec ProblemDerivProofs.
From Verif Require ElasticProofs TimeModel ProblemProps.
Import ListNotations.
Local Open Scope R_scope.

(** C179: row k of the Jacobian is the derivative of coordinate k of the residual, contacts included, in every direction of the velocities; close to
    the state the residual exists. *)
Theorem jacobian_is_residual_derivative : forall p0 V rb p, problem_ok p0 -> length V = pb_active p0 -> update_problem p0 V rb = Some p ->
  zones_defined p0 -> zones_exact p0 -> contacts_apart p0 -> regular_state p ->
  exists ij vals, jacobian_indices p0 true = Some ij /\ jacobian_values p true ij = Some vals /\ length vals = length ij /\
    forall W rb' k, (k < 3 * pb_active p0)%nat ->
      locally 0 (fun s => exists r, residual_at p rb' (mesh_line V W s) = Some r /\ length r = (3 * pb_active p0)%nat) /\
      is_derive (fun s => residual_coordinate p rb' (mesh_line V W s) k) 0
        (rsum (map (fun j => matrix_entry (combine ij vals) k j * coordinate W j) (seq 0 (3 * pb_active p0)))).
Proof.
  intros p0 V rb p OK LV E ZD ZE CA RG. destruct (ProblemProps.settled p0 V rb p OK LV E) as (-> & _). destruct (nnz_ok p0 V rb OK LV) as (room & N0 & _ & L). destruct (indices_of p0 V rb OK LV room L) as [I0 _].
  exists (all_ij p0 V rb), (all_vals p0 V rb). unfold jacobian_indices. rewrite N0. cbn [bind]. split; [exact I0|]. split; [apply values_of; assumption|]. split; [symmetry; apply all_lengths; assumption|].
  intros W rb' k K. exact (coordinate_derive p0 V rb OK LV CA ZD ZE RG W rb' k K).
Qed.
Example jacobian_is_residual_derivative_ex : problem_ok ProblemProps.scene /\ length ProblemProps.scene_vel = pb_active ProblemProps.scene /\ zones_defined ProblemProps.scene /\ zones_exact ProblemProps.scene /\ contacts_apart ProblemProps.scene /\
  (exists p, update_problem ProblemProps.scene ProblemProps.scene_vel true = Some p /\ regular_state p) /\ pb_active ProblemProps.scene = 6%nat /\ pb_nh ProblemProps.scene <> [] /\ length (pb_contacts ProblemProps.scene) = 1%nat /\ is_static ProblemProps.scene = false.
Proof.
  split; [exact ProblemProps.scene_ok|]. split; [reflexivity|]. split; [exact (proj1 ProblemProps.scene_zones)|]. split; [exact (proj1 (proj2 ProblemProps.scene_zones))|]. split; [apply ProblemProps.scene_zones|].
  split; [exact ProblemProps.scene_regular|]. split; [reflexivity|]. split; [discriminate|]. split; [reflexivity|exact (proj1 ProblemProps.scene_moves)].
Qed.
Print Assumptions jacobian_is_residual_derivative.
