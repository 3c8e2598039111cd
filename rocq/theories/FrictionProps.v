(** Property theorems for the sliding friction law. *)
From Coq Require Import Reals Lra.
From Coquelicot Require Import Coquelicot.
From Verif Require Import Calc FrictionModel FrictionSpec FrictionProofs.
Local Open Scope R_scope.

(** Parameters used by the examples: dynamic coefficient 3/10, smoothing 1/100. *)
Definition ex_fp : friction_params :=
  {| fp_dynamic := 3 / 10; fp_static := 3 / 10; fp_viscous := 0; fp_stribeck := 0; fp_epsilon := 1 / 100 |}.
(** Different static coefficient and a Stribeck velocity. *)
Definition ex_fp2 : friction_params :=
  {| fp_dynamic := 3 / 10; fp_static := 6 / 10; fp_viscous := 1 / 10; fp_stribeck := 2; fp_epsilon := 1 / 100 |}.

(** C06. Full statement: the directional derivative of the friction potential is the friction profile.
    Proved: true once the potential is multiplied by the dynamic coefficient (and only without static or viscous part).
    Missing: the code's potential carries no coefficient at all, see [friction_potential_gradient_refuted]. *)
Theorem friction_potential_gradient_partial (k : profile_kind) (v u : v2) (factor : R) (fp : friction_params) :
  0 < fp_epsilon fp -> fp_static fp = fp_dynamic fp /\ fp_viscous fp = 0 ->
  directional2 (fun w => fp_dynamic fp * friction_potential k w factor fp) v u
    (v2_dot (friction_profile k v factor fp) u).
Proof. exact (potential_gradient k v u factor fp). Qed.
Print Assumptions friction_potential_gradient_partial.
Example friction_potential_gradient_partial_nonvacuous :
  0 < fp_epsilon ex_fp /\ fp_static ex_fp = fp_dynamic ex_fp /\ fp_viscous ex_fp = 0.
Proof. simpl. repeat split; lra. Qed.

Theorem friction_potential_gradient_refuted :
  exists (k : profile_kind) (v u : v2) (factor : R) (fp : friction_params),
    valid_params fp /\ plain_params fp /\
    ~ directional2 (fun w => friction_potential k w factor fp) v u (v2_dot (friction_profile k v factor fp) u).
Proof. do 5 eexists. exact potential_gradient_wrong. Qed.
Print Assumptions friction_potential_gradient_refuted.

(** C07. Friction is a non-negative multiple of the sliding velocity (so its negation, the applied force, opposes it),
    vanishes at rest, and without viscosity is bounded by the largest coefficient times the normal force. *)
Theorem friction_opposes_sliding (k : profile_kind) (v : v2) (normal_force : R) (fp : friction_params) :
  valid_params fp -> 0 <= normal_force ->
  (exists c, 0 <= c /\ friction_profile k v normal_force fp = v2_scale c v) /\
  friction_profile k (V2 0 0) normal_force fp = V2 0 0 /\
  0 <= v2_dot (friction_profile k v normal_force fp) v /\
  (fp_viscous fp = 0 -> v2_norm (friction_profile k v normal_force fp) <= normal_force * Rmax (fp_dynamic fp) (fp_static fp)).
Proof. exact (friction_opposes k v normal_force fp). Qed.
Print Assumptions friction_opposes_sliding.
Example friction_opposes_sliding_nonvacuous : valid_params ex_fp /\ valid_params ex_fp2 /\ 0 <= 5 /\ fp_viscous ex_fp = 0.
Proof. unfold valid_params; simpl. repeat split; lra. Qed.

(** C07. Full sliding: for speeds beyond the smoothing and Stribeck velocities the quadratic profile gives exactly Coulomb's law. *)
Theorem friction_is_coulomb_when_sliding (v : v2) (normal_force : R) (fp : friction_params) :
  valid_params fp -> fp_viscous fp = 0 -> 0 <= normal_force -> fp_epsilon fp < v2_norm v -> fp_stribeck fp < v2_norm v ->
  v2_norm (friction_profile Quadratic v normal_force fp) = fp_dynamic fp * normal_force.
Proof. exact (friction_full_sliding v normal_force fp). Qed.
Print Assumptions friction_is_coulomb_when_sliding.
Example friction_is_coulomb_when_sliding_nonvacuous : fp_epsilon ex_fp < v2_norm (V2 3 4) /\ fp_stribeck ex_fp < v2_norm (V2 3 4).
Proof.
  assert (N : v2_norm (V2 3 4) = 5).
  { unfold v2_norm, v2_dot; simpl. replace (3 * 3 + 4 * 4) with (5 * 5) by ring. apply sqrt_square. lra. }
  rewrite N. simpl. lra.
Qed.

(** C07, finding: the viscous part is not scaled by the normal force, so the Coulomb bound fails with viscosity, even at zero normal force. *)
Theorem friction_coulomb_bound_with_viscosity_refuted :
  exists (k : profile_kind) (v : v2) (fp : friction_params),
    valid_params fp /\ 0 * Rmax (fp_dynamic fp) (fp_static fp) < v2_norm (friction_profile k v 0 fp).
Proof. exact viscous_breaks_bound. Qed.
Print Assumptions friction_coulomb_bound_with_viscosity_refuted.

(** C08. The friction Jacobian is the derivative of the friction profile exactly when the static and dynamic
    coefficients agree, or the speed exceeds the Stribeck velocity, or that velocity is one ... *)
Theorem friction_jacobian_is_derivative_partial (k : profile_kind) (factor : R) (fp : friction_params) (v u : v2) :
  valid_params fp -> v <> V2 0 0 ->
  (fp_static fp = fp_dynamic fp \/ fp_stribeck fp < v2_norm v \/ fp_stribeck fp = 1) ->
  directional2_v (fun w => friction_profile k w factor fp) v u (friction_jacobian_mul k v factor fp u).
Proof. exact (jacobian_right k factor fp v u). Qed.
Print Assumptions friction_jacobian_is_derivative_partial.
Example friction_jacobian_is_derivative_partial_nonvacuous :
  valid_params ex_fp2 /\ V2 3 4 <> V2 0 0 /\ fp_static ex_fp2 <> fp_dynamic ex_fp2 /\ fp_stribeck ex_fp2 < v2_norm (V2 3 4).
Proof.
  assert (N : v2_norm (V2 3 4) = 5).
  { unfold v2_norm, v2_dot; simpl. replace (3 * 3 + 4 * 4) with (5 * 5) by ring. apply sqrt_square. lra. }
  rewrite N. unfold valid_params; simpl. repeat split; try lra. intros E; inversion E; lra.
Qed.

(** ... and at rest when the coefficients agree or the Stribeck velocity is positive. *)
Theorem friction_jacobian_at_rest_partial (k : profile_kind) (factor : R) (fp : friction_params) (u : v2) :
  valid_params fp -> (fp_static fp = fp_dynamic fp \/ 0 < fp_stribeck fp) ->
  directional2_v (fun w => friction_profile k w factor fp) (V2 0 0) u (friction_jacobian_mul k (V2 0 0) factor fp u).
Proof. exact (jacobian_right_at_rest k factor fp u). Qed.
Print Assumptions friction_jacobian_at_rest_partial.
Example friction_jacobian_at_rest_partial_nonvacuous : valid_params ex_fp2 /\ 0 < fp_stribeck ex_fp2.
Proof. unfold valid_params; simpl. repeat split; lra. Qed.

(** C08, finding: in every other moving case the Jacobian is wrong (the falloff slope divides by the square instead of the cube). *)
Theorem friction_jacobian_below_stribeck_refuted (k : profile_kind) (factor : R) (fp : friction_params) (v : v2) :
  valid_params fp -> v <> V2 0 0 -> factor <> 0 -> fp_static fp <> fp_dynamic fp ->
  v2_norm v < fp_stribeck fp -> fp_stribeck fp <> 1 ->
  ~ directional2_v (fun w => friction_profile k w factor fp) v v (friction_jacobian_mul k v factor fp v).
Proof. exact (jacobian_wrong k factor fp v). Qed.
Print Assumptions friction_jacobian_below_stribeck_refuted.
Example friction_jacobian_below_stribeck_refuted_nonvacuous :
  valid_params ex_fp2 /\ V2 1 0 <> V2 0 0 /\ fp_static ex_fp2 <> fp_dynamic ex_fp2 /\
  v2_norm (V2 1 0) < fp_stribeck ex_fp2 /\ fp_stribeck ex_fp2 <> 1.
Proof.
  assert (N : v2_norm (V2 1 0) = 1).
  { unfold v2_norm, v2_dot; simpl. replace (1 * 1 + 0 * 0) with 1 by ring. apply sqrt_1. }
  rewrite N. unfold valid_params; simpl. repeat split; try lra. intros E; inversion E; lra.
Qed.

(** C08, finding: at rest with the default Stribeck velocity 0 and different coefficients (default static coefficient 0). *)
Theorem friction_jacobian_at_rest_refuted (k : profile_kind) (factor : R) (fp : friction_params) :
  valid_params fp -> factor <> 0 -> fp_static fp <> fp_dynamic fp -> fp_stribeck fp = 0 ->
  ~ directional2_v (fun w => friction_profile k w factor fp) (V2 0 0) (V2 1 0)
      (friction_jacobian_mul k (V2 0 0) factor fp (V2 1 0)).
Proof. exact (jacobian_wrong_at_rest k factor fp). Qed.
Print Assumptions friction_jacobian_at_rest_refuted.
Example friction_jacobian_at_rest_refuted_nonvacuous :
  let fp := {| fp_dynamic := 3 / 10; fp_static := 0; fp_viscous := 0; fp_stribeck := 0; fp_epsilon := 1 / 10000 |} in
  valid_params fp /\ fp_static fp <> fp_dynamic fp /\ fp_stribeck fp = 0.
Proof. unfold valid_params; simpl. repeat split; lra. Qed.
