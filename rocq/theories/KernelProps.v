(** Property theorems C01, C02, C03, C63: radial kernels of the implicit-surface crate. *)
From Coq Require Import Reals Lra.
From Coquelicot Require Import Coquelicot.
From Verif Require Import Vec3 KernelModel KernelSpec KernelProofs.
Local Open Scope R_scope.

(** C01: [df] is the derivative of [f] and [ddf] is the derivative of [df], for every kernel. *)
Theorem kernel_df_ddf_are_derivatives : forall (k : kernel) (x : R),
  valid_kernel k -> regular_distance k x ->
  is_derive (k_f k) x (k_df k x) /\ is_derive (k_df k) x (k_ddf k x).
Proof. exact kernel_derivatives. Qed.
Print Assumptions kernel_df_ddf_are_derivatives.
Example kernel_df_ddf_case :
  valid_kernel (Smooth 2 (1/10)) /\ regular_distance (Smooth 2 (1/10)) 1 /\
  valid_kernel (Interpolating 2 1) /\ regular_distance (Interpolating 2 1) 1 /\
  k_df (Cubic 2) 1 = - 3 / 4.
Proof.
  simpl. repeat split; try lra. unfold cubic_df. destruct (Rlt_dec 2 1); [lra|field].
Qed.

(** C02: nothing beyond the support radius: value, first and second derivative are exactly zero. *)
Theorem kernel_vanishes_beyond_radius : forall (k : kernel) (r x : R),
  support k = Some r -> r < x -> k_f k x = 0 /\ k_df k x = 0 /\ k_ddf k x = 0.
Proof. exact kernel_support. Qed.
Print Assumptions kernel_vanishes_beyond_radius.
Example kernel_vanishes_case : support (Approximate 2 (1/10)) = Some 2 /\ 2 < 3.
Proof. simpl. split; [reflexivity|lra]. Qed.

(** C02: cubic, smooth and approximate kernels are weights: one at the sample, in [0,1], never increasing. *)
Theorem kernel_is_normalised_weight : forall (k : kernel),
  valid_kernel k -> normalised_kernel k ->
  k_f k 0 = 1 /\
  (forall x, 0 <= x -> 0 <= k_f k x <= 1) /\
  (forall x y, 0 <= x -> x <= y -> k_f k y <= k_f k x).
Proof.
  exact (fun k Hv Hn => conj (local_at_zero k Hv Hn)
    (conj (fun x => local_range k x Hv Hn) (fun x y => local_monotone k x y Hv Hn))).
Qed.
Print Assumptions kernel_is_normalised_weight.
Example kernel_is_normalised_case :
  valid_kernel (Approximate 2 (1/10)) /\ normalised_kernel (Approximate 2 (1/10)) /\ k_f (Cubic 2) 1 = 1 / 2.
Proof.
  simpl. repeat split; try lra. rewrite cubic_in by lra. field.
Qed.

(** C02 for the interpolating kernel: positive inside the support ... *)
Theorem interpolating_kernel_positive_inside : forall r c x : R,
  0 < r -> 0 < c -> 0 < x -> x < r -> 0 < k_f (Interpolating r c) x.
Proof. exact interp_positive. Qed.
Print Assumptions interpolating_kernel_positive_inside.
Example interpolating_positive_case : k_f (Interpolating 2 1) 1 = 3 / 8.
Proof. simpl. unk. destruct (Rlt_dec 2 1); [lra|]. field. Qed.

(** ... but not a weight in [0,1]: it exceeds every bound near the sample (by design it interpolates). *)
Theorem interpolating_kernel_bounded_refuted :
  exists r c, valid_kernel (Interpolating r c) /\
    forall M, 0 <= M -> exists x, 0 < x < r /\ M < k_f (Interpolating r c) x.
Proof. exact (ex_intro _ 1 (ex_intro _ 1 (conj (conj Rlt_0_1 Rlt_0_1) interp_unbounded))). Qed.
Print Assumptions interpolating_kernel_bounded_refuted.

(** C03: cubic, interpolating and smooth kernels meet zero with zero slope; [f] is differentiable there. *)
Theorem kernel_joins_zero_smoothly : forall (k : kernel) (r : R),
  valid_kernel k -> support k = Some r -> (forall r' e, k <> Approximate r' e) ->
  k_f k r = 0 /\ k_df k r = 0 /\ is_derive (k_f k) r 0.
Proof. exact smooth_at_radius. Qed.
Print Assumptions kernel_joins_zero_smoothly.
Example kernel_joins_zero_case :
  valid_kernel (Smooth 2 (1/10)) /\ support (Smooth 2 (1/10)) = Some 2 /\
  (forall r' e, Smooth 2 (1/10) <> Approximate r' e).
Proof. simpl. repeat split; try lra. intros r' e H. discriminate H. Qed.

(** C03 fails for the approximate kernel: it is continuous but has a kink at the radius, for all parameters. *)
Theorem approximate_kernel_smooth_at_radius_refuted : forall r e : R, 0 < r -> 0 < e ->
  k_f (Approximate r e) r = 0 /\ k_df (Approximate r e) r < 0 /\ ~ ex_derive (k_f (Approximate r e)) r.
Proof. exact approx_kink. Qed.
Print Assumptions approximate_kernel_smooth_at_radius_refuted.
Example approximate_kernel_case : 0 < 2 /\ 0 < 1 / 100000.
Proof. split; lra. Qed.

(** C63: the radial gradient is the gradient of the radial kernel in every direction, away from the sample ... *)
Theorem radial_gradient_is_derivative : forall (k : kernel) (x p u : v3),
  valid_kernel k -> x <> p -> regular_distance k (v3_norm (v3_sub x p)) ->
  directional (fun y => k_eval k y p) x u (v3_dot (k_grad k x p) u).
Proof. exact radial_gradient. Qed.
Print Assumptions radial_gradient_is_derivative.
(** ... and at the sample for every kernel without a pole. *)
Theorem radial_gradient_is_derivative_at_sample : forall (k : kernel) (p u : v3),
  valid_kernel k -> (forall r c, k <> Interpolating r c) ->
  directional (fun y => k_eval k y p) p u (v3_dot (k_grad k p p) u).
Proof. exact radial_gradient_center. Qed.
Print Assumptions radial_gradient_is_derivative_at_sample.
(** C63: the radial Hessian is the derivative of the radial gradient away from the sample. *)
Theorem radial_hessian_is_derivative : forall (k : kernel) (x p u : v3),
  valid_kernel k -> x <> p -> regular_distance k (v3_norm (v3_sub x p)) ->
  directional_v (fun y => k_grad k y p) x u (k_hess_mul k x p u).
Proof. exact radial_hessian. Qed.
Print Assumptions radial_hessian_is_derivative.
Example radial_case :
  valid_kernel (Cubic 6) /\ V3 3 4 0 <> V3 0 0 0 /\ regular_distance (Cubic 6) (v3_norm (v3_sub (V3 3 4 0) (V3 0 0 0))).
Proof.
  simpl. split; [lra|]. split.
  - intros H. inversion H. lra.
  - unfold v3_norm, v3_dot, v3_sub; simpl.
    replace (_ + _ + _) with (5 * 5) by ring. rewrite sqrt_square; lra.
Qed.
(** C63 fails at the sample: the reported Hessian is zero while the gradient has slope [-6/r^2]. *)
Theorem radial_hessian_at_sample_refuted : forall (r : R) (p : v3), 0 < r ->
  directional_v (fun y => k_grad (Cubic r) y p) p (V3 1 0 0) (V3 (- 6 / (r * r)) 0 0) /\
  k_hess_mul (Cubic r) p p (V3 1 0 0) = V3 0 0 0.
Proof. exact hess_center_wrong. Qed.
Print Assumptions radial_hessian_at_sample_refuted.

(** C91: kernels do not depend on the units of length: values of the local kernels are plain numbers, those of the global kernel scale like [1 / length^4]. *)
Theorem kernel_units_consistent : forall (k : kernel) (c x : R), valid_kernel k -> 0 < c ->
  k_f (rescaled c k) (c * x) = k_f k x / c ^ units k /\
  (regular_distance k x -> k_df (rescaled c k) (c * x) = k_df k x / c ^ S (units k)).
Proof. exact kernel_units. Qed.
Print Assumptions kernel_units_consistent.
Example kernel_units_case : valid_kernel (Global 1) /\ k_f (Global 1) 1 = 1 / 4 /\ k_f (Global 2) 2 = 1 / 64.
Proof. split; [simpl; lra|]. unfold k_f, global_f, global_f_gen. simpl. split; field. Qed.
