(** Radial kernels of the implicit surface crate: /repo/implicits/src/kernel.rs.

    Real arithmetic is exact (no rounding, no NaN); a Rust division by zero is outside the guards of the
    theorems.  [epsilon]/[tolerance]/[radius] are the struct fields. *)
From Coq Require Import Reals.
From Verif Require Import Dual Vec3.
Local Open Scope R_scope.

(** GlobalInvDistance2::f, kernel.rs:269-273, generic in the scalar. *)
Definition global_f_gen {T} (o : ops T) (epsilon : R) (x : T) : T :=
  let eps := o_of o epsilon in
  let w := o_div o (o_of o 1) (o_add o (o_mul o x x) (o_mul o eps eps)) in
  o_mul o w w.
Definition global_f (epsilon x : R) : R := global_f_gen ops_R epsilon x.
(** GlobalInvDistance2::df, kernel.rs:275-277: automatic differentiation of [f]. *)
Definition global_df_gen {T} (o : ops T) (epsilon : R) (x : T) : T :=
  d_der (global_f_gen (ops_dual o) epsilon (d_var o x)).
Definition global_df (epsilon x : R) : R := global_df_gen ops_R epsilon x.
(** GlobalInvDistance2::ddf, kernel.rs:279-281: automatic differentiation of [df] (nested dual numbers). *)
Definition global_ddf (epsilon x : R) : R :=
  d_der (global_df_gen (ops_dual ops_R) epsilon (d_var ops_R x)).

(** LocalCubic::f, kernel.rs:298-308, generic in the scalar (it is called on duals by LocalInterpolating). *)
Definition cubic_f_gen {T} (o : ops T) (radius : R) (x : T) : T :=
  let r := o_of o radius in
  if Rlt_dec (o_val o r) (o_val o x) then o_of o 0 else
  o_add o
   (o_sub o (o_of o 1)
      (o_div o (o_mul o (o_mul o (o_of o 3) x) x) (o_mul o r r)))
   (o_div o (o_mul o (o_mul o (o_mul o (o_of o 2) x) x) x) (o_mul o (o_mul o r r) r)).
Definition cubic_f (radius x : R) : R := cubic_f_gen ops_R radius x.
(** LocalCubic::df, kernel.rs:309-319. *)
Definition cubic_df (r x : R) : R :=
  if Rlt_dec r x then 0 else 6 * (x * x / (r * r * r) - x / (r * r)).
(** LocalCubic::ddf, kernel.rs:321-332. *)
Definition cubic_ddf (r x : R) : R :=
  if Rlt_dec r x then 0 else 12 * x / (r * r * r) - 6 / (r * r).

(** LocalInterpolating::f, kernel.rs:354-366; [closest_d] is the field set by [with_closest_dist] (613-619). *)
Definition interp_f_gen {T} (o : ops T) (radius closest_d : R) (x : T) : T :=
  let r := o_of o radius in
  let xc := o_of o closest_d in
  if Rlt_dec (o_val o r) (o_val o x) then o_of o 0 else
  let envelope := cubic_f_gen o radius x in
  let s := o_div o x r in
  let sc := o_div o xc r in
  o_mul o (o_mul o (o_mul o envelope sc) sc) (o_sub o (o_div o (o_of o 1) (o_mul o s s)) (o_of o 1)).
Definition interp_f (radius closest_d x : R) : R := interp_f_gen ops_R radius closest_d x.
(** LocalInterpolating::df, kernel.rs:367-369. *)
Definition interp_df_gen {T} (o : ops T) (radius closest_d : R) (x : T) : T :=
  d_der (interp_f_gen (ops_dual o) radius closest_d (d_var o x)).
Definition interp_df (radius closest_d x : R) : R := interp_df_gen ops_R radius closest_d x.
(** LocalInterpolating::ddf, kernel.rs:371-373. *)
Definition interp_ddf (radius closest_d x : R) : R :=
  d_der (interp_df_gen (ops_dual ops_R) radius closest_d (d_var ops_R x)).

(** LocalSmooth::f, kernel.rs:395-412. *)
Definition smooth_f (r t x : R) : R :=
  if Rlt_dec r x then 0 else
  let d := x / r in let d2 := d * d in let d3 := d2 * d in
  t * (2 * d3 - 3 * d2 + 1) / (t + d2).
(** LocalSmooth::df, kernel.rs:413-432. *)
Definition smooth_df (r t x : R) : R :=
  if Rlt_dec r x then 0 else
  let d := x / r in let d2 := d * d in let d3 := d2 * d in let d4 := d3 * d in
  2 * t * d * (3 * t * d - 3 * t + d3 - 1) / (r * (t * t + 2 * t * d2 + d4)).
(** LocalSmooth::ddf, kernel.rs:434-462. *)
Definition smooth_ddf (r t x : R) : R :=
  if Rlt_dec r x then 0 else
  let d := x / r in let d2 := d * d in let d3 := d2 * d in let d4 := d3 * d in let d6 := d3 * d3 in
  let t2 := t * t in let t3 := t2 * t in
  2 * t * (6 * t2 * d - 3 * t2 - 2 * t * d3 + 9 * t * d2 - t + 3 * d2)
    / (r * r * (t3 + 3 * t2 * d2 + 3 * t * d4 + d6)).

(** LocalApproximate::f, kernel.rs:481-498. *)
Definition approx_f (r eps x : R) : R :=
  if Rlt_dec r x then 0 else
  let d := x / r in
  let ddeps := 1 / (d * d + eps) in
  let eps1 := 1 + eps in
  let eps1_2 := eps1 * eps1 in
  let factor := eps * eps * eps1_2 / (1 + 2 * eps) in
  factor * (ddeps * ddeps - 1 / eps1_2).
(** LocalApproximate::df, kernel.rs:499-517. *)
Definition approx_df (r eps x : R) : R :=
  if Rlt_dec r x then 0 else
  let d := x / r in
  let eps1 := 1 + eps in
  let eps1_2 := eps1 * eps1 in
  let factor := eps * eps * eps1_2 / (1 + 2 * eps) in
  let d2_eps := d * d + eps in
  - factor * 4 * d / (r * d2_eps * d2_eps * d2_eps).
(** LocalApproximate::ddf, kernel.rs:519-539. *)
Definition approx_ddf (r eps x : R) : R :=
  if Rlt_dec r x then 0 else
  let d := x / r in
  let eps1 := 1 + eps in
  let eps1_2 := eps1 * eps1 in
  let factor := eps * eps * eps1_2 / (1 + 2 * eps) in
  let d2_eps := d * d + eps in
  let d2_eps4 := d2_eps * d2_eps * d2_eps * d2_eps in
  factor * 4 * (6 * d * d - d2_eps) / (d2_eps4 * r * r).

(** The kernels selectable through the public API ([KernelType], kernel.rs:11-30; HRBF has no radial
    kernel of this family), with the radius already multiplied out as in [apply_as_spherical!], kernel.rs:91-123. *)
Inductive kernel :=
| Global (tolerance : R)
| Cubic (radius : R)
| Interpolating (radius closest_d : R)
| Smooth (radius tolerance : R)
| Approximate (radius tolerance : R).

Definition k_f (k : kernel) : R -> R :=
  match k with
  | Global e => global_f e | Cubic r => cubic_f r | Interpolating r c => interp_f r c
  | Smooth r t => smooth_f r t | Approximate r e => approx_f r e
  end.
Definition k_df (k : kernel) : R -> R :=
  match k with
  | Global e => global_df e | Cubic r => cubic_df r | Interpolating r c => interp_df r c
  | Smooth r t => smooth_df r t | Approximate r e => approx_df r e
  end.
Definition k_ddf (k : kernel) : R -> R :=
  match k with
  | Global e => global_ddf e | Cubic r => cubic_ddf r | Interpolating r c => interp_ddf r c
  | Smooth r t => smooth_ddf r t | Approximate r e => approx_ddf r e
  end.

(** RadialKernel::eval, kernel.rs:546-548. *)
Definition k_eval (k : kernel) (x p : v3) : R := k_f k (v3_norm (v3_sub x p)).
(** RadialKernel::grad, kernel.rs:552-560. *)
Definition k_grad (k : kernel) (x p : v3) : v3 :=
  let diff := v3_sub x p in
  let norm := v3_norm diff in
  if Rlt_dec 0 norm then v3_scale (k_df k norm / norm) diff else V3 0 0 0.
(** RadialKernel::hess, kernel.rs:564-576, applied to a vector [u]: [hess * u].
    (The code returns the matrix; only its action is used here.) *)
Definition k_hess_mul (k : kernel) (x p u : v3) : v3 :=
  let diff := v3_sub x p in
  let norm := v3_norm diff in
  if Rlt_dec 0 norm then
    let norm_inv := 1 / norm in
    let norm_inv2 := norm_inv * norm_inv in
    let proj_u := v3_scale (v3_dot diff u * norm_inv2) diff in
    v3_add (v3_scale (k_df k norm * norm_inv) (v3_sub u proj_u)) (v3_scale (k_ddf k norm) proj_u)
  else V3 0 0 0.
