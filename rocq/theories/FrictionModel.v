(** Sliding friction: /repo/softy/src/constraints/penalty_point_contact.rs:556-887, over exact reals. *)
From Coq Require Import Reals.
Local Open Scope R_scope.

(** [tensr::Vector2]. *)
Record v2 := V2 { v2x : R; v2y : R }.
Definition v2_add (a b : v2) : v2 := V2 (v2x a + v2x b) (v2y a + v2y b).
Definition v2_scale (s : R) (a : v2) : v2 := V2 (s * v2x a) (s * v2y a).
Definition v2_dot (a b : v2) : R := v2x a * v2x b + v2y a * v2y b.
Definition v2_norm (a : v2) : R := sqrt (v2_dot a a).

(** FrictionProfile, 804-808. *)
Inductive profile_kind := Stabilized | Quadratic.

(** FrictionParams, 1443-1462 (only the fields the force law reads). *)
Record friction_params := {
  fp_dynamic : R; fp_static : R; fp_viscous : R; fp_stribeck : R; fp_epsilon : R
}.

(** stabilized_sliding_potential, 562-568; quadratic_sliding_potential, 572-580. *)
Definition sliding_potential (k : profile_kind) (x epsilon : R) : R :=
  match k with
  | Stabilized => let e := epsilon * (1 / 10) in x + e * ln (2 * e / (e + x))
  | Quadratic => if Rlt_dec x epsilon then (x / epsilon) * (x - (x * x) / (3 * epsilon)) + epsilon / 3 else x
  end.
(** stabilized_sliding_profile, 590-593; quadratic_sliding_profile, 602-610. *)
Definition sliding_profile (k : profile_kind) (x epsilon : R) : R :=
  match k with
  | Stabilized => 1 / (x + 1 / 10 * epsilon)
  | Quadratic => if Rlt_dec x epsilon then (2 - x / epsilon) / epsilon else 1 / x
  end.
(** stabilized_sliding_profile_derivative, 614-617; quadratic_sliding_profile_derivative, 621-628. *)
Definition sliding_profile_derivative (k : profile_kind) (x epsilon : R) : R :=
  match k with
  | Stabilized => let denom := x + 1 / 10 * epsilon in - 1 / (denom * denom)
  | Quadratic => if Rlt_dec x epsilon then - 1 / (epsilon * epsilon) else - 1 / (x * x)
  end.

(** falloff, 658-672. *)
Definition falloff (x w : R) : R :=
  if Rlt_dec w x then 0 else
  let xmw := x - w in
  let w3 := w * w * w in
  if Rlt_dec 0 w3 then (2 * x + w) * xmw * xmw / w3 else 1.
(** dfalloff, 679-692. *)
Definition dfalloff (x w : R) : R :=
  if Rlt_dec w x then 0 else
  let w2 := w * w in
  if Rlt_dec 0 w2 then 6 * x * (x - w) / w2 else 0.

(** FrictionProfile::potential (821-839) = eta_int (698-733): only [epsilon] of the parameters is read. *)
Definition friction_potential (k : profile_kind) (v : v2) (factor : R) (fp : friction_params) : R :=
  factor * sliding_potential k (v2_norm v) (fp_epsilon fp).

(** FrictionProfile::profile (847-861) = eta (740-769). *)
Definition friction_profile (k : profile_kind) (v : v2) (factor : R) (fp : friction_params) : v2 :=
  let v_norm := v2_norm v in
  let h := falloff v_norm (fp_stribeck fp) in
  v2_scale (factor * (fp_dynamic fp + (fp_static fp - fp_dynamic fp) * h) * sliding_profile k v_norm (fp_epsilon fp)
            + fp_viscous fp) v.

(** FrictionProfile::jacobian (865-886) = eta_jac (773-802), applied to [u]:
    [identity * a * u + v * b * (v^T * factor / |v|) * u]. *)
Definition friction_jacobian_mul (k : profile_kind) (v : v2) (factor : R) (fp : friction_params) (u : v2) : v2 :=
  let v_norm := v2_norm v in
  let mu_d := fp_dynamic fp in let mu_s := fp_static fp in
  let s := sliding_profile k v_norm (fp_epsilon fp) in
  let ds := sliding_profile_derivative k v_norm (fp_epsilon fp) in
  let h := falloff v_norm (fp_stribeck fp) in
  let dh := dfalloff v_norm (fp_stribeck fp) in
  let diag := v2_scale (fp_viscous fp + (mu_d + (mu_s - mu_d) * h) * s * factor) u in
  if Rlt_dec 0 v_norm then
    v2_add diag (v2_scale ((mu_d * ds + (mu_s - mu_d) * (dh * s + h * ds)) * (v2_dot v u * factor / v_norm)) v)
  else diag.
