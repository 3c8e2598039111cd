(** Specification vocabulary: directional derivatives in the plane of contact. *)
From Coq Require Import Reals.
From Coquelicot Require Import Coquelicot.
From Verif Require Import FrictionModel.
Local Open Scope R_scope.

(** The point [v + s u]. *)
Definition v2_line (v u : v2) (s : R) : v2 := v2_add v (v2_scale s u).
Definition directional2 (f : v2 -> R) (v u : v2) (l : R) : Prop := is_derive (fun s => f (v2_line v u s)) 0 l.
Definition directional2_v (f : v2 -> v2) (v u l : v2) : Prop :=
  is_derive (fun s => v2x (f (v2_line v u s))) 0 (v2x l) /\ is_derive (fun s => v2y (f (v2_line v u s))) 0 (v2y l).

(** Parameters a caller may use: positive smoothing, non-negative coefficients. *)
Definition valid_params (fp : friction_params) : Prop :=
  0 < fp_epsilon fp /\ 0 <= fp_dynamic fp /\ 0 <= fp_static fp /\ 0 <= fp_viscous fp /\ 0 <= fp_stribeck fp.
(** Plain Coulomb friction: no separate static coefficient, no viscosity. *)
Definition plain_params (fp : friction_params) : Prop :=
  fp_static fp = fp_dynamic fp /\ fp_viscous fp = 0.
