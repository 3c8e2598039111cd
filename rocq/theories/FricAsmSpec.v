(** Assembled friction in textbook terms. *)
From Coq Require Import Reals List.
From Coquelicot Require Import Coquelicot.
From Verif Require Import Vec3 Mat3 RList FrictionModel.
Import ListNotations.
Local Open Scope R_scope.

(** Velocity of a moving point of the plane. *)
Definition moves2 (w : R -> v2) (d : v2) : Prop := is_derive (fun s => v2x (w s)) 0 (v2x d) /\ is_derive (fun s => v2y (w s)) 0 (v2y d).
(** Velocities at which the derivative of the friction law in the code is right. *)
Definition smooth_sliding (fp : friction_params) (w : v2) : Prop :=
  (w = V2 0 0 /\ (fp_static fp = fp_dynamic fp \/ 0 < fp_stribeck fp)) \/
  (w <> V2 0 0 /\ (fp_static fp = fp_dynamic fp \/ fp_stribeck fp < v2_norm w \/ fp_stribeck fp = 1)).
