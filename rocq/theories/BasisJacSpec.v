(** Derivatives of contact bases, in textbook terms. *)
From Coq Require Import Reals List Bool.
From Coquelicot Require Import Coquelicot.
From Verif Require Import Vec3 Mat3 RList FieldModel FieldSpec ContactJacModel BasisJacModel.
Import ListNotations.
Local Open Scope R_scope.

(** An index function that finds a component of largest absolute value. *)
Definition picks_largest (iamax : v3 -> nat) : Prop :=
  forall v, (iamax v < 3)%nat /\ forall j, (j < 3)%nat -> Rabs (v3_get v j) <= Rabs (v3_get v (iamax v)).
(** One component is larger than the others. *)
Definition dominant (v : v3) : Prop :=
  exists i, (i < 3)%nat /\ forall j, (j < 3)%nat -> j <> i -> Rabs (v3_get v j) < Rabs (v3_get v i).
(** Velocity of the gradient at query point [a] when the vertices move with velocities [u]: second derivatives times velocities. *)
Definition gradient_velocity (surface collider : list nat) (Q : list (nat * m3)) (L : list (nat * nat * m3)) (u : nat -> v3) (a : nat) : v3 :=
  v3_add (vsum (map (fun e => if Nat.eqb (fst e) a then m3_mulv (snd e) (u (nth a collider 0%nat)) else v3_0) Q))
         (vsum (map (fun e => let '(q, v, H) := e in if Nat.eqb q a then m3_mulv H (u (nth v surface 0%nat)) else v3_0) L)).
