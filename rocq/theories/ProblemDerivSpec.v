(** The residual as a function of the velocities. *)
From Coq Require Import Reals List Bool.
From Verif Require Import Vec3 ElasticModel ProblemModel.
Import ListNotations.
Local Open Scope R_scope.

(** The residual for velocities [V] of the vertices that may move, and its [k]-th coordinate. *)
Definition residual_at (p : problem) (rebuild : bool) (V : list v3) : option (list R) :=
  match update_problem p V rebuild with Some p' => residual p' | None => None end.
Definition residual_coordinate (p : problem) (rebuild : bool) (V : list v3) (k : nat) : R :=
  match residual_at p rebuild V with Some r => nth k r 0 | None => 0 end.
