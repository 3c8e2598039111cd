(** The residual with friction as a function of the velocities. *)
From Coq Require Import Reals List Bool.
From Verif Require Import Vec3 ElasticModel ProblemModel FricProblemModel.
Import ListNotations.
Local Open Scope R_scope.

(** The residual that Newton's method solves for, for velocities [V] of the vertices that may move, and its [k]-th coordinate. *)
Definition whole_residual_at (iamax : v3 -> nat) (q : friction_problem) (rebuild : bool) (V : list v3) : option (list R) :=
  match update_friction_problem iamax q V rebuild with Some q' => friction_residual q' false | None => None end.
Definition whole_coordinate (iamax : v3 -> nat) (q : friction_problem) (rebuild : bool) (V : list v3) (k : nat) : R :=
  match whole_residual_at iamax q rebuild V with Some r => nth k r 0 | None => 0 end.
