(** Vocabulary for statements about a simulation step. *)
From Coq Require Import Reals List Arith.
From Verif Require Import NewtonModel StepModel.
Import ListNotations.
Local Open Scope R_scope.

(** State left behind by a step, whatever its outcome. *)
Definition state_after (o : step_outcome) : sim := match o with StepOk s | StepError s | StepPanic s | StepFuel s => s end.
Definition is_ok (o : step_outcome) : Prop := exists s, o = StepOk s.
Definition is_error (o : step_outcome) : Prop := exists s, o = StepError s.
(** The nonlinear solver always terminates. *)
Definition solver_terminates (e : step_env) : Prop := forall k h st x, fst (s_solve e k h st x) <> NoFuel.
(** The last element of a list of points, or [x0] if there is none. *)
Definition last_point (x0 : vec) (cs : list commit) : vec := last (map c_x cs) x0.
(** Solve number [k] started from the point logged for it and returned [y] with ending [en]. *)
Definition solve_ended (e : step_env) (s : sim) (k : nat) (en : ending) (y : vec) : Prop :=
  exists h st x, nth_error (starts s) k = Some x /\ s_solve e k h st x = (en, y).
(** Endings whose result Solver::step goes on with. *)
Definition usable (en : ending) : Prop := en = Ended Success \/ en = Ended MaximumIterationsExceeded.
