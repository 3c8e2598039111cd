(** One simulation step: Solver::step, /repo/softy/src/fem/nl/solver.rs:207-407, with the stage table of
    /repo/softy/src/fem/nl/time_integration.rs:27-59.  Exact reals.  The nonlinear solve, the contact queries and the derivative check
    are oracles indexed by the number of the attempt, so they may depend on hidden state.  Logging, velocity clearing (l.225-233, 332-334, 391-393)
    and the constraint caches are not modelled. *)
From Coq Require Import Reals List Arith ZArith Bool.
From Verif Require Import NewtonModel.
Import ListNotations.
Local Open Scope R_scope.

(** TimeIntegration, time_integration.rs:5-19. *)
Inductive time_integration := BE | TR | BDF2 | TRBDF2 (t : R) | SDIRK2.
(** num_stages, time_integration.rs:53-58. *)
Definition num_stages (ti : time_integration) : nat := match ti with TRBDF2 _ | SDIRK2 => 2 | _ => 1 end.
(** Time step factor of step_integrator, time_integration.rs:28-51. *)
Definition stage_factor (ti : time_integration) (stage : nat) : R :=
  match ti with
  | BE | TR | BDF2 => 1
  | TRBDF2 t => if Nat.even stage then t else 1
  | SDIRK2 => if Nat.even stage then 1 - 1 / 2 * sqrt 2 else 1
  end.

(** ContactViolation, problem.rs:416-448. *)
Record violation := Violation { bump_ratio : R; depth : R; largest_penalty : R; violating : nat }.

Record step_env := StepEnv {
  s_solve : nat -> R -> vec -> vec -> ending * vec;   (* solver.solve_with, l.276-278: attempt, time step, stiffness, start *)
  s_violation : nat -> vec -> violation;              (* problem.contact_violation, l.302-305 *)
  s_max_step : nat -> vec -> bool;                    (* problem.max_step_violation, l.355 *)
  s_check : nat -> bool;                              (* problem.check_jacobian succeeds for the stage, l.261-265 *)
  s_tolerance : nat -> R                              (* contact tolerance of each constraint *)
}.

(** What was committed: solution, its contact violation, whether the maximum step was violated and whether the status
    MaximumContactIterationsExceeded was recorded. *)
Record commit := Commit { c_x : vec; c_depth : R; c_max_step : bool; c_exceeded : bool }.

(** time step of the problem, initial_point, stiffness of the constraints and of their AD copies; the rest are ghost logs:
    start points of all solves so far and commits. *)
Record sim := Sim { time_step : R; initial_point : vec; stiffness : vec; stiffness_ad : vec; starts : list vec; commits : list commit }.

Inductive stage_outcome := StageDone (budget : Z) (s : sim) | StageError (s : sim) | StagePanic (s : sim) | StageFuel (s : sim).

(** [l[i] *= f]; [None]: index out of range, a panic. *)
Fixpoint scale_at (l : vec) (i : nat) (f : R) : option vec :=
  match l, i with
  | [], _ => None
  | a :: l', O => Some (a * f :: l')
  | a :: l', S i' => option_map (cons a) (scale_at l' i' f)
  end.
(** Relaxation of the stiffness, l.373-388: halved when above 100 / tolerance (decided by the primal value). *)
Fixpoint relax (tol : nat -> R) (k : nat) (l : vec) (l_ad : vec) : vec * vec :=
  match l, l_ad with
  | a :: l', b :: m' =>
      let (r, rd) := relax tol (S k) l' m' in
      if Rlt_dec (100 / tol k) a then (a / 2 :: r, b / 2 :: rd) else (a :: r, b :: rd)
  | _, _ => (l, l_ad)
  end.

(** commit_solution(false), l.124-133. *)
Definition commit_solution (s : sim) (st st_ad : vec) (c : commit) : sim :=
  Sim (time_step s) (c_x c) st st_ad (starts s) (commits s ++ [c]).

(** The contact loop of a stage, l.270-403. *)
Fixpoint stage_loop (fuel : nat) (e : step_env) (budget : Z) (s : sim) : stage_outcome :=
  match fuel with
  | O => StageFuel s
  | S fuel' =>
      let k := length (starts s) in
      let (en, x) := s_solve e k (time_step s) (stiffness s) (initial_point s) in
      let s := Sim (time_step s) (initial_point s) (stiffness s) (stiffness_ad s) (starts s ++ [initial_point s]) (commits s) in
      match en with
      | Ended Success | Ended MaximumIterationsExceeded =>
          let v := s_violation e k x in
          let budget := (budget - 1)%Z in
          if (budget <? 0)%Z then StageDone budget (commit_solution s (stiffness s) (stiffness_ad s) (Commit x (depth v) (s_max_step e k x) true))
          else if Rlt_dec 0 (depth v) then
            let f := Rmax (bump_ratio v) 2 in
            match scale_at (stiffness s) (violating v) f, scale_at (stiffness_ad s) (violating v) f with
            | Some st, Some st_ad => stage_loop fuel' e budget (Sim (time_step s) (initial_point s) st st_ad (starts s) (commits s))
            | _, _ => StagePanic s
            end
          else
            let (st, st_ad) := if Req_EM_T (largest_penalty v) 0 then relax (s_tolerance e) 0 (stiffness s) (stiffness_ad s) else (stiffness s, stiffness_ad s) in
            StageDone budget (commit_solution s st st_ad (Commit x (depth v) (s_max_step e k x) false))
      | Ended _ => StageError s
      | Panicked => StagePanic s
      | NoFuel => StageFuel s
      end
  end.

Inductive step_outcome := StepOk (s : sim) | StepError (s : sim) | StepPanic (s : sim) | StepFuel (s : sim).

(** The stage loop, l.238-405; [n] stages are left.  Each contact loop gets as much fuel as the remaining budget allows. *)
Fixpoint stages (n stage : nat) (e : step_env) (ti : time_integration) (true_dt : R) (budget : Z) (s : sim) : step_outcome :=
  match n with
  | O => StepOk s
  | S n' =>
      let s := Sim (true_dt * stage_factor ti stage) (initial_point s) (stiffness s) (stiffness_ad s) (starts s) (commits s) in
      if negb (s_check e stage) then StepError s
      else match stage_loop (S (Z.to_nat budget)) e budget s with
           | StageDone budget s => stages n' (S stage) e ti true_dt budget s
           | StageError s => StepError s
           | StagePanic s => StepPanic s
           | StageFuel s => StepFuel s
           end
  end.

(** Solver::step with [contact_iterations] from SimParams; the logs start empty. *)
Definition step (e : step_env) (ti : time_integration) (contact_iterations : nat) (dt : R) (x0 st st_ad : vec) : step_outcome :=
  stages (num_stages ti) 0 e ti dt (Z.of_nat contact_iterations) (Sim dt x0 st st_ad [] []).
