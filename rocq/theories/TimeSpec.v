(** Exact motions, and histories lying on them. *)
From Coq Require Import Reals.
From Verif Require Import StepModel TimeModel.
Local Open Scope R_scope.

(** Motion with constant acceleration. *)
Definition position (q v a t : R) : R := q + v * t + a * t * t / 2.
Definition velocity (v a t : R) : R := v + a * t.
(** The current state is the exact one at time [t]. *)
Definition at_time (q v a t : R) (n : node) : Prop := q_cur n = position q v a t /\ v_cur n = velocity v a t.
(** What each scheme needs to know about the past: the trapezoidal rule the last force, BDF2 the state one step ago. *)
Definition history_ok (ti : time_integration) (m q v a dt t : R) (n : node) : Prop :=
  match ti with
  | TR | TRBDF2 _ => f_prev n = - (m * a)
  | BDF2 => q_prev n = position q v a (t - dt) /\ v_prev n = velocity v a (t - dt)
  | BE => a = 0
  | SDIRK2 => True
  end.
Definition split_ok (ti : time_integration) : Prop := match ti with TRBDF2 t => 0 < t < 1 | _ => True end.
Definition scheme_ok (s : scheme) : Prop := match s with SMixed t => 0 < t < 1 | _ => True end.
(** Twice the energy of an oscillator of mass [m] and stiffness [k]. *)
Definition energy (m k q v : R) : R := m * v ^ 2 + k * q ^ 2.
