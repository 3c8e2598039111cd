(** Time integration of one degree of freedom: /repo/softy/src/fem/nl/time_integration.rs, the *_step functions of
    /repo/softy/src/fem/nl/state.rs:971-1150, update_cur_vertices and compute_vertex_residual of /repo/softy/src/fem/nl/problem.rs.
    Exact reals (the casts of the factors to f32 and back are ignored); [mul_add] is multiply and add.  Static problems (time step zero,
    problem.rs:208-222) are not modelled.  The inertia of the degree of freedom is a mass [m > 0]; InertiaModel/Mass treat assembly. *)
From Coq Require Import Reals List Arith.
From Verif Require Import StepModel.
Import ListNotations.
Local Open Scope R_scope.

(** SingleStepTimeIntegration, time_integration.rs:61-79. *)
Inductive scheme := SBE | STR | SBDF2 | SMixed (t : R) | SSDIRK2.
(** alpha of SDIRK2, problem.rs:863 and time_integration.rs:45, 91. *)
Definition sdirk_alpha : R := 1 - 1 / 2 * sqrt 2.

(** step_integrator, time_integration.rs:28-51. *)
Definition step_integrator (ti : time_integration) (stage : nat) : scheme * R :=
  match ti with
  | BE => (SBE, 1)
  | TR => (STR, 1)
  | BDF2 => (SBDF2, 1)
  | TRBDF2 t => if Nat.even stage then (STR, t) else (SMixed (1 - t), 1)
  | SDIRK2 => if Nat.even stage then (SBE, sdirk_alpha) else (SSDIRK2, 1)
  end.
(** implicit_factor, time_integration.rs:83-91. *)
Definition implicit_factor (s : scheme) : R :=
  match s with SBE => 1 | STR => 1 / 2 | SBDF2 => 2 / 3 | SMixed t => t / (1 + t) | SSDIRK2 => sdirk_alpha end.
(** explicit_factor, time_integration.rs:95-105. *)
Definition explicit_factor (s : scheme) : R :=
  match s with SBE => 0 | STR => 1 / 2 | SBDF2 => 0 | SMixed _ => 0 | SSDIRK2 => 1 / 2 * sqrt 2 end.

(** GeneralizedCoords of one coordinate, state.rs:245-255, with the entry of prev_force (problem.rs:164; a gradient, so minus the force). *)
Record node := Node { q_prev : R; v_prev : R; q_cur : R; v_cur : R; f_prev : R }.
(** Freshly built: prev is a copy of cur (state.rs:260-268), prev_force is zero (solver/builder.rs:829). *)
Definition fresh (q v : R) : node := Node q v q v 0.

(** Velocity of vtx.cur after update_cur_vertices, problem.rs:1320-1344. *)
Definition base_velocity (s : scheme) (n : node) : R :=
  match s with
  | SBDF2 => v_cur n * (4 / 3) + v_prev n * (- (1) / 3)
  | SMixed t => v_cur n * (1 / (1 - t * t)) + v_prev n * (- (t * t / (1 - t * t)))
  | SSDIRK2 => v_cur n * 0 + v_prev n * 1
  | _ => v_cur n
  end.
(** lerp_step, state.rs:1024-1049; sdirk2_step, state.rs:1085-1112. *)
Definition lerp_step (dt alpha q v v_next : R) : R := (v_next * alpha + v * (1 - alpha)) * dt + q.
(** mixed_bdf2_step, state.rs:1126-1150. *)
Definition mixed_bdf2_step (dt gamma : R) (n : node) (v : R) : R :=
  let a := 1 / (gamma * (2 - gamma)) in
  let b := - (1 - gamma) * (1 - gamma) / (gamma * (2 - gamma)) in
  let c := (1 - gamma) / (2 - gamma) in
  v * (c * dt) + q_cur n * a + q_prev n * b.
(** integrate_step, problem.rs:850-868. *)
Definition integrate_step (s : scheme) (dt : R) (n : node) (v : R) : R :=
  match s with
  | SBE => v * dt + q_cur n
  | STR => lerp_step dt (1 / 2) (q_cur n) (v_cur n) v
  | SBDF2 => mixed_bdf2_step (2 * dt) (1 / 2) n v
  | SMixed t => mixed_bdf2_step dt (1 - t) n v
  | SSDIRK2 => lerp_step dt sdirk_alpha (q_prev n) (v_cur n) v
  end.
(** compute_vertex_residual_impl, problem.rs:1396-1450; [g] is what subtract_force leaves in the residual. *)
Definition residual (m : R) (s : scheme) (dt : R) (n : node) (g v : R) : R :=
  (if Rlt_dec 0 (explicit_factor s) then (g * implicit_factor s + f_prev n * explicit_factor s) * dt else g * (dt * implicit_factor s))
  + m * (v - base_velocity s n).
(** compute_objective, problem.rs:1355-1390 for one degree of freedom with potential [E]: previous force term, potential and inertia
    (half the mass times the squared velocity change, see energy_models/inertia/soft_solid.rs:19-46). *)
Definition objective (m : R) (s : scheme) (dt : R) (n : node) (E : R -> R) (v : R) : R :=
  (if Rlt_dec 0 (explicit_factor s) then f_prev n * v * explicit_factor s * dt else 0) + E (integrate_step s dt n v)
  + 1 / 2 * m * ((v - base_velocity s n) * (v - base_velocity s n)).
(** advance, problem.rs:775-783 and state.rs:287-301. *)
Definition advance (n : node) (q v g : R) : node := Node (q_cur n) (v_cur n) q v g.

(** A solved and committed stage for the potential gradient [grad] (the residual vanishes). *)
Definition stage_to (m : R) (grad : R -> R) (s : scheme) (dt : R) (n n' : node) : Prop :=
  exists v, let q := integrate_step s dt n v in residual m s dt n (grad q) v = 0 /\ n' = advance n q v (grad q).
(** The stages of a step, solver.rs:243-245, and repeated steps. *)
Definition stage_of (m : R) (grad : R -> R) (ti : time_integration) (dt : R) (stage : nat) : node -> node -> Prop :=
  let (s, f) := step_integrator ti stage in stage_to m grad s (dt * f).
Definition step_to (m : R) (grad : R -> R) (ti : time_integration) (dt : R) (n n' : node) : Prop :=
  match num_stages ti with
  | 2 => exists n1, stage_of m grad ti dt 0 n n1 /\ stage_of m grad ti dt 1 n1 n'
  | _ => stage_of m grad ti dt 0 n n'
  end%nat.
Inductive steps_to (m : R) (grad : R -> R) (ti : time_integration) (dt : R) : nat -> node -> node -> Prop :=
  | steps_none n : steps_to m grad ti dt 0 n n
  | steps_more k n n1 n2 : steps_to m grad ti dt k n n1 -> step_to m grad ti dt n1 n2 -> steps_to m grad ti dt (S k) n n2.
