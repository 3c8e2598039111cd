(** Products with the Jacobian that are not assembled with constraints: jacobian_product, jacobian_product_constraint_ad, update_state_ad and
    invalidate_cached_jacobian_product_values, /repo/softy/src/fem/nl/problem.rs:2309-2458 and 2928-2937, with the cache filled by
    compute_jacobian_indices, l.1554-1577.

    Exact reals; a panic is [None].  Dual numbers are modelled by what they compute: the dual part of a value is the derivative of the value
    along the seeded direction at zero.  The constraints over dual numbers are taken to have the same state as the others.  Values of the
    Jacobian are read from the state of the problem, not from the velocities that are passed (the update is commented out, l.1728-1729);
    the sum over rows in parallel is a sum over rows. *)
From Coq Require Import Reals List Arith Bool.
From Coquelicot Require Import Coquelicot.
From Verif Require Import Vec3 Mat3 RList ElasticModel AssemblyModel VolumeModel ContactAsmModel ContactHessModel ProblemModel FricProblemModel.
Import ListNotations.
Local Open Scope R_scope.

(** JacobianWorkspace, l.97-105; the matrix is its stored positions and values. *)
Record workspace := Workspace { ws_ij : list (nat * nat); ws_pattern : list pos; ws_mapping : list (option nat); ws_store : list R; ws_stale : bool }.
(** What compute_jacobian_indices leaves in the workspace, l.1554-1577: the places without constraints. *)
Definition cache_places (p : problem) (fem : list (nat * nat)) : workspace :=
  let (pattern, mapping) := sparse_matrix_and_mapping (map fst fem) (map snd fem) (3 * pb_active p) false in
  Workspace fem pattern mapping (repeat 0 (length pattern)) true.
Definition indices_and_workspace (iamax : v3 -> nat) (ord : list nat -> list nat) (q : friction_problem) (with_constraints : bool) : option (list (nat * nat) * workspace) :=
  bind (friction_nnz iamax ord q with_constraints) (fun room =>
  bind (fem_indices (fq_base q) room) (fun fem =>
  option_map (fun ij => (ij, cache_places (fq_base q) fem)) (compute_friction_indices iamax ord q with_constraints room))).
(** invalidate_cached_jacobian_product_values, l.2934-2937. *)
Definition invalidate (w : workspace) : workspace := Workspace (ws_ij w) (ws_pattern w) (ws_mapping w) (ws_store w) true.
(** l.2325-2336. *)
Definition refresh_workspace (p : problem) (w : workspace) : option workspace :=
  if ws_stale w then option_map (fun vals => Workspace (ws_ij w) (ws_pattern w) (ws_mapping w) (redistribute (length (ws_pattern w)) (ws_mapping w) vals) false) (jacobian_values p false (ws_ij w))
  else Some w.

(** The velocities with [P] as dual part, update_state_ad, l.2415-2430, at [s]. *)
Definition seeded (V : list v3) (P : list R) (s : R) : list v3 :=
  map (fun e => v3_add (snd e) (v3_scale s (by_coordinate (fun k => nth k P 0) (fst e)))) (combine (seq 0 (length V)) V).
(** The residual of the constraints alone, l.2346-2371: from zeros, the forces of subtract_constraint_forces, l.1126-1168, not lagged, times
    the factors of the integrator, for the degrees of freedom. *)
Definition constraint_residual (q : friction_problem) : option (list R) :=
  let p := fq_base q in
  bind (subtract_pressure_forces (pb_zones p) (at_ (pb_pos p)) (repeat 0 (3 * pb_size p))) (fun f =>
  bind (subtract_contact_forces (pb_contacts p) (unstack f)) (fun r =>
  option_map (fun r => firstn (3 * pb_active p) (map (fun a => a * (force_mul p * time_step p)) (stack r))) (subtract_friction_forces (fq_parts q) (pb_vel p) false r))).
Definition constraint_residual_at (iamax : v3 -> nat) (q : friction_problem) (V : list v3) : option (list R) := bind (update_friction_problem iamax q V false) constraint_residual.
(** Its dual part, l.2373-2379. *)
Definition dual_part (iamax : v3 -> nat) (q : friction_problem) (V : list v3) (P : list R) (k : nat) : R :=
  Derive (fun s => match constraint_residual_at iamax q (seeded V P s) with Some r => nth k r 0 | None => 0 end) 0.
(** Row [k] of the stored matrix times [P], l.2390-2398. *)
Definition stored_row (w : workspace) (P : list R) (k : nat) : R :=
  rsum (map (fun e => snd e * nth (snd (fst e)) P 0) (filter (fun e => Nat.eqb (fst (fst e)) k) (combine (ws_pattern w) (ws_store w)))).
(** jacobian_product_constraint_ad, l.2309-2408. *)
Definition jacobian_product (iamax : v3 -> nat) (q : friction_problem) (w : workspace) (V : list v3) (P : list R) : option (workspace * list R) :=
  bind (refresh_workspace (fq_base q) w) (fun w' =>
  bind (constraint_residual_at iamax q (seeded V P 0)) (fun _ =>
    Some (w', map (fun k => dual_part iamax q V P k + stored_row w' P k) (seq 0 (3 * pb_active (fq_base q)))))).
(** Products one after the other, as a linear solver asks for them. *)
Fixpoint jacobian_products (iamax : v3 -> nat) (q : friction_problem) (w : workspace) (V : list v3) (Ps : list (list R)) : option (workspace * list (list R)) :=
  match Ps with
  | [] => Some (w, [])
  | P :: r => bind (jacobian_product iamax q w V P) (fun a => option_map (fun b => (fst b, snd a :: snd b)) (jacobian_products iamax q (fst a) V r))
  end.
