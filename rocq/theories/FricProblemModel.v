(** The nonlinear problem with frictional contacts: /repo/softy/src/fem/nl/problem.rs:997-1019, 1126-1207, 1396-1450, 1622-1655, 1948-1995
    and 2861-2902, around the problem without friction of ProblemModel.

    Exact reals; a panic is [None].  A contact without friction parameters has no friction part: update_sliding_basis and
    subtract_friction_force do nothing and friction_jacobian_indexed_value_iter gives no iterator
    (/repo/softy/src/constraints/penalty_point_contact.rs:2446, 2342 and 2914).  [iamax] and [ord] as in FricAsmModel.  Updates compute
    the contact gradient ([explicit_jacobian]); the stash of the sliding basis, timings and debug output are left out. *)
From Coq Require Import Reals List Arith Bool.
From Verif Require Import Vec3 Mat3 RList ElasticModel NeighborModel ContactAsmModel ContactHessModel FricAsmModel MassModel ProblemModel.
Import ListNotations.
Local Open Scope R_scope.

(** Friction of one contact: FrictionParams, the contact state of the previous step and the current one
    (penalty_point_contact.rs:1540-1560); the fields of [pt_cur] that the contact without friction has too are those of [pb_contacts]. *)
Record friction_part := FrictionPart { pt_options : friction_options; pt_prev : friction_state; pt_cur : friction_state }.
(** The problem with one entry for every contact. *)
Record friction_problem := FrictionProblem { fq_base : problem; fq_parts : list (option friction_part) }.

(** update_state, l.2861-2889. *)
Definition update_part (iamax : v3 -> nat) (n : nat) (e : contact * mapped v3 * option friction_part) : option (option friction_part) :=
  match snd e with
  | None => Some None
  | Some f => option_map (fun s => Some (FrictionPart (pt_options f) (pt_prev f) s)) (refresh_friction iamax (pt_cur f) (fst (fst e)) n)
  end.
Definition update_friction_problem (iamax : v3 -> nat) (q : friction_problem) (V : list v3) (rebuild : bool) : option friction_problem :=
  bind (update_problem (fq_base q) V rebuild) (fun p =>
    option_map (FrictionProblem p) (all_some (map (update_part iamax (pb_size p)) (combine (pb_contacts p) (fq_parts q))))).

(** subtract_friction_forces, l.1170-1207. *)
Fixpoint subtract_friction_forces (fs : list (option friction_part)) (v : list v3) (lagged : bool) (r : list v3) : option (list v3) :=
  match fs with
  | [] => Some r
  | None :: fs' => subtract_friction_forces fs' v lagged r
  | Some f :: fs' => bind (subtract_friction_force (Some (pt_options f)) (pt_prev f) (pt_cur f) r v lagged) (subtract_friction_forces fs' v lagged)
  end.
(** compute_vertex_residual_impl, l.1396-1450, with the forces of subtract_constraint_forces, l.1126-1168. *)
Definition friction_vertex_residual (q : friction_problem) (symmetric : bool) : option (list R) :=
  let p := fq_base q in
  bind (subtract_forces p) (fun f => bind (option_map stack (subtract_friction_forces (fq_parts q) (pb_vel p) symmetric (unstack f))) (fun r =>
    let r := if Rlt_dec 0 (prev_force_mul p) then zip_update (fun cur_f prev_f => (cur_f * force_mul p + prev_f * prev_force_mul p) * time_step p) r (pb_prev_force p)
      else map (fun f => f * dqdv p) r in
    if is_static p then Some r else add_momentum_diff p r)).
Definition friction_residual (q : friction_problem) (symmetric : bool) : option (list R) :=
  option_map (firstn (3 * pb_active (fq_base q))) (friction_vertex_residual q symmetric).

(** What a contact contributes to the Jacobian; [dqdv] is the derivative of positions by velocities. *)
Definition part_jacobian (iamax : v3 -> nat) (ord : list nat -> list nat) (p : problem) (dqdv : R) (f : option friction_part) : option (list (nat * nat * R)) :=
  match f with None => Some [] | Some f => friction_jacobian iamax ord (pt_options f) (pt_prev f) (pt_cur f) (pb_vel p) dqdv (pb_active p) end.
(** jacobian_nnz, l.997-1019: with the time step in the place of [dqdv]. *)
Definition friction_nnz (iamax : v3 -> nat) (ord : list nat -> list nat) (q : friction_problem) (with_constraints : bool) : option nat :=
  let p := fq_base q in
  bind (jacobian_nnz p with_constraints) (fun num =>
    if with_constraints then option_map (fun Js => (num + list_sum (map (@length _) Js))%nat) (all_some (map (part_jacobian iamax ord p (time_step p)) (fq_parts q)))
    else Some num).
(** compute_jacobian_indices, l.1622-1655: with the time step in the place of [dqdv]; jacobian_indices, l.1467-1477. *)
Definition compute_friction_indices (iamax : v3 -> nat) (ord : list nat -> list nat) (q : friction_problem) (with_constraints : bool) (room : nat) : option (list (nat * nat)) :=
  let p := fq_base q in
  bind (compute_jacobian_indices p with_constraints room) (fun done =>
    if with_constraints then option_map (fun Js => zip_fill_all room done (map (map fst) Js)) (all_some (map (part_jacobian iamax ord p (time_step p)) (fq_parts q)))
    else Some done).
Definition friction_indices (iamax : v3 -> nat) (ord : list nat -> list nat) (q : friction_problem) (with_constraints : bool) : option (list (nat * nat)) :=
  bind (friction_nnz iamax ord q with_constraints) (compute_friction_indices iamax ord q with_constraints).
(** jacobian_values, l.1948-1995: the force multiplier is [dqdv], the factor one. *)
Definition friction_values (iamax : v3 -> nat) (ord : list nat -> list nat) (q : friction_problem) (with_constraints : bool) (ij : list (nat * nat)) : option (list R) :=
  let p := fq_base q in
  bind (jacobian_values p with_constraints ij) (fun done =>
    if with_constraints then
      option_map (fun Js => zip_fill_all (length ij) done (map (map (fun e => dqdv p * 1 * snd e)) Js)) (all_some (map (part_jacobian iamax ord p (dqdv p)) (fq_parts q)))
    else Some done).
