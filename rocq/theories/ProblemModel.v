(** The nonlinear problem solved in every step, assembled from all energies and constraints: /repo/softy/src/fem/nl/problem.rs:196-222,
    949-1044, 1074-1118, 1126-1168, 1209-1241, 1355-1450, 1467-1760, 1761-1995, 2096-2121 and 2861-2902.

    Exact reals (casts to f32 are ignored).  Contacts without friction: [friction_params] is absent, so that subtract_friction_force,
    lagged_friction_potential and friction_jacobian_indexed_value_iter contribute nothing (penalty_point_contact.rs:2255, 2347 and 2914).
    Element Hessians are not projected.  The solid elements are those of TetSolid::elasticity, inertia and gravity,
    /repo/softy/src/objects/tetsolid.rs:433-467; shells have no rigid parts.  Slices are lists; a panic is [None]; the debug assertions
    of finite values are left out. *)
From Coq Require Import Reals List Arith Bool.
From Verif Require Import Vec3 Mat3 RList ElasticModel MassModel VolumeModel ShellModel StepModel.
From Verif Require Import NeighborModel ContactAsmModel ContactHessModel.
From Verif Require TimeModel.
Import ListNotations.
Local Open Scope R_scope.

(** TetElements with densities; the triangle elements of the shell have their densities beside them. *)
Definition tet_mass (e : solid_tet * R) : melem := let (s, density) := e in MElem [c0 s; c1 s; c2 s; c3 s] (s_vol s) density.
Definition tri_mass (e : shell_tri * R) : melem := let (t, density) := e in MElem [f_0 t; f_1 t; f_2 t] (f_area t) density.

(** NLProblem, problem.rs:125-180, with the parts of State (state.rs:60-150) that it reads: vertices that may move come first; their
    coordinates carry the past states of TimeModel (whose [f_prev] is not used here), the others have given velocities and positions. *)
Record problem := Problem {
  pb_nh : list (solid_tet * R); pb_snh : list (solid_tet * R);
  pb_shell : shell; pb_shell_density : list R;
  pb_zones : list zone;
  pb_contacts : list (contact * mapped v3);
  pb_gravity : v3;
  pb_time_step : R;
  pb_scheme : TimeModel.scheme;
  pb_nodes : list TimeModel.node;
  pb_active : nat;
  pb_fixed_vel : nat -> v3;
  pb_prev_force : list R;
  pb_pos : list v3; pb_vel : list v3 }.
Definition pb_size (p : problem) : nat := length (pb_pos p).
Definition nh_tets (p : problem) : list solid_tet := map fst (pb_nh p).
Definition snh_tets (p : problem) : list solid_tet := map fst (pb_snh p).
Definition nh_masses (p : problem) : list melem := map tet_mass (pb_nh p).
Definition snh_masses (p : problem) : list melem := map tet_mass (pb_snh p).
Definition shell_masses (p : problem) : list melem := map tri_mass (combine (sh_tris (pb_shell p)) (pb_shell_density p)).

(** is_static and time_step, l.208-222; dqdv, l.1363 and 1413. *)
Definition is_static (p : problem) : bool := if Req_EM_T (pb_time_step p) 0 then true else false.
Definition time_step (p : problem) : R := if is_static p then 1 else pb_time_step p.
Definition force_mul (p : problem) : R := TimeModel.implicit_factor (pb_scheme p).
Definition prev_force_mul (p : problem) : R := TimeModel.explicit_factor (pb_scheme p).
Definition dqdv (p : problem) : R := time_step p * force_mul p.

(** Stacked coordinates: [Chunked3::from_flat] and its storage. *)
Definition stack (l : list v3) : list R := flat_map (fun a => [vx a; vy a; vz a]) l.
Fixpoint unstack (l : list R) : list v3 := match l with a :: b :: c :: r => V3 a b c :: unstack r | _ => [] end.
Definition at_ (l : list v3) (i : nat) : v3 := nth i l v3_0.
Definition by_coordinate (f : nat -> R) (i : nat) : v3 := V3 (f (3 * i)%nat) (f (3 * i + 1)%nat) (f (3 * i + 2)%nat).
Definition node_at (p : problem) (k : nat) : TimeModel.node := nth k (pb_nodes p) (TimeModel.Node 0 0 0 0 0).

(** update_state, l.2861-2889, with integrate_step and update_vertices (state.rs:783-790) for velocities [V] of the moving vertices. *)
Definition next_pos (p : problem) (V : list v3) : list v3 :=
  map (by_coordinate (fun k => TimeModel.integrate_step (pb_scheme p) (time_step p) (node_at p k) (nth k (stack V) 0))) (seq 0 (pb_active p)) ++ skipn (pb_active p) (pb_pos p).
Definition next_vel (p : problem) (V : list v3) : list v3 := firstn (pb_active p) V ++ skipn (pb_active p) (pb_vel p).
Definition update_contact (X : list v3) (rebuild : bool) (c : contact * mapped v3) : option (contact * mapped v3) :=
  match update_state (fst c) X rebuild with
  | Some c' => option_map (fun g => (c', g)) (update_constraint_gradient (snd c) c')
  | None => None
  end.
Definition update_problem (p : problem) (V : list v3) (rebuild : bool) : option problem :=
  let X := next_pos p V in
  option_map (fun cs => Problem (pb_nh p) (pb_snh p) (pb_shell p) (pb_shell_density p) (pb_zones p) cs (pb_gravity p) (pb_time_step p) (pb_scheme p)
      (pb_nodes p) (pb_active p) (pb_fixed_vel p) (pb_prev_force p) X (next_vel p V))
    (all_some (map (update_contact X rebuild) (pb_contacts p))).
(** Velocities of vtx.cur, update_cur_vertices, l.1318-1344. *)
Definition cur_vel (p : problem) (i : nat) : v3 :=
  if Nat.ltb i (pb_active p) then by_coordinate (fun k => TimeModel.base_velocity (pb_scheme p) (node_at p k)) i else pb_fixed_vel p i.

(** energy, l.1087-1118, and inertia, l.1074-1084. *)
Definition problem_energy (p : problem) : option ext :=
  let x := at_ (pb_pos p) in let v := at_ (pb_vel p) in let h := dqdv p in
  option_map (fun cs =>
      ext_add (ext_add (ext_add (ext_add (ext_add (ext_add (mesh_energy neo_hookean (nh_tets p) h x v) (mesh_energy stable_neo_hookean (snh_tets p) h x v))
        (Fin (gravity_energy (1 / 4) (pb_gravity p) (nh_masses p) x + gravity_energy (1 / 4) (pb_gravity p) (snh_masses p) x)))
        (shell_energy (pb_shell p) h x v)) (Fin (gravity_energy (1 / 3) (pb_gravity p) (shell_masses p) x)))
        (Fin (rsum (map (fun z => volume_penalty z x) (pb_zones p))))) (Fin (rsum cs)))
    (all_some (map (fun c => contact_constraint (fst c)) (pb_contacts p))).
Definition problem_inertia (p : problem) : R :=
  let v0 := cur_vel p in let v1 := at_ (pb_vel p) in
  inertia_energy (1 / 4) (nh_masses p) v0 v1 + inertia_energy (1 / 4) (snh_masses p) v0 v1 + inertia_energy (1 / 3) (shell_masses p) v0 v1.
(** compute_objective, l.1355-1390. *)
Definition compute_objective (p : problem) : option ext :=
  option_map (fun e =>
      let e := ext_add (Fin (if Rlt_dec 0 (prev_force_mul p) then
          rsum (map (fun rv => fst rv * snd rv) (combine (pb_prev_force p) (stack (pb_vel p)))) * prev_force_mul p * time_step p else 0)) e in
      if is_static p then e else ext_add e (Fin (problem_inertia p)))
    (problem_energy p).

(** subtract_constraint_forces, l.1126-1168. *)
Fixpoint subtract_pressure_forces (zs : list zone) (x : nat -> v3) (r : list R) : option (list R) :=
  match zs with [] => Some r | z :: zs' => bind (subtract_pressure_force z x r) (subtract_pressure_forces zs' x) end.
Fixpoint subtract_contact_forces (cs : list (contact * mapped v3)) (r : list v3) : option (list v3) :=
  match cs with [] => Some r | c :: cs' => bind (subtract_constraint_force (fst c) r) (subtract_contact_forces cs') end.
(** subtract_force, l.1209-1241, from a residual of zeros. *)
Definition subtract_forces (p : problem) : option (list R) :=
  let x := at_ (pb_pos p) in let v := at_ (pb_vel p) in let h := dqdv p in
  bind (add_mesh_gradient neo_hookean (nh_tets p) h x v (repeat v3_0 (pb_size p))) (fun r =>
  bind (add_mesh_gradient stable_neo_hookean (snh_tets p) h x v r) (fun r =>
  bind (add_gravity_gradient (1 / 4) (pb_gravity p) (nh_masses p) r) (fun r =>
  bind (add_gravity_gradient (1 / 4) (pb_gravity p) (snh_masses p) r) (fun r =>
  bind (add_shell_gradient (pb_shell p) h x v r) (fun r =>
  bind (add_gravity_gradient (1 / 3) (pb_gravity p) (shell_masses p) r) (fun r =>
  bind (subtract_pressure_forces (pb_zones p) x (stack r)) (fun f =>
  option_map stack (subtract_contact_forces (pb_contacts p) (unstack f))))))))).
(** add_momentum_diff, l.1029-1044. *)
Definition add_momentum_diff (p : problem) (r : list R) : option (list R) :=
  let v0 := cur_vel p in let v1 := at_ (pb_vel p) in
  bind (add_inertia_gradient (1 / 4) (nh_masses p) v0 v1 (unstack r)) (fun r =>
  bind (add_inertia_gradient (1 / 4) (snh_masses p) v0 v1 r) (fun r =>
  option_map stack (add_inertia_gradient (1 / 3) (shell_masses p) v0 v1 r))).
(** compute_vertex_residual_impl, l.1396-1450, and residual with dof_residual_from_vertices, l.2891-2902. *)
Definition vertex_residual (p : problem) : option (list R) :=
  bind (subtract_forces p) (fun r =>
    let r := if Rlt_dec 0 (prev_force_mul p) then zip_update (fun cur_f prev_f => (cur_f * force_mul p + prev_f * prev_force_mul p) * time_step p) r (pb_prev_force p)
      else map (fun f => f * dqdv p) r in
    if is_static p then Some r else add_momentum_diff p r).
Definition residual (p : problem) : option (list R) := option_map (firstn (3 * pb_active p)) (vertex_residual p).

(** energy_hessian_size and num_hessian_diagonal_nnz: tetsolid_nh.rs:205-211, trishell_nh.rs:312-322, soft_solid.rs:88-93 and
    soft_shell.rs:88-93. *)
Definition tets_size (es : list (solid_tet * R)) : nat := (78 * length es)%nat.
Definition tets_diagonal (es : list (solid_tet * R)) : nat := (12 * length es)%nat.
Definition tets_inertia_size (es : list (solid_tet * R)) : nat := (12 * length es)%nat.
Definition shell_diagonal_size (S : shell) : nat := (9 * length (sh_tris S) + 12 * length (sh_dihedrals S))%nat.
Definition shell_inertia_size (S : shell) : nat := (9 * length (sh_tris S))%nat.
Definition contact_room (m : nat) (c : contact * mapped v3) : option nat :=
  match constraint_hessian_size (fst c) (snd c) m, num_hessian_diagonal (fst c) (snd c) m with Some nh, Some ndh => Some (2 * nh - ndh)%nat | _, _ => None end.
(** jacobian_nnz, l.949-1021. *)
Definition jacobian_nnz (p : problem) (with_constraints : bool) : option nat :=
  let moving := fun n : nat => if is_static p then 0%nat else n in
  let fem := (2 * (tets_size (pb_nh p) + tets_size (pb_snh p)) - (tets_diagonal (pb_nh p) + tets_diagonal (pb_snh p))
    + moving (2 * (tets_inertia_size (pb_nh p) + tets_inertia_size (pb_snh p)) - (tets_inertia_size (pb_nh p) + tets_inertia_size (pb_snh p)))
    + (2 * shell_hessian_size (pb_shell p) - shell_diagonal_size (pb_shell p)
    + moving (2 * shell_inertia_size (pb_shell p) - shell_inertia_size (pb_shell p))))%nat in
  if with_constraints then
    option_map (fun ns => (fem + list_sum (map vol_hessian_size (pb_zones p)) + list_sum ns)%nat) (all_some (map (contact_room (pb_active p)) (pb_contacts p)))
  else Some fem.

(** Writing [l] after [done] entries of a slice with [room] entries: exactly, or as far as there is room ([zip] with the rest). *)
Definition fill {A} (room : nat) (done l : list A) : option (list A) := if Nat.leb (length done + length l) room then Some (done ++ l) else None.
Definition zip_fill {A} (room : nat) (done l : list A) : list A := done ++ firstn (room - length done) l.
Fixpoint fill_all {A} (room : nat) (done : list A) (ls : list (list A)) : option (list A) :=
  match ls with [] => Some done | l :: r => bind (fill room done l) (fun d => fill_all room d r) end.
Definition zip_fill_all {A} (room : nat) (done : list A) (ls : list (list A)) : list A := fold_left (zip_fill room) ls done.
Definition off_diagonal (q : nat * nat) : bool := negb (Nat.eqb (fst q) (snd q)).
(** compute_jacobian_indices, l.1480-1655, into slices of length [room]; the pairs written without constraints are kept for products. *)
Definition fem_indices (p : problem) (room : nat) : option (list (nat * nat)) :=
  bind (fill_all room [] ([hessian_indices (nh_tets p) 0 0 ++ hessian_indices (snh_tets p) 0 0; shell_hessian_indices (pb_shell p) 0 0] ++
      if is_static p then [] else [inertia_indices (nh_masses p) 0 0 ++ inertia_indices (snh_masses p) 0 0; inertia_indices (shell_masses p) 0 0]))
    (fun lower => Some (zip_fill room lower (map (fun q => (snd q, fst q)) (filter off_diagonal lower)))).
Definition compute_jacobian_indices (p : problem) (with_constraints : bool) (room : nat) : option (list (nat * nat)) :=
  bind (fem_indices p room) (fun fem =>
    if with_constraints then
      bind (fill_all room fem (map vol_hessian_indices (pb_zones p))) (fun done =>
      option_map (zip_fill_all room done) (all_some (map (fun c => constraint_hessian_indices (fst c) (snd c) (pb_active p)) (pb_contacts p))))
    else Some fem).
(** jacobian_indices, l.1467-1477. *)
Definition jacobian_indices (p : problem) (with_constraints : bool) : option (list (nat * nat)) :=
  bind (jacobian_nnz p with_constraints) (compute_jacobian_indices p with_constraints).

(** The cached distances and multipliers of a contact, and what it writes, l.1914-1944. *)
Definition contact_values (p : problem) (c : contact * mapped v3) : option (list R) :=
  match distance_potential (fst c), contact_multipliers (fst c) with
  | Some dist, Some lambda => option_map (map (fun e => - dqdv p * dqdv p * 1 * snd e)) (constraint_hessian_values (fst c) (snd c) dist lambda (pb_active p))
  | _, _ => None
  end.
(** jacobian_values with [dqdv] and [force_multiplier] both the time step times the implicit factor (jacobian_values_with_constraints,
    l.1719-1734), for the indices [ij] and a slice of the same length. *)
Definition jacobian_values (p : problem) (with_constraints : bool) (ij : list (nat * nat)) : option (list R) :=
  let x := at_ (pb_pos p) in let v := at_ (pb_vel p) in let h := dqdv p in let scale := h * h * 1 in let room := length ij in
  bind (fill_all room [] ([hessian_values neo_hookean (nh_tets p) scale h x v ++ hessian_values stable_neo_hookean (snh_tets p) scale h x v; shell_hessian_values (pb_shell p) scale x] ++
      if is_static p then [] else [inertia_values (1 / 4) (nh_masses p) 1 ++ inertia_values (1 / 4) (snh_masses p) 1; inertia_values (1 / 3) (shell_masses p) 1]))
    (fun lower =>
      let fem := zip_fill room lower (map snd (filter (fun e => off_diagonal (fst e)) (combine ij lower))) in
      if with_constraints then
        bind (fill_all room fem (map (fun z => map (fun a => a * (h * h * 1)) (vol_hessian_values z x 1)) (pb_zones p))) (fun done =>
        option_map (zip_fill_all room done) (all_some (map (contact_values p) (pb_contacts p))))
      else Some fem).

(** jacobian_diagonal_impl, l.1669-1716, on a buffer with three entries for every vertex. *)
Definition jacobian_diagonal (p : problem) (diag : list R) : option (list R) :=
  let x := at_ (pb_pos p) in let v := at_ (pb_vel p) in let h := dqdv p in let scale := h * h * 1 in
  let d := stack (add_shell_hessian_diagonal (pb_shell p) scale x
    (add_mesh_diagonal stable_neo_hookean (snh_tets p) scale h x v (add_mesh_diagonal neo_hookean (nh_tets p) scale h x v (unstack diag)))) in
  if is_static p then Some d else
  bind (add_solid_diagonal (1 / 4) (nh_masses p) 1 d) (fun d => bind (add_solid_diagonal (1 / 4) (snh_masses p) 1 d) (add_shell_diagonal (1 / 3) (shell_masses p) 1)).
(** compute_incomplete_jacobi_preconditioner, l.2096-2121; [epsilon] is f64::EPSILON. *)
Definition epsilon : R := / 2 ^ 52.
Definition jacobi_scale (x : R) : R := let xsqrt := sqrt (Rabs x) in if Rlt_dec xsqrt epsilon then 1 else 1 / xsqrt.
Definition incomplete_jacobi_preconditioner (p : problem) : option (list R) :=
  option_map (fun d => map jacobi_scale (firstn (3 * pb_active p) d)) (jacobian_diagonal p (repeat 0 (3 * pb_size p))).
