(** Inertia and gravity energies: /repo/softy/src/energy_models/inertia/{soft_solid,soft_shell,rigid_shell}.rs and gravity.rs, and the
    combination of energies, energy_models/mod.rs, over exact reals.  [Tetrahedron::centroid] and [Triangle::centroid] (external crate
    meshx) are taken to be the averages of the corners. *)
From Coq Require Import Reals List Arith Bool.
From Verif Require Import Vec3 Mat3 RList ElasticModel.
Import ListNotations.
Local Open Scope R_scope.

(** One tetrahedron of TetElements or triangle of TriangleElements: vertex indices, [ref_volume] or [ref_area], and [density]. *)
Record melem := MElem { cell : list nat; measure : R; density : R }.
(** [0.25 * vol * density] for solids (share = 1/4), [third * area * density] for shells (share = 1/3). *)
Definition vertex_mass (share : R) (e : melem) : R := share * measure e * density e.

(** * Inertia *)
(** energy, soft_solid.rs:19-46, soft_shell.rs:20-50. *)
Definition inertia_energy (share : R) (es : list melem) (v0 v1 : nat -> v3) : R :=
  rsum (map (fun e => 1 / 2 * (vertex_mass share e * rsum (map (fun c => v3_dot (v3_sub (v1 c) (v0 c)) (v3_sub (v1 c) (v0 c))) (cell e)))) es).
(** [for i in .. { gradient[cell[i]] += f(cell[i]) }]; [None] is an index out of range. *)
Fixpoint add_each (l : list v3) (cs : list nat) (f : nat -> v3) : option (list v3) :=
  match cs with [] => Some l | c :: r => bind (add_at l c (f c)) (fun l' => add_each l' r f) end.
Fixpoint add_elems (es : list melem) (f : melem -> nat -> v3) (l : list v3) : option (list v3) :=
  match es with [] => Some l | e :: r => bind (add_each l (cell e) (f e)) (add_elems r f) end.
(** add_energy_gradient, soft_solid.rs:50-81, soft_shell.rs:53-85. *)
Definition add_inertia_gradient (share : R) (es : list melem) (v0 v1 : nat -> v3) : list v3 -> option (list v3) :=
  add_elems es (fun e c => v3_scale (vertex_mass share e) (v3_sub (v1 c) (v0 c))).
(** energy_hessian_indices_offset, soft_solid.rs:129-157, soft_shell.rs:131-160. *)
Definition cell_coords (cs : list nat) : list nat := flat_map (fun c => map (fun j => (3 * c + j)%nat) (seq 0 3)) cs.
Definition inertia_indices (es : list melem) (off_row off_col : nat) : list (nat * nat) :=
  flat_map (fun e => map (fun p => ((p + off_row)%nat, (p + off_col)%nat)) (cell_coords (cell e))) es.
(** energy_hessian_values, soft_solid.rs:162-188, soft_shell.rs:164-192: one value per coordinate of the cell. *)
Definition inertia_values (share : R) (es : list melem) (scale : R) : list R :=
  flat_map (fun e => repeat (vertex_mass share e * scale) (3 * length (cell e))) es.
(** In-place update of one entry of a flat slice; [None] is a panic. *)
Fixpoint upd_at {A} (l : list A) (i : nat) (f : A -> A) : option (list A) :=
  match l, i with [], _ => None | a :: l', O => Some (f a :: l') | a :: l', S i' => option_map (cons a) (upd_at l' i' f) end.
Fixpoint upd_each {A} (l : list A) (ps : list nat) (f : nat -> A -> A) : option (list A) :=
  match ps with [] => Some l | p :: r => bind (upd_at l p (f p)) (fun l' => upd_each l' r f) end.
(** add_energy_hessian_diagonal, soft_solid.rs:191-219: the guard compares a vertex index with the number of coordinates. *)
Fixpoint solid_diagonal_cell (m : R) (cs : list nat) (l : list R) : option (list R) :=
  match cs with
  | [] => Some l
  | vi :: r => bind (if Nat.ltb vi (length l) then upd_each l (cell_coords [vi]) (fun _ a => a + m) else Some l) (solid_diagonal_cell m r)
  end.
Fixpoint add_solid_diagonal (share : R) (es : list melem) (scale : R) (l : list R) : option (list R) :=
  match es with [] => Some l | e :: r => bind (solid_diagonal_cell (vertex_mass share e * scale) (cell e) l) (add_solid_diagonal share r scale) end.
(** add_energy_hessian_diagonal, soft_shell.rs:195-227: no guard. *)
Fixpoint add_shell_diagonal (share : R) (es : list melem) (scale : R) (l : list R) : option (list R) :=
  match es with [] => Some l | e :: r => bind (upd_each l (cell_coords (cell e)) (fun _ a => a + vertex_mass share e * scale)) (add_shell_diagonal share r scale) end.
(** energy_hessian_product, soft_solid.rs:223-252 adds to [prod]; soft_shell.rs:230-254 assigns. *)
Fixpoint solid_inertia_product (share : R) (es : list melem) (p : nat -> R) (scale : R) (l : list R) : option (list R) :=
  match es with [] => Some l | e :: r => bind (upd_each l (cell_coords (cell e)) (fun i a => a + p i * vertex_mass share e * scale)) (solid_inertia_product share r p scale) end.
Fixpoint shell_inertia_product (share : R) (es : list melem) (p : nat -> R) (scale : R) (l : list R) : option (list R) :=
  match es with [] => Some l | e :: r => bind (upd_each l (cell_coords (cell e)) (fun i _ => p i * vertex_mass share e * scale)) (shell_inertia_product share r p scale) end.

(** * Gravity *)
Definition v3_sum_list (l : list v3) : v3 := fold_left v3_add l v3_0.
(** energy, gravity.rs:38-59 and l.127-154: the centroid is [share] times the sum of the corners. *)
Definition gravity_energy (share : R) (g : v3) (es : list melem) (x : nat -> v3) : R :=
  rsum (map (fun e => v3_dot g (v3_scale share (v3_sum_list (map x (cell e)))) * (- measure e * density e)) es).
(** add_energy_gradient, l.62-84 and l.157-180: [gradient[c] -= g * m]. *)
Definition add_gravity_gradient (share : R) (g : v3) (es : list melem) : list v3 -> option (list v3) :=
  add_elems es (fun e _ => v3_neg (v3_scale (vertex_mass share e) g)).

(** * Rigid shells: one translational and one rotational 3-vector *)
(** RigidShellInertia::energy, rigid_shell.rs:30-48. *)
Definition rigid_energy (mass : R) (inertia : m3) (v0 w0 v1 w1 : v3) : R :=
  let dv := v3_sub v1 v0 in let dw := v3_sub w1 w0 in
  1 / 2 * (v3_dot dw (m3_mulv inertia dw) + v3_dot dv dv * mass).
(** add_energy_gradient, l.51-66: what is added to [gradient[0]] and [gradient[1]]. *)
Definition rigid_gradient (mass : R) (inertia : m3) (v0 w0 v1 w1 : v3) : v3 * v3 :=
  (v3_scale mass (v3_sub v1 v0), m3_mulv inertia (v3_sub w1 w0)).
(** energy_hessian_indices_offset, l.109-140. *)
Definition rigid_indices (off_row off_col : nat) : list (nat * nat) :=
  map (fun i => ((i + off_row)%nat, (i + off_col)%nat)) (seq 0 3) ++
  flat_map (fun row => map (fun col => ((row + (off_row + 3))%nat, (col + (off_col + 3))%nat)) (seq 0 (row + 1))) (seq 0 3).
(** energy_hessian_values, l.143-152; [lower_triangular_vec] (external crate tensr) is taken to list the lower triangle row by row. *)
Definition lower_triangular_vec (A : m3) : list R := [m3_get A 0 0; m3_get A 1 0; m3_get A 1 1; m3_get A 2 0; m3_get A 2 1; m3_get A 2 2].
Definition rigid_values (mass : R) (inertia : m3) (scale : R) : list R := repeat (mass * scale) 3 ++ map (fun a => a * scale) (lower_triangular_vec inertia).
(** add_energy_hessian_diagonal, l.153-174: what is added to the six entries; [get_diag3], utils/src/lib.rs, lists the diagonal. *)
Definition rigid_diagonal (mass : R) (inertia : m3) (scale : R) : list R :=
  repeat (mass * scale) 3 ++ map (fun a => a * scale) [m3_get inertia 0 0; m3_get inertia 1 1; m3_get inertia 2 2].
(** RigidShellGravity, gravity.rs:230-250. *)
Definition rigid_gravity_energy (mass : R) (g x : v3) : R := - mass * v3_dot g x.
Definition rigid_gravity_gradient (mass : R) (g : v3) : v3 := v3_neg (v3_scale mass g).
