(** Vertex types and order, state history, prescribed vertices and lumped masses: /repo/softy/src/fem/nl/state.rs and
    /repo/softy/src/fem/nl/problem.rs.  Coordinates are treated one at a time where the code loops over the three components. *)
From Coq Require Import Reals List Arith Bool Permutation Sorted.
Import ListNotations.
Local Open Scope R_scope.

(** VertexType in its derived order, state.rs:426-432. *)
Inductive vtype := Free | Rigid | Fixed | Ignored.
Definition rank (t : vtype) : nat := match t with Free => 0 | Rigid => 1 | Fixed => 2 | Ignored => 3 end.
Definition vtype_eqb (a b : vtype) : bool := Nat.eqb (rank a) (rank b).

(** * Classification, sort_mesh_vertices_by_type, state.rs:466-517 *)
Inductive material := MRigid | MSoft | MFixed.
(** A cell: vertices, material, and whether TetSolid or TriShell accept its shape. *)
Record cell := Cell { c_verts : list nat; c_mat : material; c_valid : bool }.
(** [if vertex_type[idx] == Ignored { vertex_type[idx] = t }]; out of range indices panic. *)
Fixpoint mark (t : vtype) (i : nat) (l : list vtype) : option (list vtype) :=
  match l, i with
  | [], _ => None
  | a :: l', O => Some ((match a with Ignored => t | _ => a end) :: l')
  | a :: l', S i' => option_map (cons a) (mark t i' l')
  end.
Fixpoint mark_all (t : vtype) (is : list nat) (l : list vtype) : option (list vtype) :=
  match is with [] => Some l | i :: is' => match mark t i l with Some l' => mark_all t is' l' | None => None end end.
Definition is_rigid (c : cell) : bool := match c_mat c with MRigid => true | _ => false end.
Definition is_soft (c : cell) : bool := match c_mat c with MSoft => c_valid c | _ => false end.
(** Fixed flags first (l.471-485), then rigid cells (l.489-497), then soft cells (l.500-517). *)
Definition classify (fixed : list bool) (cells : list cell) : option (list vtype) :=
  let start := map (fun b : bool => if b then Fixed else Ignored) fixed in
  match mark_all Rigid (flat_map c_verts (filter is_rigid cells)) start with
  | Some l => mark_all Free (flat_map c_verts (filter is_soft cells)) l
  | None => None
  end.

(** * Vertex order *)
(** mesh.sort_vertices_by_key (external crate meshx), l.519: a stable insertion sort of the vertex indices; the source index attribute, the
    identity before (objects.rs:26-40), is carried along and becomes orig_index (l.616). *)
Fixpoint insert_vertex (key : nat -> nat) (i : nat) (l : list nat) : list nat :=
  match l with [] => [i] | j :: l' => if Nat.leb (key i) (key j) then i :: l else j :: insert_vertex key i l' end.
Definition sort_vertices (key : nat -> nat) (n : nat) : list nat := fold_right (insert_vertex key) [] (seq 0 n).
Definition orig_index (types : list vtype) : list nat := sort_vertices (fun i => rank (nth i types Ignored)) (length types).
(** vertex_type.sort(), l.520. *)
Fixpoint insert_type (t : vtype) (l : list vtype) : list vtype :=
  match l with [] => [t] | u :: l' => if Nat.leb (rank t) (rank u) then t :: l else u :: insert_type t l' end.
Definition sort_types (l : list vtype) : list vtype := fold_right insert_type [] l.
(** partition_point(key < Fixed), l.132: number of leading elements with the property. *)
Fixpoint num_dof_vertices (l : list vtype) : nat :=
  match l with t :: l' => if Nat.ltb (rank t) (rank Fixed) then S (num_dof_vertices l') else O | [] => O end.

(** [out[i] = x]; [None] is a panic. *)
Fixpoint put {A} (l : list A) (i : nat) (x : A) : option (list A) :=
  match l, i with [], _ => None | _ :: l', O => Some (x :: l') | a :: l', S i' => option_map (cons a) (put l' i' x) end.
Fixpoint put_all {A} (l : list A) (ixs : list (nat * A)) : option (list A) :=
  match ixs with [] => Some l | (i, x) :: r => match put l i x with Some l' => put_all l' r | None => None end end.
(** vertex_positions, problem.rs:225-240 (update_input, state.rs:1429-1439, and mesh, problem.rs:301-360, write the same way). *)
Definition vertex_positions {A} (zero : A) (order : list nat) (pos : list A) : option (list A) :=
  put_all (repeat zero (length pos)) (combine order pos).
(** state_vertex_indices, solver/builder.rs:660, 678-684. *)
Definition state_vertex_indices (order : list nat) : option (list (option nat)) :=
  put_all (repeat None (length order)) (combine order (map Some (seq 0 (length order)))).

(** * History of the degrees of freedom *)
Record dof := Dof { d_prev_q : R; d_prev_dq : R; d_cur_q : R; d_cur_dq : R; d_next_q : R }.
(** dof coordinates, and position and velocity coordinates of vtx.next. *)
Record state := State { dofs : list dof; next_pos : list R; next_vel : list R }.
(** integrate_step, problem.rs:850-871, with the scheme's position update [upd]. *)
Fixpoint integrate (upd : dof -> R -> R) (v : list R) (ds : list dof) : list dof :=
  match v, ds with
  | w :: v', d :: ds' => Dof (d_prev_q d) (d_prev_dq d) (d_cur_q d) (d_cur_dq d) (upd d w) :: integrate upd v' ds'
  | _, _ => ds
  end.
(** update_with, state.rs:77-84: as many leading vertices as there are degrees of freedom. *)
Fixpoint overwrite (new old : list R) : list R :=
  match new, old with x :: n', _ :: o' => x :: overwrite n' o' | _, _ => old end.
Definition update_vertices (v : list R) (s : state) : state :=
  State (dofs s) (overwrite (map fst (combine (map d_next_q (dofs s)) v)) (next_pos s)) (overwrite (map snd (combine (map d_next_q (dofs s)) v)) (next_vel s)).
(** GeneralizedCoords::advance, state.rs:287-301. *)
Fixpoint advance_dofs (v : list R) (ds : list dof) : list dof :=
  match v, ds with
  | w :: v', d :: ds' => Dof (d_cur_q d) (d_cur_dq d) (d_next_q d) w (d_next_q d) :: advance_dofs v' ds'
  | _, _ => ds
  end.
(** State::advance, state.rs:1378-1390 (edge angles are treated in AngleModel), and advance, problem.rs:772-779. *)
Definition state_advance (v : list R) (s : state) : state :=
  let s := update_vertices v s in State (advance_dofs v (dofs s)) (next_pos s) (next_vel s).
Definition problem_advance (upd : dof -> R -> R) (v : list R) (s : state) : state :=
  state_advance v (update_vertices v (State (integrate upd v (dofs s)) (next_pos s) (next_vel s))).

(** * Prescribed vertices, update_fixed_vertices, state.rs:1182-1250 *)
(** One coordinate of a vertex in vtx.cur, vtx.next and vtx.next_ad. *)
Record vertex := Vertex { cur_p : R; cur_v : R; next_p : R; next_v : R; ad_p : R; ad_v : R }.
Definition update_fixed_vertex (new_pos : list R) (dt : R) (t : vtype) (idx : nat) (x : vertex) : vertex :=
  match t with
  | Fixed =>
      let dt_inv := 1 / dt in
      let c_v := (next_p x - cur_p x) * dt_inv in
      let c_p := next_p x in
      match nth_error new_pos idx with
      | Some p => Vertex c_p c_v p ((p - next_p x) * dt_inv) p ((p - next_p x) * dt_inv)
      | None => Vertex c_p c_v (next_p x) (next_v x) (ad_p x) (ad_v x)
      end
  | _ => x
  end.
Fixpoint update_fixed_vertices (new_pos : list R) (dt : R) (types : list vtype) (order : list nat) (xs : list vertex) : list vertex :=
  match types, order, xs with
  | t :: types', i :: order', x :: xs' => update_fixed_vertex new_pos dt t i x :: update_fixed_vertices new_pos dt types' order' xs'
  | _, _, _ => xs
  end.

(** * Lumped masses, compute_vertex_masses, state.rs:1470-1503 *)
(** Reference volume (or area), density and vertices of an element. *)
Record element := Element { el_measure : R; el_density : R; el_verts : list nat }.
Fixpoint add_mass (l : list R) (i : nat) (x : R) : option (list R) :=
  match l, i with [], _ => None | a :: l', O => Some (a + x :: l') | a :: l', S i' => option_map (cons a) (add_mass l' i' x) end.
Fixpoint add_masses (l : list R) (is : list nat) (x : R) : option (list R) :=
  match is with [] => Some l | i :: is' => match add_mass l i x with Some l' => add_masses l' is' x | None => None end end.
Fixpoint scatter_masses (share : element -> R) (es : list element) (l : list R) : option (list R) :=
  match es with [] => Some l | e :: es' => match add_masses l (el_verts e) (share e) with Some l' => scatter_masses share es' l' | None => None end end.
Definition compute_vertex_masses (tets tris : list element) (n : nat) : option (list R) :=
  match scatter_masses (fun e => 25 / 100 * el_measure e * el_density e) tets (repeat 0 n) with
  | Some l => scatter_masses (fun e => el_measure e * el_density e / 3) tris l
  | None => None
  end.
(** mass_inv, state.rs:608-613: reciprocals for the first num_free vertices (those of type Free), zero for the rest. *)
Definition count_free (l : list vtype) : nat := length (filter (fun t => vtype_eqb t Free) l).
Definition mass_inv (types : list vtype) (masses : list R) : list R :=
  map (fun m => 1 / m) (firstn (count_free types) masses) ++ repeat 0 (length types - count_free types).
(** compute_lumped_vertex_stiffnesses, state.rs:1506-1542: per element (lambda, mu, vertices). *)
Fixpoint raise_at (l : list R) (i : nat) (x : R) : option (list R) :=
  match l, i with [], _ => None | a :: l', O => Some (Rmax a x :: l') | a :: l', S i' => option_map (cons a) (raise_at l' i' x) end.
Fixpoint lumped_stiffness (es : list (R * R * list nat)) (l : list R) : option (list R) :=
  match es with
  | [] => Some l
  | (lam, mu, vs) :: es' =>
      match fold_left (fun o i => match o with Some l => match raise_at l i lam with Some l' => raise_at l' i mu | None => None end | None => None end) vs (Some l) with
      | Some l' => lumped_stiffness es' l'
      | None => None
      end
  end.
