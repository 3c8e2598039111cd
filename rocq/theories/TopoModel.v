(** Topology of interior edges, /repo/softy/src/objects/interior_edge.rs:510-673, and construction of the elements of a shell,
    /repo/softy/src/objects/trishell.rs:22-219 and 359-498, over exact reals.
    A mesh is a list of cells; attributes are functions of their index.  Panics are explicit. *)
From Coq Require Import Reals ZArith List Arith Bool.
From Verif Require Import Vec3 AngleModel ShellModel StateModel UtilModel.
Import ListNotations.

(** Results of fallible code: [Err] is [Result::Err], [Panic] a panic. *)
Inductive error := ObjectMaterialMismatch | MissingDensity | MissingElasticityParams | DegenerateReferenceElement (degens : list nat)
  | InvertedReferenceElement (inverted : list nat) | OrphanedVertices (orphaned : list nat) | AttribError | UnimplementedFeature | NothingToSolve | ContactObjectIdError (id : nat).
Inductive res (A : Type) := Done (a : A) | Err (e : error) | Panic.
Arguments Done {A}. Arguments Err {A}. Arguments Panic {A}.
Definition rbind {A B} (r : res A) (f : A -> res B) : res B := match r with Done a => f a | Err e => Err e | Panic => Panic end.
(** [collect::<Result<Vec<_>, _>>()], also for panics: the first failure in order wins. *)
Fixpoint collect {A B} (f : A -> res B) (l : list A) : res (list B) :=
  match l with [] => Done [] | a :: r => rbind (f a) (fun b => rbind (collect f r) (fun bs => Done (b :: bs))) end.

(** * Cells *)
(** Cell type and vertices; [tri_of] is the test [cell_type == Triangle && cell.len() == 3]. *)
Record mcell := MCell { is_tri : bool; m_verts : list nat }.
Definition corners3 := (nat * nat * nat)%type.
Definition tri_of (c : mcell) : option corners3 := if is_tri c then match m_verts c with [a; b; c] => Some (a, b, c) | _ => None end else None.
(** mesh.cell_to_vertex(f, i), external crate meshx: the [i]-th vertex of cell [f]. *)
Definition cell_to_vertex (cells : list mcell) : topology := fun f i => nth i (m_verts (nth f cells (MCell false []))) 0.
(** The triangles with their cell index, in order. *)
Definition triangles_from (n : nat) (cells : list mcell) : list (nat * corners3) :=
  flat_map (fun p => match tri_of (snd p) with Some t => [(fst p, t)] | None => [] end) (combine (seq n (length cells)) cells).
Definition indexed_triangles (cells : list mcell) : list (nat * corners3) := triangles_from 0 cells.

(** * Edge table, interior_edge.rs:518-602 *)
Inductive edge_topo := Boundary (f : nat) | Manifold (f g : nat) | NonManifold (fs : list nat).
Record edge_data := EdgeData { e_key : nat * nat; e_verts : nat * nat; e_topo : edge_topo }.
Definition edge_key (v0 v1 : nat) : nat * nat := if Nat.ltb v0 v1 then (v0, v1) else (v1, v0).
Definition key_eqb (a b : nat * nat) : bool := Nat.eqb (fst a) (fst b) && Nat.eqb (snd a) (snd b).
Definition add_to_topo (t : edge_topo) (face_idx : nat) : edge_topo :=
  match t with Boundary i => Manifold i face_idx | Manifold a b => NonManifold [a; b; face_idx] | NonManifold v => NonManifold (v ++ [face_idx]) end.
(** [edges.entry(key).and_modify(..).or_insert(..)]; the hash map is a list of entries in the order of their insertion. *)
Fixpoint register (face_idx : nat) (v0 v1 : nat) (table : list edge_data) : list edge_data :=
  match table with
  | [] => [EdgeData (edge_key v0 v1) (v0, v1) (Boundary face_idx)]
  | d :: r => if key_eqb (e_key d) (edge_key v0 v1) then EdgeData (e_key d) (e_verts d) (add_to_topo (e_topo d) face_idx) :: r
              else d :: register face_idx v0 v1 r
  end.
Definition add_face_edges (table : list edge_data) (p : nat * corners3) : list edge_data :=
  let '(face_idx, (a, b, c)) := p in register face_idx c a (register face_idx b c (register face_idx a b table)).
Definition edge_table (cells : list mcell) : list edge_data := fold_left add_face_edges (indexed_triangles cells) [].

(** * Interior edges, interior_edge.rs:606-673 *)
(** find_triangle_edge_start, l.608-637; [None] is [unreachable!]. *)
Definition find_triangle_edge_start (verts : nat * nat) (v0 v1 v2 : nat) : option nat :=
  let '(a, b) := verts in
  if Nat.eqb v0 a then if Nat.eqb v1 b then Some 0 else if Nat.eqb v2 b then Some 2 else None
  else if Nat.eqb v1 a then if Nat.eqb v2 b then Some 1 else if Nat.eqb v0 b then Some 0 else None
  else if Nat.eqb v2 a then if Nat.eqb v0 b then Some 2 else if Nat.eqb v1 b then Some 1 else None
  else None.
(** [.any(|&v| vertex_type[v] != Fixed)] stops at the first hit; an index out of range panics. *)
Fixpoint any_not_fixed (vertex_type : list vtype) (vs : list nat) : res bool :=
  match vs with
  | [] => Done false
  | v :: r => match nth_error vertex_type v with
              | None => Panic
              | Some t => if vtype_eqb t Fixed then any_not_fixed vertex_type r else Done true
              end
  end.
Definition start_in (cells : list mcell) (verts : nat * nat) (f : nat) : res nat :=
  let at_ i := cell_to_vertex cells f i in
  match find_triangle_edge_start verts (at_ 0) (at_ 1) (at_ 2) with Some s => Done s | None => Panic end.
(** One round of the loop, l.639-662: the edge to push, if any. *)
Definition interior_edge_of (cells : list mcell) (vertex_type : list vtype) (d : edge_data) : res (list interior_edge) :=
  match e_topo d with
  | Manifold f g =>
      rbind (start_in cells (e_verts d) f) (fun s0 =>
      rbind (start_in cells (e_verts d) g) (fun s1 =>
      let e := IEdge f g s0 s1 in
      rbind (any_not_fixed vertex_type (map (edge_vert e (cell_to_vertex cells)) [0; 1; 2; 3])) (fun b => Done (if b then [e] else []))))
  | _ => Done []
  end.
(** compute_interior_edge_topology_from_mesh, l.554-674.  [order] is [edges.values()]: the entries of the table in the unspecified order of
    the hash map. *)
Definition interior_edges (cells : list mcell) (vertex_type : list vtype) (order : list edge_data) : res (list interior_edge) :=
  rbind (collect (interior_edge_of cells vertex_type) order) (fun l => Done (concat l)).

(** * Dihedral elements, trishell.rs:359-498 *)
Local Open Scope R_scope.
(** [retain] with a second iterator over the stiffnesses. *)
Fixpoint retain {A} (stiffness : list R) (l : list A) : list A :=
  match stiffness, l with bs :: s, a :: r => if Req_EM_T bs 0 then retain s r else a :: retain s r | _, _ => [] end.
(** Faces are renumbered in the order in which the edges mention them, l.460-485. *)
Record renumbering := Renum { rn_map : nat -> option nat; rn_cells : list nat }.
Definition renumber_face (s : renumbering) (f : nat) : nat * renumbering :=
  match rn_map s f with
  | Some i => (i, s)
  | None => let i := length (rn_cells s) in (i, Renum (fun g => if Nat.eqb g f then Some i else rn_map s g) (rn_cells s ++ [f]))
  end.
Fixpoint renumber (s : renumbering) (es : list interior_edge) : list interior_edge * renumbering :=
  match es with
  | [] => ([], s)
  | e :: r => let '(f, s1) := renumber_face s (face_0 e) in
              let '(g, s2) := renumber_face s1 (face_1 e) in
              let '(r', s3) := renumber s2 r in (IEdge f g (start_0 e) (start_1 e) :: r', s3)
  end.
(** Data of the mesh: positions, reference positions per cell corner, optional reference angles per cell corner and optional
    bending stiffness per cell. *)
Record shell_input := ShellInput {
  in_cells : list mcell; in_pos : nat -> v3; in_ref_pos : nat -> nat -> v3; in_ref_angle : option (nat -> nat -> R); in_bend : option (nat -> R) }.
Record dihedral_elements := DihedralElements {
  de_cells : list nat; de_triangles : list (nat * nat * nat); de_edges : list interior_edge;
  de_ref_angles : list R; de_angles : list R; de_ref_length : list R; de_stiffness : list R }.
(** l.374-398: computed reference angles plus those of the attribute at the start of the edge in its first face; l.380: normalised lengths. *)
Definition edge_ref_angle (m : shell_input) (e : interior_edge) : R :=
  ref_edge_angle e (in_ref_pos m) + match in_ref_angle m with Some a => a (face_0 e) (start_0 e) | None => 0 end.
Definition edge_ref_length (m : shell_input) (e : interior_edge) : R := ref_length e (in_ref_pos m) / tile_span e (in_ref_pos m).
(** l.435-439. *)
Definition edge_stiffness (stiffness : nat -> R) (e : interior_edge) : R := 1 / 2 * (stiffness (face_0 e) + stiffness (face_1 e)).
Definition cell_corners (cells : list mcell) (f : nat) : corners3 := (cell_to_vertex cells f 0, cell_to_vertex cells f 1, cell_to_vertex cells f 2)%nat.
Definition build_dihedrals (m : shell_input) (stiffness : nat -> R) (es : list interior_edge) : dihedral_elements :=
  let ref_angles := map (edge_ref_angle m) es in
  let ref_lengths := map (edge_ref_length m) es in
  let angles := map (fun e => edge_angle e (in_pos m) (cell_to_vertex (in_cells m))) es in
  let bs := map (edge_stiffness stiffness) es in
  let '(edges, s) := renumber (Renum (fun _ => None) []) (retain bs es) in
  DihedralElements (rn_cells s) (map (cell_corners (in_cells m)) (rn_cells s)) edges
    (retain bs ref_angles) (retain bs angles) (retain bs ref_lengths) (filter (fun b => if Req_EM_T b 0 then false else true) bs).
(** * Triangle elements, trishell.rs:22-219 *)
(** The parts of a material that are read; [None] where the property is not set. *)
Record deformable := Deformable { m_density : option R; m_elasticity : option params; m_damping : R }.
Inductive mat := SoftShell (d : deformable) (bending : option R) | Solid (d : deformable) (stable : bool) | RigidMat | FixedMat.
(** Attributes of the cells that override the material; material ids. *)
Record cell_attribs := CellAttribs { at_density : option (nat -> R); at_lambda : option (nat -> R); at_mu : option (nat -> R);
  at_damping : option (nat -> R); at_mtl_id : nat -> Z }.
(** [materials[mtl_id as usize]]; a negative id becomes a huge index. *)
Definition material_of (materials : list mat) (id : Z) : res mat :=
  if Z.ltb id 0 then Panic else match nth_error materials (Z.to_nat id) with Some m => Done m | None => Panic end.
(** shell_mtl_iter, l.22-37. *)
Definition shell_mtl (materials : list mat) (a : cell_attribs) (c : nat) : res deformable :=
  rbind (material_of materials (at_mtl_id a c)) (fun m => match m with SoftShell d _ => Done d | _ => Err ObjectMaterialMismatch end).
Definition from_option {A} (e : error) (o : option A) : res A := match o with Some a => Done a | None => Err e end.
(** An attribute if present, otherwise the material's property. *)
Definition per_cell {M} (attrib : option (nat -> R)) (mtl : nat -> res M) (get : M -> res R) (is : list nat) : res (list R) :=
  match attrib with Some f => Done (map f is) | None => collect (fun i => rbind (mtl i) get) is end.
Definition get_density (d : deformable) : res R := from_option MissingDensity (m_density d).
Definition get_lambda (d : deformable) : res R := from_option MissingElasticityParams (option_map lambda_of (m_elasticity d)).
Definition get_mu (d : deformable) : res R := from_option MissingElasticityParams (option_map mu_of (m_elasticity d)).
Definition get_damping (d : deformable) : res R := Done (m_damping d).
(** [||] over the corners; an index out of range panics. *)
Definition keep_cell (vertex_type : list vtype) (vs : list nat) : res bool := any_not_fixed vertex_type vs.
Definition triangle_cells (cells : list mcell) (vertex_type : list vtype) : res (list (nat * corners3)) :=
  rbind (collect (fun p => let '(i, (a, b, c)) := p in rbind (keep_cell vertex_type [a; b; c]) (fun k : bool => Done (if k then [p] else [])))
    (indexed_triangles cells)) (fun l => Done (concat l)).
Definition ref_tri3 (ref_pos : nat -> nat -> v3) (f : nat) : tri3 := Tri3 (ref_pos f 0%nat) (ref_pos f 1%nat) (ref_pos f 2%nat).
(** Triangle::area (external crate meshx): half the norm of the area normal. *)
Definition tri_area (x : tri3) : R := v3_norm (area_normal (q0 x) (q1 x) (q2 x)) / 2.
(** compute_ref_tri_areas, l.153-178; the reported positions are positions in the list of areas. *)
Definition non_positive (l : list R) : list nat := map fst (filter (fun p => if Rle_dec (snd p) 0 then true else false) (combine (seq 0 (length l)) l)).
Definition ref_tri_areas (ref_pos : nat -> nat -> v3) (is : list nat) : res (list R) :=
  let areas := map (fun f => tri_area (ref_tri3 ref_pos f)) is in
  match non_positive areas with [] => Done areas | degens => Err (DegenerateReferenceElement degens) end.
(** l.197-218; [inverse().unwrap()] panics for a singular matrix. *)
Definition ref_tri_inverses (ref_pos : nat -> nat -> v3) (is : list nat) : res (list m2) :=
  collect (fun f => let B := isotropic_shape (tri_shape (ref_tri3 ref_pos f)) in if Req_EM_T (m2_det B) 0 then Panic else Done (m2_inv B)) is.
Record triangle_elements := TriangleElements { te_cells : list nat; te_triangles : list corners3; te_density : list R; te_area : list R;
  te_inv : list m2; te_damping : list R; te_lambda : list R; te_mu : list R }.
(** try_from_mesh_and_materials, l.52-151. *)
Definition build_triangles (cells : list mcell) (ref_pos : nat -> nat -> v3) (materials : list mat) (a : cell_attribs) (vertex_type : list vtype) : res triangle_elements :=
  rbind (triangle_cells cells vertex_type) (fun ts =>
  let is := map fst ts in
  let mtl := shell_mtl materials a in
  rbind (per_cell (at_density a) mtl get_density is) (fun density =>
  rbind (ref_tri_areas ref_pos is) (fun area =>
  rbind (ref_tri_inverses ref_pos is) (fun inv =>
  rbind (per_cell (at_lambda a) mtl get_lambda is) (fun lambda =>
  rbind (per_cell (at_mu a) mtl get_mu is) (fun mu =>
  rbind (per_cell (at_damping a) mtl get_damping is) (fun damping =>
  Done (TriangleElements is (map snd ts) density area inv damping lambda mu)))))))).
(** Bending stiffness of a cell, l.411-433: attribute, else the material with the id clamped at zero, zero for other materials.  The map runs
    over all cells of the mesh; an id out of range panics. *)
Definition bending_of (m : mat) : R := match m with SoftShell _ b => match b with Some x => x | None => 0 end | _ => 0 end.
Definition cell_stiffness (cells : list mcell) (materials : list mat) (attrib : option (nat -> R)) (a : cell_attribs) : res (nat -> R) :=
  match attrib with
  | Some f => Done f
  | None => rbind (collect (fun i => rbind (material_of materials (Z.max (at_mtl_id a i) 0)) (fun m => Done (bending_of m))) (seq 0 (length cells)))
              (fun l => Done (fun i => nth i l 0))
  end.
Definition try_dihedrals (m : shell_input) (materials : list mat) (a : cell_attribs) (vertex_type : list vtype) (order : list edge_data) : res dihedral_elements :=
  rbind (interior_edges (in_cells m) vertex_type order) (fun es =>
  rbind (cell_stiffness (in_cells m) materials (in_bend m) a) (fun stiffness => Done (build_dihedrals m stiffness es))).
(** The view of the elements used by the energies (zips of the vectors). *)
Definition shell_tris_of (t : triangle_elements) : list shell_tri :=
  map (fun p => let '(a, b, c, (inv, (area, (lambda, (mu, damping))))) := p in ShellTri a b c inv area lambda mu damping)
    (combine (te_triangles t) (combine (te_inv t) (combine (te_area t) (combine (te_lambda t) (combine (te_mu t) (te_damping t)))))).
Definition dihedrals_of (d : dihedral_elements) : list dihedral :=
  map (fun p => let '(e, (angle, (ref_angle, (len, bs)))) := p in Dihedral e angle ref_angle len bs)
    (combine (de_edges d) (combine (de_angles d) (combine (de_ref_angles d) (combine (de_ref_length d) (de_stiffness d))))).
Definition corner (t : corners3) (i : nat) : nat := let '(a, b, c) := t in match i with O => a | 1%nat => b | _ => c end.
Definition faces_of (d : dihedral_elements) : topology := fun f i => corner (nth f (de_triangles d) (0, 0, 0)%nat) i.
(** TriShell::try_from_mesh_and_materials, l.540-554. *)
Definition build_shell (m : shell_input) (materials : list mat) (a : cell_attribs) (vertex_type : list vtype) (order : list edge_data) : res shell :=
  rbind (build_triangles (in_cells m) (in_ref_pos m) materials a vertex_type) (fun t =>
  rbind (try_dihedrals m materials a vertex_type order) (fun d => Done (Shell (shell_tris_of t) (dihedrals_of d) (faces_of d)))).
