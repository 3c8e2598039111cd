(** Construction of solids, /repo/softy/src/objects/tetsolid.rs:17-341, and of the problem,
    /repo/softy/src/fem/nl/solver/builder.rs:85-108, 141-261 and 263-862, over exact reals.
    Meshes are as in TopoModel; attribute values are direct (not indirect) attributes of meshx. *)
From Coq Require Import Reals ZArith List Arith Bool.
From Verif Require Import Vec3 Mat3 ElasticModel AngleModel ShellModel StateModel UtilModel TopoModel.
Import ListNotations.
Local Open Scope R_scope.

(** * Tetrahedral elements, tetsolid.rs *)
Notation corners4 := (nat * nat * nat * nat)%type.
(** is_valid_cell, l.354-356. *)
Definition tet_of (c : mcell) : option corners4 := if is_tri c then None else match m_verts c with [a; b; c; d] => Some (a, b, c, d) | _ => None end.
Definition indexed_cells (cells : list mcell) : list (nat * mcell) := combine (seq 0 (length cells)) cells.
(** SolidMaterial::model, material.rs:406-411: without elasticity parameters it is NeoHookean. *)
Definition model_of (d : deformable) (stable : bool) : model :=
  match m_elasticity d with Some _ => if stable then StableNeoHookean else NeoHookean | None => NeoHookean end.
Definition model_eqb (a b : model) : bool := match a, b with NeoHookean, NeoHookean | StableNeoHookean, StableNeoHookean => true | _, _ => false end.
(** solid_mtl_iter, l.17-32. *)
Definition solid_mtl (materials : list mat) (a : cell_attribs) (c : nat) : res (deformable * bool) :=
  rbind (material_of materials (at_mtl_id a c)) (fun m => match m with Solid d stable => Done (d, stable) | _ => Err ObjectMaterialMismatch end).
(** The filter of l.57-80. *)
Definition select_tet (M : model) (materials : list mat) (a : cell_attribs) (vertex_type : list vtype) (p : nat * mcell) : res (list (nat * corners4)) :=
  rbind (material_of materials (at_mtl_id a (fst p))) (fun m =>
  match m with
  | Solid d stable =>
      if model_eqb (model_of d stable) M then
        match tet_of (snd p) with
        | Some (w, x, y, z) => rbind (any_not_fixed vertex_type [w; x; y; z]) (fun k : bool => Done (if k then [(fst p, (w, x, y, z))] else []))
        | None => Done []
        end
      else Done []
  | _ => Done []
  end).
Definition tet_cells (M : model) (cells : list mcell) (materials : list mat) (a : cell_attribs) (vertex_type : list vtype) : res (list (nat * corners4)) :=
  rbind (collect (select_tet M materials a vertex_type) (indexed_cells cells)) (fun l => Done (concat l)).
(** [Elasticity::lambda] and [mu], material.rs:557-569. *)
Definition get_solid_density (p : deformable * bool) : res R := get_density (fst p).
Definition get_solid_lame (pick : R * R -> R) (p : deformable * bool) : res R :=
  from_option MissingElasticityParams (option_map (fun e => pick (effective_lame (model_of (fst p) (snd p)) e)) (m_elasticity (fst p))).
Definition get_solid_damping (p : deformable * bool) : res R := Done (m_damping (fst p)).
Definition ref_tet4 (ref_pos : nat -> nat -> v3) (f : nat) : tet := Tet (ref_pos f 0%nat) (ref_pos f 1%nat) (ref_pos f 2%nat) (ref_pos f 3%nat).
(** Tetrahedron::signed_volume (external crate meshx): a sixth of the determinant of the shape matrix. *)
Definition tet_volume (x : tet) : R := m3_det (shape_matrix x) / 6.
(** compute_ref_tet_volumes, l.159-189; the reported positions are positions in the list of volumes. *)
Definition ref_tet_volumes (ref_pos : nat -> nat -> v3) (is : list nat) : res (list R) :=
  let volumes := map (fun f => tet_volume (ref_tet4 ref_pos f)) is in
  match non_positive volumes with [] => Done volumes | inverted => Err (InvertedReferenceElement inverted) end.
(** l.192-214; [inverse().unwrap()] panics for a singular matrix. *)
Definition ref_tet_inverses (ref_pos : nat -> nat -> v3) (is : list nat) : res (list m3) :=
  collect (fun f => let B := shape_matrix (ref_tet4 ref_pos f) in if Req_EM_T (m3_det B) 0 then Panic else Done (m3_inv B)) is.
Record tet_elements := TetElements { tt_cells : list nat; tt_tets : list corners4; tt_density : list R; tt_volume : list R;
  tt_inv : list m3; tt_damping : list R; tt_lambda : list R; tt_mu : list R }.
(** try_from_mesh_and_materials, l.49-156. *)
Definition build_tets (M : model) (cells : list mcell) (ref_pos : nat -> nat -> v3) (materials : list mat) (a : cell_attribs) (vertex_type : list vtype) : res tet_elements :=
  rbind (tet_cells M cells materials a vertex_type) (fun ts =>
  let is := map fst ts in
  let mtl := solid_mtl materials a in
  rbind (per_cell (at_density a) mtl get_solid_density is) (fun density =>
  rbind (ref_tet_volumes ref_pos is) (fun volume =>
  rbind (ref_tet_inverses ref_pos is) (fun inv =>
  rbind (per_cell (at_lambda a) mtl (get_solid_lame fst) is) (fun lambda =>
  rbind (per_cell (at_mu a) mtl (get_solid_lame snd) is) (fun mu =>
  rbind (per_cell (at_damping a) mtl get_solid_damping is) (fun damping =>
  Done (TetElements is (map snd ts) density volume inv damping lambda mu)))))))).
(** TetSolid, l.347-382. *)
Record tet_solid := TetSolid { nh_tets : tet_elements; snh_tets : tet_elements }.
Definition build_solid (cells : list mcell) (ref_pos : nat -> nat -> v3) (materials : list mat) (a : cell_attribs) (vertex_type : list vtype) : res tet_solid :=
  rbind (build_tets NeoHookean cells ref_pos materials a vertex_type) (fun nh =>
  rbind (build_tets StableNeoHookean cells ref_pos materials a vertex_type) (fun snh => Done (TetSolid nh snh))).
(** The view of the elements used by the energies (zips of the vectors). *)
Definition solid_tets_of (t : tet_elements) : list solid_tet :=
  map (fun p => let '(w, x, y, z, (inv, (vol, (lambda, (mu, damping))))) := p in SolidTet w x y z inv vol lambda mu damping)
    (combine (tt_tets t) (combine (tt_inv t) (combine (tt_volume t) (combine (tt_lambda t) (combine (tt_mu t) (tt_damping t)))))).
(** add_vertex_masses, l.272-289: three corners of each tetrahedron receive a third of its mass. *)
Fixpoint add_tet_masses (es : list (corners4 * (R * R))) (masses : list R) : option (list R) :=
  match es with
  | [] => Some masses
  | (w, x, y, _, (volume, density)) :: r => bind (add_masses masses [w; x; y] (volume * density / 3)) (add_tet_masses r)
  end.
Definition tet_vertex_masses (t : tet_elements) (masses : list R) : option (list R) :=
  add_tet_masses (combine (tt_tets t) (combine (tt_volume t) (tt_density t))) masses.
(** add_elastic_forces, l.297-334: the force [- grad[j]] is added to three corners; [None] also stands for infinite forces. *)
Fixpoint add_tet_forces (ss : list solid_tet) (x : nat -> v3) (forces : list v3) : option (list v3) :=
  match ss with
  | [] => Some forces
  | s :: r => bind (nh_gradient (elem_of s (gather s x))) (fun g =>
      bind (add_at forces (c0 s) (v3_neg (t0 g))) (fun l => bind (add_at l (c1 s) (v3_neg (t1 g))) (fun l => bind (add_at l (c2 s) (v3_neg (t2 g))) (add_tet_forces r x))))
  end.

(** * Attributes, builder.rs *)
(** Typed integer attribute data; [Other] is data of any other type. *)
Inductive attr := I8 (l : list Z) | I32 (l : list Z) | I64 (l : list Z) | U8 (l : list Z) | U32 (l : list Z) | U64 (l : list Z) | Other (n : nat).
(** An attribute name as it may appear on cells and on vertices. *)
Record slot := Slot { on_cells : option attr; on_vertices : option attr }.
Definition fits32 (z : Z) : bool := Z.leb (- 2147483648) z && Z.leb z 2147483647.
Definition fits8 (z : Z) : bool := Z.leb (- 128) z && Z.leb z 127.
(** [try_from(id).unwrap_or(0)]. *)
Definition or_zero (fits : Z -> bool) (z : Z) : Z := if fits z then z else 0%Z.
(** insert_attrib_data on vertices (external crate meshx): an error when the name is taken or the number of values is wrong. *)
Definition insert_on_vertices (n : nat) (s : slot) (l : list Z) : res slot :=
  match on_vertices s with Some _ => Err AttribError | None => if Nat.eqb (length l) n then Done (Slot (on_cells s) (Some (I32 l))) else Err AttribError end.
(** init_object_id_attribute and init_material_id_attribute, l.263-302 and 304-365, with the normalisation of an id: present ids of the right
    type are normalised in place; u8 and u32 ids are removed from the cells and inserted on the vertices; anything else becomes zeros. *)
Definition init_id_attribute (normalize : Z -> Z) (n_cells n_verts : nat) (s : slot) : res slot :=
  match on_cells s with
  | Some (I32 l) => Done (Slot (Some (I32 (map normalize l))) (on_vertices s))
  | Some (U8 l) | Some (U32 l) => insert_on_vertices n_verts (Slot None (on_vertices s)) (map (fun z => normalize (or_zero fits32 z)) l)
  | _ => Done (Slot (Some (I32 (repeat 0%Z n_cells))) (on_vertices s))
  end.
Definition clamp_id (id : Z) : Z := Z.max id 0.
(** normalize_id, l.312-318; [MaterialIdType::try_from(num_materials).unwrap()] panics for more than 2^31 - 1 materials, which is not modelled. *)
Definition normalize_material (num_materials : nat) (id : Z) : Z := if Z.leb (Z.of_nat num_materials) id then 0%Z else Z.max id 0.
(** Reading the ids back, [attrib_as_slice::<i32, CellIndex>]. *)
Definition read_ids (s : slot) : res (list Z) := match on_cells s with Some (I32 l) => Done l | _ => Err AttribError end.
(** init_fixed_attribute, l.459-518. *)
Definition normalize_fixed (id : Z) : Z := if Z.eqb id 0 then 0%Z else 1%Z.
Definition init_fixed (n_verts : nat) (a : option attr) : list Z :=
  match a with
  | Some (I8 l) => map normalize_fixed l
  | Some (I32 l) | Some (I64 l) | Some (U8 l) | Some (U32 l) | Some (U64 l) => map (fun z => normalize_fixed (or_zero fits8 z)) l
  | _ => repeat 0%Z n_verts
  end.
(** init_cell_vertex_ref_pos_attribute, l.546-584, without the rounding to f32. *)
Definition cell_ref_pos (cells : list mcell) (pos : nat -> v3) (on_corners : option (nat -> nat -> v3)) (on_verts : option (nat -> v3)) (f i : nat) : v3 :=
  match on_corners with
  | Some r => r f i
  | None => match on_verts with Some q => q (cell_to_vertex cells f i) | None => pos (cell_to_vertex cells f i) end
  end.
(** init_relative_mesh_size_attribute, l.397-446; [None] is infinity.  [Triangle::area] and [Tetrahedron::volume] (external crate meshx) are not
    signed. *)
Definition cbrt (x : R) : R := if Rlt_dec 0 x then Rpower x (1 / 3) else 0.
Definition cell_size (ref_pos : nat -> nat -> v3) (f : nat) (c : mcell) : res R :=
  if is_tri c then if Nat.leb 3 (length (m_verts c)) then Done (sqrt (tri_area (ref_tri3 ref_pos f))) else Panic
  else if Nat.leb 4 (length (m_verts c)) then Done (cbrt (Rabs (tet_volume (ref_tet4 ref_pos f)))) else Panic.
Fixpoint modify {A} (f : A -> A) (l : list A) (i : nat) : option (list A) :=
  match l, i with [], _ => None | a :: r, O => Some (f a :: r) | a :: r, S k => option_map (cons a) (modify f r k) end.
Definition size_min (s : R) (o : option R) : option R := match o with Some x => Some (Rmin x s) | None => Some s end.
Fixpoint lower_all (s : R) (vs : list nat) (l : list (option R)) : res (list (option R)) :=
  match vs with [] => Done l | v :: r => match modify (size_min s) l v with Some l' => lower_all s r l' | None => Panic end end.
Fixpoint lower_cells (ref_pos : nat -> nat -> v3) (cs : list (nat * mcell)) (l : list (option R)) : res (list (option R)) :=
  match cs with
  | [] => Done l
  | (f, c) :: r => rbind (cell_size ref_pos f c) (fun s => rbind (lower_all s (m_verts c) l) (lower_cells ref_pos r))
  end.
Definition infinite (l : list (option R)) : list nat :=
  map fst (filter (fun p => match snd p with None => true | Some _ => false end) (combine (seq 0 (length l)) l)).
Definition rel_mesh_size (ref_pos : nat -> nat -> v3) (cells : list mcell) (n : nat) : res (list R) :=
  rbind (lower_cells ref_pos (indexed_cells cells) (repeat None n)) (fun l =>
  match infinite l with [] => Done (map (fun o => match o with Some x => x | None => 0 end) l) | orphaned => Err (OrphanedVertices orphaned) end).

(** * Contacts, builder.rs:85-108 and 141-261 *)
(** FrictionalContactParams: contact tolerance, stiffness, whether friction parameters are set. *)
Record contact_params := ContactParams { cp_tolerance : R; cp_stiffness : R; cp_friction : bool }.
Notation contact_request := (contact_params * (nat * nat) * bool)%type.
(** add_frictional_contact_with_fixed, l.93-108; [time_step] is [sim_params.time_step]. *)
Definition add_contact (time_step : option R) (contacts : list contact_request) (c : contact_request) : list contact_request :=
  if negb (cp_friction (fst (fst c))) || match time_step with Some _ => true | None => false end then contacts ++ [c] else contacts.
Record contact := Contact { ct_object : nat; ct_collider : nat; ct_object_fixed : bool; ct_collider_fixed : bool; ct_use_fixed : bool;
  ct_tolerance : R; ct_stiffness : R }.
(** build_contact_surface, l.207-228.  [surface id] are the faces of the surface of object [id] in vertices of the mesh (split_by_cell_partition
    and surface_trimesh of the external crate meshx); there is one for every id in [object_ids]. *)
Definition contact_surface (object_ids : list Z) (surface : nat -> list (list nat)) (vertex_type : list vtype) (id : nat) : res bool :=
  if existsb (fun z => Nat.eqb (Z.to_nat z) id) object_ids
  then rbind (collect (any_not_fixed vertex_type) (surface id)) (fun bs => Done (forallb negb bs))
  else Err (ContactObjectIdError id).
(** l.232-260; PenaltyPointContactConstraint::new is not modelled. *)
Definition build_contact (object_ids : list Z) (surface : nat -> list (list nat)) (vertex_type : list vtype) (c : contact_request) : res contact :=
  let '(p, (object_id, collider_id), use_fixed) := c in
  rbind (contact_surface object_ids surface vertex_type object_id) (fun o =>
  rbind (contact_surface object_ids surface vertex_type collider_id) (fun k =>
  Done (Contact object_id collider_id o k use_fixed (cp_tolerance p) (if Rle_dec (cp_stiffness p) 0 then 1 / cp_tolerance p else cp_stiffness p)))).
(** l.720-726. *)
Definition has_self_contact (cs : list contact_request) : bool := existsb (fun c => Nat.eqb (fst (snd (fst c))) (snd (snd (fst c)))) cs.

(** * Force scales, builder.rs:745-833 *)
(** All of compute_max_modulus and the like return 1, l.600-650. *)
Definition max_force_scale (dt g : R) : R :=
  let m := Rmax (Rmax (Rmax (1 * 1 * 1) (if Rlt_dec 0 dt then 1 * 1 / (dt * dt) else 0)) (1 * g)) (1 / 1) in if Req_EM_T m 0 then 1 else m.
(** [None] is infinity. *)
Definition ignore_zero (x : R) : option R := if Req_EM_T x 0 then None else Some x.
Definition min_opt (a b : option R) : option R := match a, b with Some x, Some y => Some (Rmin x y) | None, o | o, None => o end.
Definition min_force_scale (dt g : R) : option R :=
  min_opt (min_opt (min_opt (option_map (fun m => m * 1 * 1) (ignore_zero 1)) (if Rlt_dec 0 dt then Some (1 * 1 / (dt * dt)) else None)) (ignore_zero (1 * g))) (Some (1 / 1)).
(** r_tol, l.899-901; an infinite scale is not a number of the model. *)
Definition residual_tolerance (user : option R) (dt g : R) : option R :=
  option_map (fun s => (match user with Some t => t | None => 0 end) * s) (min_force_scale dt g).

(** * The problem, builder.rs:652-862 *)
Record input := Input {
  i_cells : list mcell; i_n : nat; i_pos : nat -> v3; i_ref_corners : option (nat -> nat -> v3); i_ref_verts : option (nat -> v3);
  i_mtl_ids : slot; i_obj_ids : slot; i_fixed : option attr; i_source : option (list nat);
  i_materials : list mat; i_density : option (nat -> R); i_lambda : option (nat -> R); i_mu : option (nat -> R); i_damping : option (nat -> R);
  i_ref_angle : option (nat -> nat -> R); i_bend : option (nat -> R);
  i_contacts : list contact_request; i_surface : nat -> list (list nat) }.
Definition kind (m : mat) : material := match m with SoftShell _ _ | Solid _ _ => MSoft | RigidMat => MRigid | FixedMat => MFixed end.
Definition valid_cell (c : mcell) : bool := match tet_of c, tri_of c with None, None => false | _, _ => true end.
(** sort_mesh_vertices_by_type, state.rs:466-522: types of the vertices before sorting.  With u8 or u32 ids the attribute is missing and only the
    fixed flags count. *)
Definition vertex_types (materials : list mat) (ids : slot) (fixed : list Z) (cells : list mcell) : res (list vtype) :=
  let flags := map (Z.ltb 0) fixed in
  match on_cells ids with
  | Some (I32 l) =>
      rbind (collect (fun p => rbind (material_of materials (Z.max (snd p) 0)) (fun m => Done (Cell (m_verts (fst p)) (kind m) (valid_cell (fst p))))) (combine cells l)) (fun cs =>
      match classify flags cs with Some ts => Done ts | None => Panic end)
  | _ => Done (map (fun b : bool => if b then Fixed else Ignored) flags)
  end.
(** sort_vertices_by_key renames the vertices of the cells: the new name of [v] is its position in [order]. *)
Fixpoint position (v : nat) (order : list nat) : nat := match order with [] => O | x :: r => if Nat.eqb x v then O else S (position v r) end.
Definition rename_cell (order : list nat) (c : mcell) : mcell := MCell (is_tri c) (map (fun v => position v order) (m_verts c)).
(** state_vertex_indices, builder.rs:666, 686-693: [source] is the source index attribute in the new order. *)
Definition source_indices (n : nat) (source : list nat) : option (list (option nat)) :=
  put_all (repeat None n) (combine source (map Some (seq 0 (length source)))).
Record problem := Problem { p_types : list vtype; p_orig_index : list nat; p_state_index : list (option nat); p_cells : list mcell; p_pos : nat -> v3;
  p_sizes : list R; p_solid : tet_solid; p_tris : triangle_elements; p_dihedrals : dihedral_elements; p_masses : list R; p_mass_inv : list R; p_contacts : list contact }.
Definition tet_masses (t : tet_elements) : list element :=
  map (fun p => let '(w, x, y, z, (vol, rho)) := p in Element vol rho [w; x; y; z]) (combine (tt_tets t) (combine (tt_volume t) (tt_density t))).
Definition tri_masses (t : triangle_elements) : list element :=
  map (fun p => let '(a, b, c, (area, rho)) := p in Element area rho [a; b; c]) (combine (te_triangles t) (combine (te_area t) (te_density t))).
Definition no_panic {A} (o : option A) : res A := match o with Some a => Done a | None => Panic end.
(** [order] of the interior edges is that of a hash map, see TopoModel.  Volume constraints, velocities and the AD copies are left out. *)
Definition build_problem (i : input) (edge_order : list mcell -> list edge_data) : res problem :=
  let cells := i_cells i in
  let n := i_n i in
  let source := match i_source i with Some l => l | None => seq 0 n end in
  let ref_pos := cell_ref_pos cells (i_pos i) (i_ref_corners i) (i_ref_verts i) in
  rbind (init_id_attribute (normalize_material (length (i_materials i))) (length cells) n (i_mtl_ids i)) (fun mtl_ids =>
  rbind (init_id_attribute clamp_id (length cells) n (i_obj_ids i)) (fun obj_ids =>
  let fixed := init_fixed n (i_fixed i) in
  rbind (rel_mesh_size ref_pos cells n) (fun sizes =>
  rbind (vertex_types (i_materials i) mtl_ids fixed cells) (fun types =>
  let order := orig_index types in
  let sorted_types := sort_types types in
  let sorted_cells := map (rename_cell order) cells in
  let sorted_pos := fun v => i_pos i (nth v order O) in
  rbind (no_panic (source_indices n (map (fun v => nth v source O) order))) (fun state_index =>
  rbind (read_ids mtl_ids) (fun ids =>
  let a := CellAttribs (i_density i) (i_lambda i) (i_mu i) (i_damping i) (fun c => nth c ids 0%Z) in
  rbind (build_solid sorted_cells ref_pos (i_materials i) a sorted_types) (fun solid =>
  rbind (build_triangles sorted_cells ref_pos (i_materials i) a sorted_types) (fun tris =>
  rbind (try_dihedrals (ShellInput sorted_cells sorted_pos ref_pos (i_ref_angle i) (i_bend i)) (i_materials i) a sorted_types (edge_order sorted_cells)) (fun dihedrals =>
  rbind (no_panic (compute_vertex_masses (tet_masses (nh_tets solid) ++ tet_masses (snh_tets solid)) (tri_masses tris) n)) (fun masses =>
  if Nat.eqb (num_dof_vertices sorted_types) 0 then Err NothingToSolve
  else if has_self_contact (i_contacts i) then Err UnimplementedFeature
  else match read_ids obj_ids with
  | Done oids =>
      rbind (collect (build_contact oids (i_surface i) sorted_types) (i_contacts i)) (fun contacts =>
      Done (Problem sorted_types (map (fun v => nth v source O) order) state_index sorted_cells sorted_pos
        (map (fun v => nth v sizes 0) order) solid tris dihedrals masses (mass_inv sorted_types masses) contacts))
  | _ => Panic (* unwrap *)
  end)))))))))).
