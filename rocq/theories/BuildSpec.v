(** Vocabulary for statements about the construction of solids and of the problem. *)
From Coq Require Import Reals ZArith List Arith Bool Permutation.
From Verif Require Import Vec3 Mat3 ElasticModel AngleModel ShellModel StateModel UtilModel TopoModel BuildModel.
Import ListNotations.

(** Cell [f] is a tetrahedron with corners [t]. *)
Definition tet_at (cells : list mcell) (f : nat) (t : corners4) : Prop := exists c, nth_error cells f = Some c /\ tet_of c = Some t.
Definition corner4 (t : corners4) (i : nat) : nat := let '(w, x, y, z) := t in nth i [w; x; y; z] O.
Definition tets_below (n : nat) (cells : list mcell) : Prop := forall f t i, tet_at cells f t -> i < 4 -> corner4 t i < n.
(** Cell [f] has the solid material [d], which asks for the stable model if [stable]. *)
Definition solid_at (materials : list mat) (a : cell_attribs) (f : nat) (d : deformable) (stable : bool) : Prop :=
  nth_error materials (Z.to_nat (at_mtl_id a f)) = Some (Solid d stable).
(** Cell [f] is to be simulated by model [M]: a tetrahedron with a corner that is not fixed, whose material is a solid of that model. *)
Definition simulated (M : model) (cells : list mcell) (materials : list mat) (a : cell_attribs) (vt : list vtype) (f : nat) : Prop :=
  (exists t i k, tet_at cells f t /\ i < 4 /\ nth_error vt (corner4 t i) = Some k /\ k <> Fixed) /\
  exists d stable, solid_at materials a f d stable /\ (M = StableNeoHookean <-> stable = true /\ m_elasticity d <> None).
(** A parameter of cell [f] is its attribute or else comes from its solid material. *)
Definition from_solid (attrib : option (nat -> R)) (materials : list mat) (a : cell_attribs) (get : deformable -> bool -> option R) (f : nat) (x : R) : Prop :=
  match attrib with Some g => x = g f | None => exists d stable, solid_at materials a f d stable /\ get d stable = Some x end.
(** Lame parameters with which a solid of the given elasticity is simulated. *)
Definition solid_lame (pick : R * R -> R) (d : deformable) (stable : bool) : option R :=
  option_map (fun e => pick (if stable then (lambda_of e + 5 * mu_of e / 6, 4 * mu_of e / 3) else (lambda_of e, mu_of e))%R) (m_elasticity d).
(** The reference positions of the corners of tetrahedra are the positions of the vertices. *)
Definition solid_unstressed (cells : list mcell) (ref_pos : nat -> nat -> v3) (pos : nat -> v3) : Prop :=
  forall f t i, tet_at cells f t -> i < 4 -> ref_pos f i = pos (corner4 t i).

(** Triangles have three and tetrahedra four corners, which are vertices. *)
Definition well_formed (n : nat) (cells : list mcell) : Prop :=
  forall f c, nth_error cells f = Some c -> length (m_verts c) = (if is_tri c then 3 else 4) /\ forall v, In v (m_verts c) -> v < n.
(** [s] is the size of cell [f]: the side of a square or cube with its reference area or volume. *)
Definition has_size (cells : list mcell) (ref_pos : nat -> nat -> v3) (f : nat) (s : R) : Prop :=
  (0 <= s)%R /\ exists c, nth_error cells f = Some c /\
  if is_tri c then (s * s)%R = tri_area (ref_tri3 ref_pos f) else (s * s * s)%R = Rabs (m3_det (shape_matrix (ref_tet4 ref_pos f)) / 6).
Definition touches (cells : list mcell) (f v : nat) : Prop := exists c, nth_error cells f = Some c /\ In v (m_verts c).

(** Number of values of an attribute. *)
Definition attr_length (a : attr) : nat := match a with I8 l | I32 l | I64 l | U8 l | U32 l | U64 l => length l | Other n => n end.
(** Ids of cells that are not of an unsigned 8 or 32 bit type. *)
Definition proper_ids (n : nat) (s : slot) : Prop := match on_cells s with None => True | Some (U8 _) | Some (U32 _) => False | Some a => attr_length a = n end.
Record well_posed (i : input) : Prop := WellPosed {
  wp_cells : well_formed (i_n i) (i_cells i);
  wp_simple : forall f c, nth_error (i_cells i) f = Some c -> is_tri c = true -> NoDup (m_verts c);
  wp_materials : i_materials i <> [];
  wp_mtl : proper_ids (length (i_cells i)) (i_mtl_ids i);
  wp_obj : proper_ids (length (i_cells i)) (i_obj_ids i);
  wp_fixed : forall a, i_fixed i = Some a -> attr_length a = i_n i;
  wp_source : i_source i = None;
  wp_surface : forall id face v, In face (i_surface i id) -> In v face -> v < i_n i }.
(** The material of cell [f]: that of its id, or the first one if there is no valid id. *)
Definition cell_material (i : input) (f : nat) : option mat :=
  match on_cells (i_mtl_ids i) with
  | Some (I32 l) => match nth_error (i_materials i) (Z.to_nat (nth f l 0%Z)) with
                    | Some m => if Z.ltb (nth f l 0%Z) 0 then nth_error (i_materials i) 0 else Some m
                    | None => nth_error (i_materials i) 0
                    end
  | _ => nth_error (i_materials i) 0
  end.
(** The shell of a problem. *)
Definition shell_of (p : problem) : shell := Shell (shell_tris_of (p_tris p)) (dihedrals_of (p_dihedrals p)) (faces_of (p_dihedrals p)).
(** Densities given for cells or by materials are positive. *)
Definition positive_densities (i : input) : Prop :=
  match i_density i with
  | Some g => forall f, (0 < g f)%R
  | None => forall m, In m (i_materials i) -> match m with SoftShell d _ | Solid d _ => forall rho, m_density d = Some rho -> (0 < rho)%R | _ => True end
  end.
(** No tetrahedron has the material of a shell. *)
Definition solid_tetrahedra (i : input) : Prop := forall f t d b, tet_at (i_cells i) f t -> cell_material i f <> Some (SoftShell d b).
(** The object that cell [f] belongs to. *)
Definition cell_object (i : input) (f : nat) : nat := match on_cells (i_obj_ids i) with Some (I32 l) => Z.to_nat (nth f l 0%Z) | _ => O end.
(** Vertex [v] is flagged as fixed. *)
Definition held (i : input) (v : nat) : Prop := nth v (init_fixed (i_n i) (i_fixed i)) 0%Z <> 0%Z.
(** The orders of the table of edges are arbitrary. *)
Definition orders_edges (edge_order : list mcell -> list edge_data) : Prop := forall cells, Permutation (edge_order cells) (edge_table cells).
(** The first Lame parameter with which a stable solid is simulated does not vanish. *)
Definition stiff_solids (i : input) : Prop :=
  match i_lambda i with
  | Some g => forall f, g f <> 0%R
  | None => forall d e, In (Solid d true) (i_materials i) -> m_elasticity d = Some e -> (lambda_of e + 5 * mu_of e / 6)%R <> 0%R
  end.
