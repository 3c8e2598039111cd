(** Vocabulary for statements about the edges of triangle meshes and the elements built from them. *)
From Coq Require Import Reals ZArith List Arith Bool.
From Verif Require Import Vec3 AngleModel StateModel TopoModel.
Import ListNotations.

(** Cell [f] is a triangle with corners [t]. *)
Definition triangle_at (cells : list mcell) (f : nat) (t : corners3) : Prop := exists c, nth_error cells f = Some c /\ tri_of c = Some t.
Definition corner_of (v : nat) (t : corners3) : Prop := let '(a, b, c) := t in v = a \/ v = b \/ v = c.
(** Triangle [f] has both [a] and [b] as corners. *)
Definition adjacent (cells : list mcell) (f a b : nat) : Prop := exists t, triangle_at cells f t /\ corner_of a t /\ corner_of b t.
(** Triangles have three different corners; all corners are vertices. *)
Definition simple (cells : list mcell) : Prop := forall f a b c, triangle_at cells f (a, b, c) -> a <> b /\ b <> c /\ a <> c.
Definition corners_below (n : nat) (cells : list mcell) : Prop := forall f t v, triangle_at cells f t -> corner_of v t -> v < n.
(** Some corner of triangle [f] is not fixed. *)
Definition has_movable_corner (cells : list mcell) (vt : list vtype) (f : nat) : Prop :=
  exists t v k, triangle_at cells f t /\ corner_of v t /\ nth_error vt v = Some k /\ k <> Fixed.
(** End points of an interior edge, smaller one first. *)
Definition ends (cells : list mcell) (e : interior_edge) : nat * nat :=
  let a := edge_vert e (cell_to_vertex cells) 0 in let b := edge_vert e (cell_to_vertex cells) 1 in (Nat.min a b, Nat.max a b).
(** Edge [e'] is edge [e] with its faces numbered by their position in [cells]. *)
Definition renamed (cells : list nat) (e e' : interior_edge) : Prop :=
  nth_error cells (face_0 e') = Some (face_0 e) /\ nth_error cells (face_1 e') = Some (face_1 e) /\ start_0 e' = start_0 e /\ start_1 e' = start_1 e.
(** Triangle [f] runs along its boundary from [a] to [b]; no two triangles run along an edge in the same direction. *)
Definition directed (cells : list mcell) (f a b : nat) : Prop :=
  exists x y z, triangle_at cells f (x, y, z) /\ ((a = x /\ b = y) \/ (a = y /\ b = z) \/ (a = z /\ b = x)).
Definition oriented (cells : list mcell) : Prop := forall f g a b, directed cells f a b -> directed cells g a b -> f = g.
(** The reference positions of the corners of triangles are the positions of the vertices. *)
Definition unstressed (m : shell_input) : Prop :=
  forall f t i, triangle_at (in_cells m) f t -> i < 3 -> in_ref_pos m f i = in_pos m (corner t i).
(** Every triangle has a positive area. *)
Definition triangles_proper (m : shell_input) : Prop :=
  forall f a b c, triangle_at (in_cells m) f (a, b, c) -> area_normal (in_pos m a) (in_pos m b) (in_pos m c) <> v3_0.
(** Material ids are indices of materials. *)
Definition ids_below (k : nat) (a : cell_attribs) : Prop := forall c, (0 <= at_mtl_id a c < Z.of_nat k)%Z.
