(** Vocabulary for statements about volumes. *)
From Coq Require Import Reals List Arith Permutation.
From Verif Require Import Vec3 Mat3 RList ElasticModel ElasticSpec MassModel VolumeModel.
Import ListNotations.
Local Open Scope R_scope.

(** Bilinear form and linear form of sparse data with repeated entries adding up. *)
Definition sparse_form (ts : list (nat * nat * R)) (u w : nat -> R) : R := rsum (map (fun t => let '(r, c, h) := t in h * u r * w c) ts).
Definition sparse_dot (ts : list (nat * R)) (u : nat -> R) : R := rsum (map (fun t => snd t * u (fst t)) ts).
Definition tris_in_range (n : nat) (ts : list tri) : Prop := forall t, In t ts -> (ta t < n)%nat /\ (tb t < n)%nat /\ (tc t < n)%nat.
(** A closed oriented surface: every directed edge is used as often as its reverse. *)
Definition directed_edges (ts : list tri) : list (nat * nat) := flat_map (fun t => [(ta t, tb t); (tb t, tc t); (tc t, ta t)]) ts.
Definition closed_surface (ts : list tri) : Prop := Permutation (directed_edges ts) (map (fun e => (snd e, fst e)) (directed_edges ts)).
Definition shift (pos : nat -> v3) (d : v3) (i : nat) : v3 := v3_add (pos i) d.
(** Outward faces of a tetrahedron whose shape matrix has positive determinant. *)
Definition tet_faces (q : nat * nat * nat * nat) : list tri := let '(a, b, c, d) := q in [Tri a b c; Tri d c b; Tri a c d; Tri b a d].
(** The same triangle started at another corner, and the triangle seen from the other side. *)
Definition rotated (s t : tri) : Prop := t = s \/ t = Tri (tb s) (tc s) (ta s) \/ t = Tri (tc s) (ta s) (tb s).
Definition opposite (s t : tri) : Prop := rotated (Tri (tb s) (ta s) (tc s)) t.
(** [surf] is the boundary of tetrahedra: their faces are the surface triangles and pairs of opposite interior triangles. *)
Definition boundary (tets : list (nat * nat * nat * nat)) (surf : list tri) : Prop :=
  exists outer (inner : list (tri * tri)), Permutation (flat_map tet_faces tets) (outer ++ flat_map (fun p => [fst p; snd p]) inner) /\
    Forall2 rotated outer surf /\ Forall (fun p => opposite (fst p) (snd p)) inner.
(** Tetrahedra and triangles of a zone. *)
Definition zone_tets (z : nat) (cs : list zcell) : list (nat * nat * nat * nat) :=
  flat_map (fun c => match c with TetCell a b c' d zid => if Nat.eqb zid z then [(a, b, c', d)] else [] | _ => [] end) cs.
Definition zone_tris (z : nat) (cs : list zcell) : list tri :=
  flat_map (fun c => match c with TriCell a b c' zid => if Nat.eqb zid z then [Tri a b c'] else [] | _ => [] end) cs.
(** The vertex of every cell corner, in the order corners are numbered. *)
Definition corner_vertices (cs : list zcell) : list nat :=
  flat_map (fun c => match c with TetCell a b c' d _ => [a; b; c'; d] | TriCell a b c' _ => [a; b; c'] | OtherCell k => repeat 0%nat k end) cs.
(** Reference positions stored per corner are the positions of the corners' vertices. *)
Definition at_rest (cs : list zcell) (ref_pos pos : nat -> v3) : Prop := forall i, (i < length (corner_vertices cs))%nat -> ref_pos i = pos (nth i (corner_vertices cs) 0%nat).
Definition tets_volume (pos : nat -> v3) (qs : list (nat * nat * nat * nat)) : R :=
  rsum (map (fun q => let '(a, b, c, d) := q in v3_dot (v3_sub (pos a) (pos d)) (v3_cross (v3_sub (pos b) (pos d)) (v3_sub (pos c) (pos d))) / 6) qs).
