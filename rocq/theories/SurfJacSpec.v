(** What the surface Jacobian is for: the rate of the potential when the vertices of the surface move. *)
From Coq Require Import Reals List.
From Verif Require Import Vec3 RList KernelModel KernelSpec FieldModel FieldSpec NeighborModel NeighborSpec UpdateProps.
Import ListNotations.
Local Open Scope R_scope.

(** Vertices moving along straight lines. *)
Definition mesh_line (V : list v3) (U : nat -> v3) (s : R) : list v3 :=
  map (fun p => v3_line (snd p) (U (fst p)) s) (combine (seq 0 (length V)) V).
(** Samples are where the vertices put them: at centroids with area normals, or at vertices with the sum of the area normals around them. *)
Definition in_place (b : base) : Prop := forall i, (i < length (sb_samples b))%nat ->
  let s := smp (sb_samples b) i in
  match sb_type b with
  | SFace => s_pos s = tri_centroid (sb_verts b) (nth i (sb_topo b) (0, 0, 0)%nat) /\ s_nml s = area_vector (sb_verts b) (nth i (sb_topo b) (0, 0, 0)%nat)
  | SVertex => s_pos s = pt (sb_verts b) i /\ s_nml s = vsum (map (area_vector (sb_verts b)) (filter (has_corner i) (sb_topo b)))
  end.
(** Triangles have three different corners; every vertex of a sampled mesh lists each of its triangles once. *)
Definition proper_mesh (b : base) : Prop :=
  (forall t, In t (sb_topo b) -> distinct_corners t) /\
  (sb_type b = SVertex -> length (sb_dual b) = length (sb_verts b) /\ forall i, NoDup (nth i (sb_dual b) [])).
(** Samples that can have a weight at a distance. *)
Definition in_reach (k : kernel) (d : R) : Prop := match support k with None => True | Some r => d <= r end.
(** A neighbourhood that contains the vertices within reach and their neighbours on the mesh. *)
Definition rings_covered (b : base) (k : kernel) (q : v3) (view : list nat) : Prop := forall i, (i < length (sb_samples b))%nat ->
  in_reach k (gap (sb_samples b) q i) ->
  In i view /\ forall t j, In t (sb_topo b) -> In i (tri_verts t) -> In j (tri_verts t) -> In j view.
(** Product of one row of a sparse matrix with a vector. *)
Definition row_product (L : list (nat * nat * v3)) (U : nat -> v3) (r : nat) : R :=
  rsum (map (fun e => let '(row, col, J) := e in if Nat.eqb row r then v3_dot J (U col) else 0) L).
