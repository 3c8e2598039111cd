(** What a user of the neighbourhood caches relies on, in textbook terms. *)
From Coq Require Import Reals List ZArith Sorted.
From Verif Require Import Vec3 KernelModel FieldModel FieldSpec NeighborModel.
Import ListNotations.
Local Open Scope R_scope.

(** Distance of a query point to a sample. *)
Definition gap (S : list sample) (q : v3) (i : nat) : R := v3_norm (away S q i).
(** A search tree that answers exactly, as long as it is built from the samples it is asked about. *)
Definition faithful (o : tree_ops) : Prop := forall (S : list sample) (q : v3),
  (forall r i, 0 <= r -> (In i (t_locate o (build_tree S) q (r * r)) <-> (i < length S)%nat /\ gap S q i <= r)) /\
  (forall x, NoDup (t_locate o (build_tree S) q x)) /\
  (S = [] -> t_nearest o (build_tree S) q = None) /\
  (S <> [] -> exists c, t_nearest o (build_tree S) q = Some c /\ (c < length S)%nat /\ forall j, (j < length S)%nat -> gap S q c <= gap S q j).
(** Linear search: a tree that satisfies the above. *)
Definition scan : tree_ops := TreeOps
  (fun t q x => filter (fun i => if Rle_dec (dist2 (t_data t) q i) x then true else false) (seq 0 (length (t_data t))))
  (fun t q => closest_sample q (t_data t) (seq 0 (length (t_data t)))).

(** A surface whose tree and samples belong to its vertices, and whose triangles and vertex rings make sense. *)
Definition well_formed (b : base) : Prop :=
  (forall t v, In t (sb_topo b) -> In v (tri_verts t) -> (v < length (sb_verts b))%nat) /\
  match sb_type b with
  | SFace => length (sb_samples b) = length (sb_topo b)
  | SVertex => length (sb_samples b) = length (sb_verts b) /\
      (sb_dual b = [] \/ length (sb_dual b) = length (sb_verts b)) /\
      (forall i t, In t (nth i (sb_dual b) []) <->
         ((i < length (sb_dual b))%nat /\ (t < length (sb_topo b))%nat /\ In i (tri_verts (nth t (sb_topo b) (0, 0, 0)%nat))))
  end.
Definition current (b : base) : Prop := sb_tree b = build_tree (sb_samples b).
Definition sampled (b : base) : Prop := map s_pos (sb_samples b) =
  match sb_type b with SVertex => sb_verts b | SFace => map (tri_centroid (sb_verts b)) (sb_topo b) end.

(** The samples within a distance. *)
Definition within (S : list sample) (q : v3) (r : R) (i : nat) : Prop := (i < length S)%nat /\ gap S q i <= r.
(** Two vertices of a triangle touching one of the samples. *)
Definition adjacent (b : base) (pts : list nat) (v : nat) : Prop :=
  exists i t, In i pts /\ In t (sb_topo b) /\ In i (tri_verts t) /\ In v (tri_verts t).
(** Points that moved by at most [d]. *)
Definition moved_at_most (d : R) (old new : list v3) : Prop :=
  length new = length old /\ forall i, (i < length old)%nat -> v3_norm (v3_sub (pt new i) (pt old i)) <= d.
(** Only one sample is nearest to the query point. *)
Definition unique_nearest (S : list sample) (q : v3) : Prop :=
  exists c, (c < length S)%nat /\ forall j, (j < length S)%nat -> j <> c -> gap S q c < gap S q j.
(** Cached sets of one query point: a nearest sample, the samples within the radius enlarged by the maximal step, and those
    together with the corners of their triangles, in ascending order. *)
Definition exact_at (s : local_mls) (q : v3) (c : nat) (triv ext : list nat) : Prop :=
  let b := lm_base s in let S := sb_samples b in
  ((c < length S)%nat /\ forall j, (j < length S)%nat -> gap S q c <= gap S q j) /\
  (NoDup triv /\ forall i, In i triv <-> within S q (lm_radius s + lm_max_step s) i) /\
  (StronglySorted lt ext /\ forall v, In v ext <-> In v triv \/ (sb_type b = SVertex /\ sb_dual b <> [] /\ adjacent b triv v)).
(** Cached indices refer to samples, one list of each kind for each query point. *)
Definition indices_ok (t : query_topo) : Prop :=
  length (extended_neighborhood t) = length (trivial_neighborhood t) /\
  (forall l i, In l (trivial_neighborhood t) \/ In l (extended_neighborhood t) -> In i l -> (i < length (sb_samples (q_base t)))%nat) /\
  (forall k, nth k (extended_neighborhood t) [] = [] <-> nth k (trivial_neighborhood t) [] = []).
(** Vertices on which a sample depends: itself, or the corners of its triangle. *)
Definition depends_on (b : base) (i v : nat) : Prop :=
  match sb_type b with SVertex => v = i | SFace => exists tr, nth_error (sb_topo b) i = Some tr /\ In v (tri_verts tr) end.
(** The neighbourhood whose samples the potential of a query point depends on through the surface. *)
Definition support_of (t : query_topo) (k : nat) : list nat :=
  nth k (match sb_type (q_base t) with SVertex => extended_neighborhood t | SFace => trivial_neighborhood t end) [].
