(** What the derivatives of the contact Jacobian are for: the rate of its products with fixed vectors when query points and surface move. *)
From Coq Require Import Reals List.
From Verif Require Import Vec3 Mat3 RList KernelModel KernelSpec FieldModel FieldSpec NeighborModel ContactMapSpec SurfJacSpec.
Import ListNotations.
Local Open Scope R_scope.

(** A way of listing the members of a set: every member once. *)
Definition lists_the_set (ord : list nat -> list nat) : Prop := forall l, NoDup (ord l) /\ forall v, In v (ord l) <-> In v l.
(** Row of a product with blocks stored by columns: row [r] of a block is the derivative in coordinate [r]. *)
Definition column_major_product (L : list (nat * nat * m3)) (U : nat -> v3) (r : nat) : v3 :=
  vsum (map (fun e => let '(row, col, B) := e in if Nat.eqb row r then m3_mulv (m3_transpose B) (U col) else v3_0) L).
(** Row of the product with the transpose of a block matrix. *)
Definition transposed_product (L : list (nat * nat * m3)) (y : nat -> v3) (v : nat) : v3 :=
  vsum (map (fun e => let '(row, col, B) := e in if Nat.eqb col v then m3_mulv (m3_transpose B) (y row) else v3_0) L).
(** Vectors given one after the other for the query points that see the surface. *)
Definition for_filled (t : query_topo) (l : list v3) (r : nat) : v3 := nth (length (filter (fun j => Nat.ltb j r) (filled t))) l v3_0.
(** A query point around which the contact Jacobian is smooth: one sample is strictly nearest and in reach, samples are where the kernel is
    smooth, and no normal is opposite to the gradient. *)
Definition contact_point (t : query_topo) (q : v3) (view : list nat) : Prop := let b := q_base t in let S := sb_samples b in let k := q_kernel t in
  exists c g, nearest S q view c /\ regular_view k S q view /\ (p_type (sb_bg b) = FDistance -> v3_dot (s_nml (smp S c)) (away S q c) <> 0) /\
    match k_radius k with None => True | Some r => v3_norm (away S q c) < r end /\
    query_jacobian_at q S view None k (sb_bg b) = Some g /\ forall i, In i view -> v3_dot (direction (smp S i)) g <> -1.
(** The surface with its vertices at the given places; its caches are left as they are. *)
Definition surface_at (t : query_topo) (V : list v3) (rebuild : bool) : query_topo := fst (update_surface t V rebuild).
