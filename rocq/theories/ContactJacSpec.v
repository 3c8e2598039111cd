(** Specification vocabulary for the contact maps and frames. *)
From Coq Require Import Reals List.
From Verif Require Import Vec3 Mat3 RList ContactJacModel.
Import ListNotations.
Local Open Scope R_scope.

(** Inner product of two stacked vectors of [n] 3-vectors: with a force and a velocity it is their power. *)
Definition inner (n : nat) (a b : list v3) : R := rsum (map (fun i => v3_dot (at3 a i) (at3 b i)) (seq 0 n)).

(** All indices in range of a mesh with [n] vertices and a contact set with one row per constrained collider vertex. *)
Definition maps_in_range (c : contact_maps) (n : nat) : Prop :=
  (forall b, In b (cm_matrix c) -> (fst (fst b) < length (cm_constrained c))%nat /\ (snd (fst b) < length (cm_surface c))%nat) /\
  (forall i, In i (cm_surface c) -> (i < n)%nat) /\
  (forall i, In i (cm_collider c) -> (i < n)%nat) /\
  (forall i, In i (cm_constrained c) -> (i < length (cm_collider c))%nat).
(** Index lists without repetition and no vertex on both sides of the contact. *)
Definition maps_separate (c : contact_maps) : Prop :=
  NoDup (cm_surface c) /\ NoDup (cm_collider c) /\ NoDup (cm_constrained c) /\
  (forall i, In i (cm_surface c) -> ~ In i (cm_collider c)).

(** Right-handed orthonormal frame. *)
Definition orthonormal (f : frame) : Prop :=
  v3_dot (fr_normal f) (fr_normal f) = 1 /\ v3_dot (fr_tangent f) (fr_tangent f) = 1 /\ v3_dot (fr_normal f) (fr_tangent f) = 0.
