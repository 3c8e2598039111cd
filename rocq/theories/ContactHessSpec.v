(** Contacts in textbook terms: the energy of the contact as a function of the positions of all vertices, and matrices given by their
    entries. *)
From Coq Require Import Reals List Bool Sorting.Sorted.
From Verif Require Import Vec3 Mat3 RList KernelModel KernelSpec FieldModel FieldSpec NeighborModel NeighborSpec UpdateProps SurfJacSpec HessSpec SurfHessSpec ContactHessModel.
Import ListNotations.
Local Open Scope R_scope.

(** Entry and quadratic form of a matrix given by entries, those at the same place being added. *)
Definition matrix_entry (L : list (nat * nat * R)) (i j : nat) : R :=
  rsum (map snd (filter (fun e => andb (Nat.eqb (fst (fst e)) i) (Nat.eqb (snd (fst e)) j)) L)).
Definition matrix_form (n : nat) (L : list (nat * nat * R)) (x : nat -> R) : R :=
  rsum (map (fun i => rsum (map (fun j => matrix_entry L i j * x i * x j) (seq 0 n))) (seq 0 n)).
(** The energy when the vertices are at [X]. *)
Definition energy_at (c : contact) (rebuild : bool) (X : list v3) : R :=
  match update_state c X rebuild with
  | Some c' => match contact_constraint c' with Some e => e | None => 0 end
  | None => 0
  end.
(** A surface sampled on its faces and the points of the collider, made of [n] vertices: the surface lists its vertices in increasing
    order, the neighbourhoods have been computed for the points. *)
Definition contact_shape (c : contact) (n : nat) : Prop := let t := ct_topo c in let b := q_base t in
  sb_type b = SFace /\ well_formed b /\ proper_mesh b /\ valid_kernel (q_kernel t) /\
  indices_ok t /\ (forall l, In l (trivial_neighborhood t) -> NoDup l) /\
  length (ct_points c) = length (trivial_neighborhood t) /\ length (closest_samples t) = length (trivial_neighborhood t) /\
  length (ct_surface c) = length (sb_verts b) /\ length (ct_collider c) = length (ct_points c) /\
  StronglySorted lt (ct_surface c) /\ (forall v, In v (ct_surface c) \/ In v (ct_collider c) -> (v < n)%nat) /\ 0 < ct_delta c.
(** Every point that has neighbours is where the potential is smooth. *)
Definition contact_regular (c : contact) : Prop := let t := ct_topo c in let b := q_base t in let k := q_kernel t in let S := sb_samples b in
  forall i, (i < length (ct_points c))%nat -> nth i (trivial_neighborhood t) [] <> [] ->
    let q := nth i (ct_points c) v3_0 in let nbrs := nth i (trivial_neighborhood t) [] in
    exists cl, nearest S q nbrs cl /\ regular_view k S q nbrs /\ smooth_background k (sb_bg b) 0 S q cl /\ quiet_background k (sb_bg b) S q cl.
(** Motions that leave the fixed side in place. *)
Definition respects (c : contact) (U : nat -> v3) : Prop :=
  (ct_object_fixed c = true -> forall v, In v (ct_surface c) -> U v = v3_0) /\
  (ct_collider_fixed c = true -> forall v, In v (ct_collider c) -> U v = v3_0).
(** The vertices that may move are those below [m]. *)
Definition fixed_from (c : contact) (m : nat) : Prop :=
  (ct_object_fixed c = true -> forall v, In v (ct_surface c) -> (m <= v)%nat) /\
  (ct_collider_fixed c = true -> forall v, In v (ct_collider c) -> (m <= v)%nat).
