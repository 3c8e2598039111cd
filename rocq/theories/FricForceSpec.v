(** Friction on the whole mesh in textbook terms: the force as a function of the positions and velocities of all vertices. *)
From Coq Require Import Reals List Bool.
From Verif Require Import Vec3 Mat3 RList KernelModel FieldModel FieldSpec NeighborModel NeighborSpec SurfJacSpec ContactMapSpec FrictionModel ContactJacModel BasisJacSpec ContactDerivSpec SurfHessSpec
  ContactAsmModel ContactHessModel ContactHessSpec FricAsmModel FricAsmSpec.
Import ListNotations.
Local Open Scope R_scope.

(** Product of a matrix given by its entries with a vector. *)
Definition matrix_times (n : nat) (L : list (nat * nat * R)) (x : nat -> R) (i : nat) : R := rsum (map (fun j => matrix_entry L i j * x j) (seq 0 n)).
(** The states of a contact with friction in a mesh of [n] vertices: built for a surface, then updated with positions of the vertices any
    number of times. *)
Inductive reached (iamax : v3 -> nat) (ord : list nat -> list nat) (n : nat) : friction_state -> Prop :=
| reached_built c s : contact_shape c n -> in_place (q_base (ct_topo c)) -> precompute_friction iamax ord c n = Some s -> reached iamax ord n s
| reached_updated s X rebuild c s' : reached iamax ord n s -> update_state (fs_contact s) X rebuild = Some c -> refresh_friction iamax s c n = Some s' ->
    reached iamax ord n s'.
Definition at_positions (c : contact) (X : list v3) : Prop :=
  subset X (ct_surface c) = Some (sb_verts (q_base (ct_topo c))) /\ subset X (ct_collider c) = Some (ct_points c).
(** No vertex is on both sides of the contact or twice in the collider. *)
Definition separate_sides (c : contact) : Prop := NoDup (ct_collider c) /\ forall v, In v (ct_surface c) -> ~ In v (ct_collider c).
(** Points where the derivatives of the implicit function in the code are right and where the basis of the contact turns smoothly. *)
Definition smooth_contacts (c : contact) : Prop := let t := ct_topo c in
  p_weighted (sb_bg (q_base t)) = false /\
  (forall a, In a (filled t) -> contact_point t (nth a (ct_points c) v3_0) (nth a (trivial_neighborhood t) [])).
Definition steady_bases (c : contact) : Prop :=
  forall L, query_jacobian_triplets (ct_topo c) (ct_points c) = Some L -> forall e, In e L -> snd e <> v3_0 /\ dominant (snd e).
(** Velocities at which the friction law is smooth, at every contact. *)
Definition smooth_velocities (fp : friction_params) (s : friction_state) (V : list v3) : Prop :=
  forall p, In p (combine (contact_mul (friction_maps s) V) (fs_frames s)) -> smooth_sliding fp (to_tangent_space (snd p) (fst p)).
(** The friction force on vertex [i] when the vertices are at [X] and move with velocities [V]. *)
Definition force_at (iamax : v3 -> nat) (o : friction_options) (s : friction_state) (rebuild : bool) (X V : list v3) (i : nat) : v3 :=
  match update_state (fs_contact s) X rebuild with
  | None => v3_0
  | Some c => match refresh_friction iamax s c (length X) with Some s' => nth i (compute_friction_force o s' V) v3_0 | None => v3_0 end
  end.
(** The same when only the normal forces follow the positions. *)
Definition with_multipliers (s : friction_state) (lambda : list R) : friction_state :=
  FrictionState (fs_contact s) (fs_active s) (fs_constraints s) (fs_jacobian s) (fs_gradient s) (fs_jac_jacobian s) (fs_jac_gradient s) (fs_distance s) (fs_dist s) lambda (fs_frames s).
Definition pressed_force_at (o : friction_options) (s : friction_state) (rebuild : bool) (X V : list v3) (i : nat) : v3 :=
  match update_state (fs_contact s) X rebuild with
  | None => v3_0
  | Some c => match contact_multipliers c with Some lambda => nth i (compute_friction_force o (with_multipliers s lambda) V) v3_0 | None => v3_0 end
  end.
(** [s'] follows from [s] by any number of updates with positions of the vertices. *)
Inductive later (iamax : v3 -> nat) (n : nat) (s : friction_state) : friction_state -> Prop :=
| later_now : later iamax n s s
| later_updated s' X rebuild c s'' : later iamax n s s' -> update_state (fs_contact s') X rebuild = Some c -> refresh_friction iamax s' c n = Some s'' -> later iamax n s s''.
