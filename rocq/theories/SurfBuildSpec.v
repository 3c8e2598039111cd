(** What a user of the surface builder relies on, in textbook terms. *)
From Coq Require Import String Reals List.
From Verif Require Import Vec3 RList KernelModel FieldModel FieldSpec NeighborModel NeighborSpec SurfBuildModel.
Import ListNotations.
Local Open Scope R_scope.

(** Triangles refer to vertices. *)
Definition valid_mesh (m : mesh) : Prop := forall t v, In t (me_faces m) -> In v (tri_verts t) -> (v < length (me_verts m))%nat.
(** Attributes have one entry per vertex or per face (meshes of the geo crate always do). *)
Definition attributes_fit (m : mesh) : Prop :=
  (forall name l, In (name, AScalars l) (me_vattr m) -> length l = length (me_verts m)) /\
  (forall name l, In (name, AVectors l) (me_vattr m) -> length l = length (me_verts m)) /\
  (forall name l, In (name, AScalars l) (me_fattr m) -> length l = length (me_faces m)).
(** A vertex attribute with a default for vertices, if it is missing. *)
Definition scalar_at (o : option (list R)) (i : nat) : R := match o with Some l => nth i l 0 | None => 0 end.
Definition vector_at (o : option (list v3)) (i : nat) : v3 := match o with Some l => nth i l v3_0 | None => v3_0 end.
(** Points of a triangle. *)
Definition on_triangle (V : list v3) (t : triangle) (p : v3) : Prop := let '(a, b, c) := t in
  exists x y z, 0 <= x /\ 0 <= y /\ 0 <= z /\ x + y + z = 1 /\ p = v3_add (v3_add (v3_scale x (pt V a)) (v3_scale y (pt V b))) (v3_scale z (pt V c)).
(** Radius multiplier of a local kernel. *)
Definition multiplier_of (k : kernel_type) : option R :=
  match k with KInterpolating m | KApproximate m _ | KSmooth m _ | KCubic m => Some m | KGlobal _ | KHrbf => None end.
(** The kernel function asked for, with the distance up to which it is not zero. *)
Definition asked_kernel (k : kernel_type) (base_radius : R) : kernel :=
  match k with
  | KInterpolating m => Interpolating (base_radius * m) (base_radius * m) | KApproximate m t => Approximate (base_radius * m) t
  | KSmooth m t => Smooth (base_radius * m) t | KCubic m => Cubic (base_radius * m) | KGlobal t => Global t | KHrbf => Global 0
  end.
Definition mls_base (s : mls) : base := match s with MLocal l => lm_base l | MGlobal _ b => b end.
(** The least radius of balls around centroids that contain the triangles. *)
Definition least_radius (V : list v3) (ts : list triangle) (r : R) : Prop :=
  let d := fun t v => v3_norm (v3_sub (pt V v) (tri_centroid V t)) in
  (forall t v, In t ts -> In v (tri_verts t) -> d t v <= r) /\ exists t v, In t ts /\ In v (tri_verts t) /\ d t v = r.
