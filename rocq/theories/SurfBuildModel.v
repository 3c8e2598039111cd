(** Construction of implicit surfaces: /repo/implicits/src/field/builder.rs and the constructors of /repo/implicits/src/lib.rs:67-162.

    Exact reals instead of f64, and f32 attributes without rounding.  The outer option is a panic, the inner one the [Option] of the
    code.  Meshes (external, geo) are positions, triangles and named attributes; an attribute of a type other than the two
    read here counts as absent, as in the code.  The vertex attribute "V" of a point cloud has one entry per point (an invariant of geo that the
    code does not assert).  [build_generic] for HRBF surfaces is not modelled. *)
From Coq Require Import String Reals List Bool.
From Verif Require Import Vec3 RList KernelModel FieldModel NeighborModel.
Import ListNotations.
Local Open Scope R_scope.

(** Attributes of type f32 and [f32; 3], TriMesh and PointCloud (external). *)
Inductive attribute := AScalars (l : list R) | AVectors (l : list v3).
Record mesh := Mesh { me_verts : list v3; me_faces : list triangle; me_vattr : list (string * attribute); me_fattr : list (string * attribute) }.
(** attrib_iter (external): the attribute with the name and the type. *)
Fixpoint find_attr (name : string) (l : list (string * attribute)) : option attribute :=
  match l with [] => None | (n, a) :: r => if String.eqb n name then Some a else find_attr name r end.
Definition scalars (name : string) (l : list (string * attribute)) : option (list R) := match find_attr name l with Some (AScalars x) => Some x | _ => None end.
Definition vectors (name : string) (l : list (string * attribute)) : option (list v3) := match find_attr name l with Some (AVectors x) => Some x | _ => None end.
(** SamplesMesh, builder.rs:9-13. *)
Inductive samples_mesh := SMTri (m : mesh) | SMCloud (m : mesh) | SMNone.
(** KernelType, kernel.rs:11-30. *)
Inductive kernel_type := KInterpolating (m : R) | KApproximate (m tolerance : R) | KSmooth (m tolerance : R) | KCubic (m : R) | KGlobal (tolerance : R) | KHrbf.
(** ImplicitSurfaceBuilder, builder.rs:15-23, its default, 32-47, and its setters, 49-107. *)
Record builder := Builder { bu_kernel : kernel_type; bu_bg : bg_params; bu_mesh : samples_mesh; bu_step : R; bu_radius : option R; bu_type : sample_type }.
Definition builder_new : builder := Builder (KApproximate 1 (1 / 100000)) (BgParams FZero false) SMNone 0 None SVertex.
Definition set_kernel (k : kernel_type) (b : builder) : builder := Builder k (bu_bg b) (bu_mesh b) (bu_step b) (bu_radius b) (bu_type b).
Definition set_base_radius (r : R) (b : builder) : builder := Builder (bu_kernel b) (bu_bg b) (bu_mesh b) (bu_step b) (Some r) (bu_type b).
Definition set_vertex_mesh (m : mesh) (b : builder) : builder := Builder (bu_kernel b) (bu_bg b) (SMCloud m) (bu_step b) (bu_radius b) SVertex.
Definition set_trimesh (m : mesh) (b : builder) : builder := Builder (bu_kernel b) (bu_bg b) (SMTri m) (bu_step b) (bu_radius b) (bu_type b).
Definition set_background (p : bg_params) (b : builder) : builder := Builder (bu_kernel b) p (bu_mesh b) (bu_step b) (bu_radius b) (bu_type b).
Definition set_max_step (s : R) (b : builder) : builder := Builder (bu_kernel b) (bu_bg b) (bu_mesh b) s (bu_radius b) (bu_type b).
Definition set_sample_type (t : sample_type) (b : builder) : builder := Builder (bu_kernel b) (bu_bg b) (bu_mesh b) (bu_step b) (bu_radius b) t.

(** The helpers reading attributes, builder.rs:119-143. *)
Definition vertex_offsets (m : mesh) : list R := match scalars "offset"%string (me_vattr m) with Some l => l | None => repeat 0 (length (me_verts m)) end.
Definition vertex_normals (m : mesh) : list v3 := match vectors "N"%string (me_vattr m) with Some l => l | None => [] end.
Definition vertex_velocities (m : mesh) : list v3 := match vectors "V"%string (me_vattr m) with Some l => l | None => repeat v3_0 (length (me_verts m)) end.
Definition face_offsets (m : mesh) : list R := match scalars "offset"%string (me_fattr m) with Some l => l | None => repeat 0 (length (me_faces m)) end.

(** compute_dual_topo, builder.rs:148-161. *)
Fixpoint push_at (l : list (list nat)) (i x : nat) : option (list (list nat)) :=
  match l, i with
  | [], _ => None
  | a :: r, O => Some ((a ++ [x]) :: r)
  | a :: r, S j => option_map (cons a) (push_at r j x)
  end.
Fixpoint push_all (l : list (list nat)) (vs : list nat) (x : nat) : option (list (list nat)) :=
  match vs with [] => Some l | v :: r => match push_at l v x with Some l' => push_all l' r x | None => None end end.
Fixpoint push_triangles (l : list (list nat)) (k : nat) (ts : list triangle) : option (list (list nat)) :=
  match ts with [] => Some l | t :: r => match push_all l (tri_verts t) k with Some l' => push_triangles l' (S k) r | None => None end end.
Definition compute_dual_topo (num_verts : nat) (ts : list triangle) : option (list (list nat)) :=
  if is_nil ts then Some [] else push_triangles (repeat [] num_verts) 0 ts.

(** Indexing the positions by the corners of all triangles, as Triangle::from_indexed_slice does; the first bad index panics. *)
Definition corners_exist (n : nat) (ts : list triangle) : bool := forallb (fun t => forallb (fun v => Nat.ltb v n) (tri_verts t)) ts.
(** compute_base_radius, builder.rs:166-191: max_by keeps the last of equal maxima; an empty mesh panics. *)
Definition farthest (V : list v3) (t : triangle) : R :=
  let '(a, b, c) := t in
  let o := tri_centroid V t in
  Rmax (Rmax (norm2 (v3_sub (pt V a) o)) (norm2 (v3_sub (pt V b) o))) (norm2 (v3_sub (pt V c) o)).
Definition compute_base_radius (m : mesh) : option R :=
  if corners_exist (length (me_verts m)) (me_faces m) then
    match map (farthest (me_verts m)) (me_faces m) with [] => None | x :: r => Some (sqrt (fold_left Rmax r x)) end
  else None.
(** build_base_radius, builder.rs:198-214. *)
Definition build_base_radius (b : builder) : option (option R) :=
  match bu_mesh b with
  | SMCloud _ => Some (bu_radius b)
  | SMTri m => match bu_radius b with Some r => Some (Some r) | None => option_map Some (compute_base_radius m) end
  | SMNone => Some None
  end.

(** Samples from parallel vectors. *)
Fixpoint samples_of (P N V : list v3) (X : list R) : list sample :=
  match P, N, V, X with p :: P', n :: N', v :: V', x :: X' => Sample p n v x :: samples_of P' N' V' X' | _, _, _, _ => [] end.
(** Averages of the corner velocities, builder.rs:289-299. *)
Definition face_velocity (V : list v3) (t : triangle) : v3 :=
  let '(a, b, c) := t in v3_scale (1 / 3) (v3_add (v3_add (v3_add v3_0 (pt V a)) (pt V b)) (pt V c)).
(** build_base, builder.rs:220-327; the constructors of samples, samples.rs:80-133 and 167-220.  The lengths of attributes are asserted. *)
Definition finish (b : builder) (S : list sample) (V : list v3) (ts : list triangle) : option (option base) :=
  option_map (fun dual => Some (Base (bu_bg b) ts V S dual (bu_type b) (build_tree S))) (compute_dual_topo (length V) ts).
Definition build_base (b : builder) : option (option base) :=
  match bu_mesh b with
  | SMCloud m =>
      let V := me_verts m in
      match bu_type b with
      | SFace => Some None
      | SVertex =>
          if negb (Nat.eqb (length V) (length (vertex_offsets m))) then None else
          if is_nil (vertex_normals m) then Some None else
          if negb (Nat.eqb (length V) (length (vertex_normals m))) then None else
          finish b (samples_of V (vertex_normals m) (vertex_velocities m) (vertex_offsets m)) V []
      end
  | SMTri m =>
      let V := me_verts m in let ts := me_faces m in
      match bu_type b with
      | SVertex =>
          if negb (Nat.eqb (length V) (length (vertex_offsets m))) then None else
          let given := vertex_normals m in
          if andb (negb (is_nil given)) (negb (Nat.eqb (length given) (length V))) then None else
          if andb (is_nil given) (negb (corners_exist (length V) ts)) then None else
          let normals := if is_nil given then map (vertex_normal V ts) (seq 0 (length V)) else given in
          if negb (Nat.eqb (length V) (length (vertex_velocities m))) then None else
          finish b (samples_of V normals (vertex_velocities m) (vertex_offsets m)) V ts
      | SFace =>
          if is_nil ts then Some None else
          if negb (Nat.eqb (length ts) (length (face_offsets m))) then None else
          if negb (corners_exist (length V) ts) then None else
          if negb (corners_exist (length (vertex_velocities m)) ts) then None else
          finish b (samples_of (map (tri_centroid V) ts) (map (tri_normal V) ts) (map (face_velocity (vertex_velocities m)) ts) (face_offsets m)) V ts
      end
  | SMNone => Some None
  end.

(** From<KernelType> for LocalKernel, kernel.rs:192-216; [None] where the code panics or the builder returns before. *)
Definition local_of (k : kernel_type) : option local_kernel :=
  match k with
  | KInterpolating m => Some (LInterpolating m) | KCubic m => Some (LCubic m)
  | KSmooth m t => Some (LSmooth t m) | KApproximate m t => Some (LApproximate m t)
  | KGlobal _ | KHrbf => None
  end.
(** build_local_mls, builder.rs:347-391. *)
Definition build_local_mls (b : builder) : option (option local_mls) :=
  match local_of (bu_kernel b) with
  | None => Some None
  | Some k =>
      if Req_EM_T (radius_multiplier k) 0 then Some None else
      match build_base b with
      | None => None
      | Some None => Some None
      | Some (Some base) =>
          match build_base_radius b with
          | None => None
          | Some None => Some None
          | Some (Some r) => Some (Some (LocalMls k r (bu_step b) base))
          end
      end
  end.
(** build_mls, builder.rs:398-415. *)
Definition build_mls (b : builder) : option (option mls) :=
  match bu_kernel b with
  | KHrbf => Some None
  | KGlobal t => option_map (option_map (MGlobal t)) (build_base b)
  | _ => option_map (option_map MLocal) (build_local_mls b)
  end.

(** Params, lib.rs:23-30, mls_from_trimesh, 105-126, and mls_from_pointcloud, 138-161; [None] inside is Err(Failure). *)
Record params := Params { pa_kernel : kernel_type; pa_bg : bg_params; pa_type : sample_type; pa_step : R; pa_radius : option R }.
Definition with_radius (p : params) (b : builder) : builder := match pa_radius p with Some r => set_base_radius r b | None => b end.
Definition mls_from_trimesh (m : mesh) (p : params) : option (option mls) :=
  build_mls (with_radius p (set_trimesh m (set_sample_type (pa_type p) (set_background (pa_bg p) (set_max_step (pa_step p) (set_kernel (pa_kernel p) builder_new)))))).
Definition mls_from_pointcloud (m : mesh) (p : params) : option (option mls) :=
  build_mls (with_radius p (set_vertex_mesh m (set_sample_type (pa_type p) (set_background (pa_bg p) (set_max_step (pa_step p) (set_kernel (pa_kernel p) builder_new)))))).
