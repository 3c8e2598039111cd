(** Jacobian of the implicit potential in the vertices of the surface: /repo/implicits/src/field.rs:1160-1396 and
    /repo/implicits/src/field/jacobian.rs:343-700 and 1237-1345.

    Exact reals.  Indexing a slice out of range is [None]; samples are read through a default as in FieldModel.  The parallel
    iterators compute the same lists.  [Triangle::area_normal_gradient] is external: the matrix that maps a velocity of a corner
    to the rate of the area normal, in rows. *)
From Coq Require Import Reals List Bool.
From Verif Require Import Vec3 Mat3 RList KernelModel FieldModel NeighborModel.
Import ListNotations.
Local Open Scope R_scope.

(** Cross product as a matrix, outer product, negation and multiples of the identity (external: tensr). *)
Definition cross_matrix (e : v3) : m3 := M3 (V3 0 (- vz e) (vy e)) (V3 (vz e) 0 (- vx e)) (V3 (- vy e) (vx e) 0).
Definition outer (a b : v3) : m3 := M3 (v3_scale (vx a) b) (v3_scale (vy a) b) (v3_scale (vz a) b).
Definition m3_neg (A : m3) : m3 := m3_scale (-1) A.
Definition m3_diag (s : R) : m3 := m3_scale s m3_I.
(** Triangle::area_normal_gradient (external). *)
Definition area_normal_gradient (t : v3 * v3 * v3) (i : nat) : m3 :=
  let '(a, b, c) := t in cross_matrix (match i with O => v3_sub c b | 1%nat => v3_sub a c | _ => v3_sub b a end).
(** Triangle::from_indexed_slice (external). *)
Definition tri_at (V : list v3) (t : triangle) : option (v3 * v3 * v3) :=
  let '(a, b, c) := t in
  match nth_error V a, nth_error V b, nth_error V c with Some x, Some y, Some z => Some (x, y, z) | _, _, _ => None end.

(** scaled_tangent_projection, field.rs:1281-1290. *)
Definition scaled_tangent_projection (n : v3) (factor : R) : m3 := m3_sub (m3_diag factor) (outer (v3_scale factor n) n).
(** face_unit_normal_gradient_iter_from_sample and face_unit_normal_gradient_iter, field.rs:1204-1240. *)
Definition face_unit_normal_gradients (V : list v3) (topo : list triangle) (i : nat) (s : sample) : option (list m3) :=
  let area := v3_norm (s_nml s) in
  let proj := scaled_tangent_projection (v3_scale (1 / area) (s_nml s)) (1 / area) in
  match nth_error topo i with
  | None => None
  | Some t => option_map (fun tri => map (fun j => m3_mul (m3_neg (area_normal_gradient tri j)) proj) [0; 1; 2]%nat) (tri_at V t)
  end.
(** The weighted displacement given as multiplier, jacobian.rs:1257-1260 and 1329-1332. *)
Definition weighted_displacement (b : bg) (i : nat) : v3 :=
  let s := smp (b_all b) i in
  v3_scale (s_weight (b_kernel b) (b_dist b) (b_q b) s * weight_sum_inv b) (v3_sub (b_q b) (s_pos s)).
(** compute_face_unit_normals_gradient_products, field.rs:1168-1185, of one sample. *)
Definition face_normal_products (V : list v3) (topo : list triangle) (b : bg) (i : nat) : option (list v3) :=
  option_map (map (fun g => m3_mulv g (weighted_displacement b i))) (face_unit_normal_gradients V topo i (smp (b_all b) i)).
(** face_jacobian_at, jacobian.rs:1303-1341: three vectors per sample. *)
Definition face_jacobian_at (q : v3) (S : list sample) (view : list nat) (k : kernel) (topo : list triangle) (V : list v3) (P : bg_params)
  : option (list v3) :=
  match bg_local q S view k P None with
  | None => None
  | Some b =>
      match all_some (map (face_normal_products V topo b) view) with
      | None => None
      | Some nml =>
          Some (map (fun p => v3_add (v3_scale (1 / 3) (fst p)) (snd p)) (combine (flat_map (fun m => repeat m 3) (sample_jacobian_at b)) (concat nml)))
      end
  end.

(** The projection off the normal divided by its length, field.rs:1362-1364 and 1385-1389, of a weighted displacement. *)
Definition unit_normal_product (b : bg) (i : nat) : v3 :=
  let n := s_nml (smp (b_all b) i) in
  let norm_inv := 1 / v3_norm n in
  m3_mulv (m3_sub m3_I (outer n (v3_scale (norm_inv * norm_inv) n))) (v3_scale norm_inv (weighted_displacement b i)).
(** Iterator::position. *)
Definition position (i : nat) (t : triangle) : option nat :=
  let '(x, y, z) := t in
  if Nat.eqb x i then Some 0%nat else if Nat.eqb y i then Some 1%nat else if Nat.eqb z i then Some 2%nat else None.
(** compute_vertex_unit_normal_gradient_product, field.rs:1349-1396; the triangles are those of the positions of all samples. *)
Definition vertex_tri_product (topo : list triangle) (b : bg) (index tri_idx : nat) : option v3 :=
  match nth_error topo tri_idx with
  | None => None
  | Some t =>
      match tri_at (map s_pos (b_all b)) t, position index t with
      | Some tri, Some j =>
          let tri_grad := v3_add (unit_normal_product b index)
            (vsum (map (unit_normal_product b) (filter (fun i => negb (Nat.eqb i index)) (tri_verts t)))) in
          Some (m3_mulv (area_normal_gradient tri j) tri_grad)
      | _, _ => None
      end
  end.
Definition vertex_normal_product (topo : list triangle) (dual : list (list nat)) (b : bg) (index : nat) : option v3 :=
  match nth_error dual index with
  | None => None
  | Some tris => option_map (fun l => v3_neg (vsum l)) (all_some (map (vertex_tri_product topo b index) tris))
  end.
(** vertex_jacobian_at, jacobian.rs:1237-1265 (vertex_jacobian_par_at, 1268-1300, the same): one vector per sample. *)
Definition vertex_jacobian_at (q : v3) (S : list sample) (view : list nat) (k : kernel) (topo : list triangle) (dual : list (list nat)) (P : bg_params)
  : option (list v3) :=
  match bg_local q S view k P None with
  | None => None
  | Some b =>
      option_map (fun nml => map (fun p => v3_add (fst p) (snd p)) (combine (sample_jacobian_at b) nml))
        (all_some (map (vertex_normal_product topo dual b) view))
  end.

(** One row of surface_jacobian_iter_impl, jacobian.rs:523-581. *)
Definition surface_row (t : query_topo) (q : v3) (nbrs : list nat) : option (list v3) :=
  let b := q_base t in
  match sb_type b with
  | SVertex => vertex_jacobian_at q (sb_samples b) nbrs (q_kernel t) (sb_topo b) (sb_dual b) (sb_bg b)
  | SFace => face_jacobian_at q (sb_samples b) nbrs (q_kernel t) (sb_topo b) (sb_verts b) (sb_bg b)
  end.
(** surface_jacobian_iter_impl: the blocks without indices. *)
Definition surface_jacobian_blocks (t : query_topo) (qs : list v3) : option (list v3) :=
  option_map (@concat v3) (all_some (map (fun p => surface_row t (fst p) (snd p))
    (filter (fun p => negb (is_nil (snd p))) (combine qs (by_type t))))).
(** surface_jacobian_par_iter_impl, jacobian.rs:583-650: blocks with row and column. *)
Definition surface_jacobian_triplets (t : query_topo) (qs : list v3) : option (list (nat * nat * v3)) :=
  option_map (@concat (nat * nat * v3)) (all_some (map (fun p => let '(row, (q, nbrs)) := p in
    match all_some (map (columns (q_base t)) nbrs), surface_row t q nbrs with
    | Some cols, Some blocks => Some (map (fun cb => (row, fst cb, snd cb)) (combine (concat cols) blocks))
    | _, _ => None
    end) (filter (fun p => negb (is_nil (snd (snd p)))) (enumerate (combine qs (by_type t)))))).
