(** The contact Jacobian of the implicit surface, which carries vectors from the surface to query points:
    /repo/implicits/src/field/jacobian.rs:716-1006 and 1497-1757, /repo/implicits/src/kernel.rs:680-699,
    /repo/implicits/src/field.rs:1107-1150 and /repo/implicits/src/field/query.rs:957-1003.

    Exact reals.  [Vector3::normalize], [skew] and the products of matrices are external (tensr): the unit vector, the matrix of
    the cross product, the usual products.  The parallel iterators compute the same lists as the sequential ones.  Iterators are
    lazy: an index out of range is reported for the whole list, also when a shorter output would have stopped before it; only
    contact_jacobian_product_values, which truncates by design, is cut before evaluation. *)
From Coq Require Import Reals List Bool.
From Verif Require Import Vec3 Mat3 RList KernelModel FieldModel NeighborModel SurfJacModel.
Import ListNotations.
Local Open Scope R_scope.

(** rodrigues_rotation, jacobian.rs:1501-1512. *)
Definition rodrigues_rotation (ux : m3) (nml_dot_grad : R) : m3 :=
  if Req_EM_T nml_dot_grad (-1) then m3_I
  else m3_add (m3_add m3_I ux) (m3_scale (1 / (1 + nml_dot_grad)) (m3_mul ux ux)).
(** NormalKernel::eval, kernel.rs:690-698. *)
Definition normal_kernel (unit_nml grad_phi : v3) : R :=
  let w := 1 / 2 * (1 + v3_dot unit_nml grad_phi) in w * w.
(** sample_contact_jacobian_at, jacobian.rs:1518-1556. *)
Definition sample_contact_jacobian_at (q : v3) (s : sample) (k : kernel) (grad_phi : v3) (wsi closest_d : R) : m3 :=
  let n := unit_of (s_nml s) in
  let w := s_weight k closest_d q s * normal_kernel n grad_phi * wsi in
  m3_scale w (rodrigues_rotation (cross_matrix (v3_cross n grad_phi)) (v3_dot n grad_phi)).
(** sample_contact_jacobian_product_at, jacobian.rs:1559-1586. *)
Definition sample_contact_jacobian_product_at (q : v3) (s : sample) (k : kernel) (grad_phi : v3) (wsi closest_d : R) (mult : v3) : v3 :=
  m3_mulv (sample_contact_jacobian_at q s k grad_phi wsi closest_d) mult.
(** weight_nml_sum_inv, jacobian.rs:1681-1703. *)
Definition weight_nml_sum_inv (q : v3) (S : list sample) (view : list nat) (k : kernel) (closest_d : R) (grad_phi : v3) : R :=
  let sum := rsum (map (fun i => s_weight k closest_d q (smp S i) * normal_kernel (unit_of (s_nml (smp S i))) grad_phi) view) in
  if Rlt_dec 0 sum then 1 / sum else 0.
(** The quantities prepared at the top of contact_jacobian_at (1604-1615), vertex_contact_jacobian_product_at (1645-1656) and
    face_contact_jacobian_product_at (1722-1733): gradient, inverse weight sum, nearest distance, background part.  [None] is
    the panic of [unwrap] on an empty neighbourhood. *)
Definition contact_setup (q : v3) (S : list sample) (view : list nat) (k : kernel) (P : bg_params) : option (v3 * R * R * v3) :=
  match bg_local q S view k P None, query_jacobian_at q S view None k P with
  | Some b, Some g => Some (g, weight_nml_sum_inv q S view k (b_dist b) g, b_dist b, bg_query_jacobian b)
  | _, _ => None
  end.
(** contact_jacobian_at, jacobian.rs:1594-1628. *)
Definition contact_jacobian_at (q : v3) (S : list sample) (view : list nat) (k : kernel) (P : bg_params) : option (list m3 * v3) :=
  option_map (fun c => let '(g, wsi, d, bg_jac) := c in
    (map (fun i => sample_contact_jacobian_at q (smp S i) k g wsi d) view, bg_jac)) (contact_setup q S view k P).
(** vertex_contact_jacobian_product_at, jacobian.rs:1635-1678. *)
Definition vertex_contact_product_at (q : v3) (S : list sample) (view : list nat) (mult : list v3) (k : kernel) (P : bg_params) : option v3 :=
  match contact_setup q S view k P with
  | None => None
  | Some (g, wsi, d, bg_jac) =>
      option_map (fun l => v3_add (vsum l) bg_jac)
        (all_some (map (fun i => option_map (sample_contact_jacobian_product_at q (smp S i) k g wsi d) (nth_error mult i)) view))
  end.
(** The mean of the multipliers of a triangle, jacobian.rs:1741-1743. *)
Definition mean_multiplier (mult : list v3) (topo : list triangle) (i : nat) : option v3 :=
  match nth_error topo i with
  | None => None
  | Some t => option_map (fun l => v3_scale (1 / 3) (vsum l)) (all_some (map (nth_error mult) (tri_verts t)))
  end.
(** face_contact_jacobian_product_at, jacobian.rs:1710-1757. *)
Definition face_contact_product_at (q : v3) (S : list sample) (view : list nat) (mult : list v3) (k : kernel) (P : bg_params)
    (topo : list triangle) : option v3 :=
  match contact_setup q S view k P with
  | None => None
  | Some (g, wsi, d, bg_jac) =>
      option_map (fun l => v3_add (vsum l) bg_jac)
        (all_some (map (fun i => option_map (sample_contact_jacobian_product_at q (smp S i) k g wsi d) (mean_multiplier mult topo i)) view))
  end.

(** contact_jacobian_matrices_impl, jacobian.rs:853-896 (and the parallel 899-941): blocks with row and column; [None] is a
    panic, of the assertion or of an index. *)
Definition contact_row (t : query_topo) (row : nat) (q : v3) (nbrs : list nat) : option (list (nat * nat * m3)) :=
  let b := q_base t in
  match contact_jacobian_at q (sb_samples b) nbrs (q_kernel t) (sb_bg b) with
  | None => None
  | Some (ms, _) =>
      option_map (@concat (nat * nat * m3)) (all_some (map (fun mj =>
        match sb_type b with
        | SVertex => Some [(row, snd mj, fst mj)]
        | SFace => option_map (fun tr => map (fun col => (row, col, m3_scale (1 / 3) (fst mj))) (tri_verts tr)) (nth_error (sb_topo b) (snd mj))
        end) (combine ms nbrs)))
  end.
Definition contact_matrices (t : query_topo) (qs : list v3) : option (list (nat * nat * m3)) :=
  if Nat.eqb (length qs) (length (trivial_neighborhood t)) then
    option_map (@concat (nat * nat * m3)) (all_some (map (fun p => contact_row t (fst p) (fst (snd p)) (snd (snd p)))
      (filter (fun p => negb (is_nil (snd (snd p)))) (enumerate (combine qs (trivial_neighborhood t))))))
  else None.
(** contact_jacobian_matrices, jacobian.rs:755-763: written over the beginning of the output. *)
Definition contact_jacobian_matrices (t : query_topo) (qs : list v3) (out : list m3) : option (list m3) :=
  option_map (fun l => zip_update (fun _ m => m) out (map snd l)) (contact_matrices t qs).
(** contact_jacobian_product_values_impl, jacobian.rs:943-1005: rows of nonempty neighbourhoods, written consecutively. *)
Definition contact_product_row (t : query_topo) (mult : list v3) (q : v3) (nbrs : list nat) : option v3 :=
  let b := q_base t in
  match sb_type b with
  | SVertex => vertex_contact_product_at q (sb_samples b) nbrs mult (q_kernel t) (sb_bg b)
  | SFace => face_contact_product_at q (sb_samples b) nbrs mult (q_kernel t) (sb_bg b) (sb_topo b)
  end.
Definition contact_jacobian_product_values (t : query_topo) (qs mult out : list v3) : option (list v3) :=
  option_map (zip_update (fun _ v => v) out)
    (all_some (map (fun p => contact_product_row t mult (fst p) (snd p))
      (firstn (length out) (filter (fun p => negb (is_nil (snd p))) (combine qs (trivial_neighborhood t)))))).

(** BackgroundFieldValue::new for vectors (background_field.rs:46-53) and compute_unnormalized_weighted_vector_field, 372-380. *)
Definition vector_background (P : bg_params) (v : v3) : v3 := match p_type P with FInput => v | FZero | FDistance => v3_0 end.
(** compute_local_vector_at, field.rs:1107-1150. *)
Definition local_vector_at (q : v3) (S : list sample) (view : list nat) (k : kernel) (P : bg_params) (v : v3) : v3 :=
  match bg_local q S view k P None, query_jacobian_at q S view None k P with
  | Some b, Some g =>
      v3_add (v3_scale (background_weight b) (vector_background P v))
        (vsum (map (fun i => sample_contact_jacobian_product_at q (smp S i) k g (weight_sum_inv b) (b_dist b) (s_vel (smp S i))) view))
  | _, _ => v
  end.
(** compute_vector_field, query.rs:971-1003. *)
Fixpoint local_vectors (k : kernel) (P : bg_params) (S : list sample) (qs : list v3) (ns : list (list nat)) (out : list v3) : list v3 :=
  match qs, ns, out with
  | q :: qs', n :: ns', v :: out' => local_vector_at q S n k P v :: local_vectors k P S qs' ns' out'
  | _, _, _ => out
  end.
Definition vector_field (t : query_topo) (qs out : list v3) : option (list v3) :=
  if Nat.eqb (length (trivial_neighborhood t)) (length out) then
    Some (local_vectors (q_kernel t) (sb_bg (q_base t)) (sb_samples (q_base t)) qs (trivial_neighborhood t) out)
  else None.
