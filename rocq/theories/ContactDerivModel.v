(** Derivatives of products with the contact Jacobian: /repo/implicits/src/field/hessian.rs:486-812 and 1502-2071,
    /repo/implicits/src/field/jacobian.rs:1069-1167 and /repo/implicits/src/kernel.rs:700-708.

    Exact reals.  Blocks are "column-major" as in the code: row [r] of a block is the derivative in coordinate [r] of the point that
    moves.  Indexing a slice out of range and the [unwrap] of an empty neighbourhood are [None].  [l[i] -= x] is modelled as adding [-x].
    The vertices around a query point come out of a hash set with fixed seeds (hessian.rs:1558-1575); the order in which the set lists
    what was put in is an argument [ord] of the model.  The gradients of a sample are computed once per sample here; the code clones
    them for every sample.  The debug assertions on the number of multipliers (hessian.rs:668-673 and 739-744) are left out. *)
From Coq Require Import Reals List Bool.
From Verif Require Import Vec3 Mat3 RList KernelModel FieldModel NeighborModel SurfJacModel ContactMapModel HessModel.
Import ListNotations.
Local Open Scope R_scope.

(** NormalKernel::grad, kernel.rs:700-708. *)
Definition normal_kernel_grad (unit_nml grad_phi : v3) (unit_nml_grad jac_grad_phi_t : m3) : v3 :=
  let w := 1 / 2 * (1 + v3_dot unit_nml grad_phi) in
  v3_scale w (v3_add (m3_mulv jac_grad_phi_t unit_nml) (m3_mulv unit_nml_grad grad_phi)).

(** rodrigues_rotation_jacobian_product_at, hessian.rs:2014-2071. *)
Definition rodrigues_jacobian_product (n g : v3) (jac_grad_phi_t unit_nml_grad : m3) (nml_dot_grad : R) (mult : v3) (transpose : bool) : m3 :=
  let d0 := v3_add (v3_cross (r0 unit_nml_grad) g) (v3_cross n (r0 jac_grad_phi_t)) in
  let d1 := v3_add (v3_cross (r1 unit_nml_grad) g) (v3_cross n (r1 jac_grad_phi_t)) in
  let d2 := v3_add (v3_cross (r2 unit_nml_grad) g) (v3_cross n (r2 jac_grad_phi_t)) in
  let first := M3 (v3_cross d0 mult) (v3_cross d1 mult) (v3_cross d2 mult) in
  let u := v3_cross n g in
  let ub := v3_cross u mult in
  let row d := v3_add (v3_cross d ub) (v3_cross u (v3_cross d mult)) in
  let second := M3 (row d0) (row d1) (row d2) in
  let denom := 1 + nml_dot_grad in
  let factor := if Req_EM_T denom 0 then 0 else 1 / denom in
  let jac_scalar_factor := v3_scale (- factor * factor) (v3_add (m3_mulv unit_nml_grad g) (m3_mulv jac_grad_phi_t n)) in
  let third := outer jac_scalar_factor (v3_cross u ub) in
  m3_add (m3_add (if transpose then m3_neg first else first) (m3_scale factor second)) third.
(** The turned multiplier, hessian.rs:1858-1869 and 1924-1937: changing the sign of [u] transposes the rotation. *)
Definition turned_multiplier (n g mult : v3) (transpose : bool) : v3 :=
  let u := v3_cross n g in
  let u := if transpose then v3_scale (-1) u else u in
  m3_mulv (rodrigues_rotation (cross_matrix u) (v3_dot n g)) mult.

(** ** In the query point *)
(** normalized_neighbor_weight_nml_gradient, jacobian.rs:1134-1167. *)
Definition weight_nml_gradient (b : bg) (g : v3) (ddpsi_t : m3) : v3 :=
  let wsi := weight_nml_sum_inv (b_q b) (b_all b) (b_view b) (b_kernel b) (b_dist b) g in
  let bg_term := background_weight_gradient b None in
  vsum (map (fun i =>
    let s := smp (b_all b) i in
    let n := unit_of (s_nml s) in
    let w := s_weight (b_kernel b) (b_dist b) (b_q b) s in
    let dw := s_weight_grad (b_kernel b) (b_dist b) (b_q b) s in
    v3_scale wsi (v3_add (v3_scale (normal_kernel n g) (v3_add dw bg_term)) (v3_scale w (normal_kernel_grad n g m3_0 ddpsi_t)))) (b_view b)).
(** query_contact_jacobian_gradient_product_at, hessian.rs:1842-1893. *)
Definition query_contact_block (q : v3) (s : sample) (k : kernel) (g dw_neigh : v3) (ddpsi : m3) (wsi closest_d : R) (mult : v3) (transpose : bool) : m3 :=
  let n := unit_of (s_nml s) in
  let w_nml := normal_kernel n g in
  let w := s_weight k closest_d q s in
  let w_normalized := w_nml * w * wsi in
  let dw := s_weight_grad k closest_d q s in
  let dw_normalized := v3_scale wsi (v3_add (v3_scale w_nml dw) (v3_scale w (normal_kernel_grad n g m3_0 (m3_transpose ddpsi)))) in
  m3_add (outer (v3_sub dw_normalized (v3_scale w_normalized dw_neigh)) (turned_multiplier n g mult transpose))
    (m3_scale w_normalized (rodrigues_jacobian_product n g (m3_transpose ddpsi) m3_0 (v3_dot n g) mult transpose)).
(** The quantities shared by the samples of a query point, hessian.rs:594-614 and 769-788, and the block of every sample for a
    multiplier of its own. *)
Definition query_contact_blocks (t : query_topo) (q : v3) (view : list nat) (transpose : bool) : option (nat -> v3 -> m3) :=
  let S := sb_samples (q_base t) in
  let k := q_kernel t in
  let P := sb_bg (q_base t) in
  match bg_local q S view k P None, query_jacobian_at q S view None k P, query_hessian_at q S view k P with
  | Some b, Some g, Some ddpsi =>
      let wsi := weight_nml_sum_inv q S view k (b_dist b) g in
      let dw_neigh := weight_nml_gradient b g (m3_transpose ddpsi) in
      Some (fun i mult => query_contact_block q (smp S i) k g dw_neigh ddpsi wsi (b_dist b) mult transpose)
  | _, _, _ => None
  end.

(** ** In the vertices of the surface *)
(** jacobian_gradient_phi, hessian.rs:1506-1556. *)
Definition jacobian_gradient_phi (bg : bg) (verts : list nat) (tris : list triangle) (grads : list (list m3)) (ddwdq : list m3) (dwdq : list v3) : list m3 :=
  map (fun v => msum (map (fun p => let '(i, (tri, gs)) := p in
      sample_query_component (b_q bg) (smp (b_all bg) i) (b_kernel bg) (match position v tri with Some j => nth_error gs j | None => None end)
        (neighbor_weight_gradient bg) (nth v ddwdq m3_0) (nth v dwdq v3_0) (weight_sum_inv bg) (b_dist bg))
    (combine (b_view bg) (combine tris grads)))) verts.
(** [l[v] += x] for a list of updates. *)
Definition accumulate (updates : list (nat * v3)) (l : option (list v3)) : option (list v3) :=
  fold_left (fun acc p => match acc with None => None | Some l => subtract_at v3_add l (fst p) (snd p) end) updates l.
(** normalized_neighbor_weight_nml_vertex_gradients, jacobian.rs:1069-1131. *)
Definition weight_nml_vertex_gradients (b : bg) (nverts : nat) (g : v3) (tris : list triangle) (grads : list (list m3)) (jacs : list m3)
    (verts : list nat) : option (list v3) :=
  let wsi := weight_nml_sum_inv (b_q b) (b_all b) (b_view b) (b_kernel b) (b_dist b) g in
  let factor := 1 / 3 * wsi in
  let first_term := vsum (map (fun i =>
    let s := smp (b_all b) i in
    let n := unit_of (s_nml s) in
    v3_scale (1 / 2 * (1 + v3_dot n g)) (v3_scale (s_weight (b_kernel b) (b_dist b) (b_q b) s) n)) (b_view b)) in
  let of_gradient := map (fun p => (fst p, m3_mulv (m3_transpose (snd p)) (v3_scale wsi first_term))) (combine verts jacs) in
  let of_samples := flat_map (fun p => let '(i, (tri, gs)) := p in
    let s := smp (b_all b) i in
    let n := unit_of (s_nml s) in
    let bg_grad := background_weight_gradient b (Some i) in
    let w := s_weight (b_kernel b) (b_dist b) (b_q b) s in
    let dw := s_weight_grad (b_kernel b) (b_dist b) (b_q b) s in
    let dwn := v3_scale factor (v3_scale (normal_kernel n g) (v3_sub dw bg_grad)) in
    flat_map (fun vg => let '(v, G) := vg in
      let sqrt_factor := 1 / 2 * (1 + v3_dot n g) in
      [(v, v3_neg dwn); (v, m3_mulv G (v3_scale sqrt_factor (v3_scale wsi (v3_scale w g))))]) (combine (tri_verts tri) gs))
    (combine (b_view b) (combine tris grads)) in
  accumulate (of_gradient ++ of_samples) (Some (repeat v3_0 nverts)).
(** sample_contact_jacobian_gradient_product_at, hessian.rs:1898-2009: blocks of one sample with the vertex that moves. *)
Definition sample_contact_blocks (q : v3) (s : sample) (tri : triangle) (k : kernel) (g : v3) (dwdq : list v3) (nml_grads : list m3)
    (jacs : list m3) (verts : list nat) (wsi closest_d : R) (mult : v3) (transpose : bool) : list (nat * m3) :=
  let w := s_weight k closest_d q s in
  let w_normalized := w * wsi in
  let dw := s_weight_grad k closest_d q s in
  let n := unit_of (s_nml s) in
  let rot_b := turned_multiplier n g mult transpose in
  let third := 1 / 3 in
  let w_nml := normal_kernel n g in
  let dw_normalized := v3_scale wsi (v3_scale w_nml dw) in
  let dw_normalized_term := outer dw_normalized (v3_scale (- third) rot_b) in
  let sqrt_w_nml_factor := 1 / 2 * (1 + v3_dot n g) * w_normalized in
  map (fun v => (v, dw_normalized_term)) (tri_verts tri)
  ++ map (fun p => let '(v, jac) := p in
       let dw_denom_term := outer (v3_scale w_nml (v3_scale w_normalized (v3_neg (nth v dwdq v3_0)))) rot_b in
       let jac_grad_phi_term := outer (v3_scale sqrt_w_nml_factor (m3_mulv (m3_transpose jac) n)) rot_b in
       let nml_grad := match position v tri with Some j => nth j nml_grads m3_0 | None => m3_0 end in
       let rot_jac := rodrigues_jacobian_product n g (m3_transpose jac) nml_grad (v3_dot n g) mult transpose in
       (v, m3_add (m3_add dw_denom_term (m3_scale w_nml (m3_scale w_normalized rot_jac))) jac_grad_phi_term)) (combine verts jacs)
  ++ map (fun p => (fst p, outer (v3_scale sqrt_w_nml_factor (m3_mulv (snd p) g)) rot_b)) (combine (tri_verts tri) nml_grads).
(** The quantities shared by the samples of a query point, hessian.rs:1594-1668 and 1726-1802, and the blocks of every sample for a
    multiplier of its own. *)
Definition vertex_contact_blocks (ord : list nat -> list nat) (t : query_topo) (q : v3) (view : list nat) (transpose : bool)
    : option (list (triangle * (v3 -> list (nat * m3)))) :=
  let b := q_base t in
  let S := sb_samples b in
  let k := q_kernel t in
  let nverts := length (sb_verts b) in
  match bg_local q S view k (sb_bg b) None, query_jacobian_at q S view None k (sb_bg b) with
  | Some bg, Some g =>
      let wsi := weight_nml_sum_inv q S view k (b_dist bg) g in
      match vertex_weight_gradients bg nverts (sb_topo b), vertex_weight_hessians bg nverts (sb_topo b),
            all_some (map (fun i => face_unit_normal_gradients (sb_verts b) (sb_topo b) i (smp S i)) view),
            all_some (map (nth_error (sb_topo b)) view) with
      | Some dwdq, Some ddwdq, Some grads, Some tris =>
          let verts := ord (flat_map tri_verts tris) in
          let jacs := jacobian_gradient_phi bg verts tris grads ddwdq dwdq in
          option_map (fun dwnmldq =>
            map (fun p => let '(i, (tri, gs)) := p in
              (tri, fun mult => sample_contact_blocks q (smp S i) tri k g dwnmldq gs jacs verts wsi (b_dist bg) mult transpose))
              (combine view (combine tris grads)))
            (weight_nml_vertex_gradients bg nverts g tris grads jacs verts)
      | _, _, _, _ => None
      end
  | _, _ => None
  end.
(** contact_jacobian_jacobian_at, hessian.rs:1581-1704. *)
Definition contact_jacobian_jacobian_at (ord : list nat -> list nat) (t : query_topo) (q : v3) (view : list nat) (mults : list v3) : option (list (nat * m3)) :=
  match vertex_contact_blocks ord t q view false with
  | None => None
  | Some bs => option_map (@concat _) (all_some (map (fun p => let '(tri, blocks) := p in
      option_map (fun l => blocks (v3_scale (1 / 3) (vsum l))) (all_some (map (nth_error mults) (tri_verts tri)))) bs))
  end.
(** contact_hessian_at, hessian.rs:1713-1837. *)
Definition contact_hessian_at (ord : list nat -> list nat) (t : query_topo) (q : v3) (view : list nat) (mult : v3) : option (list (nat * nat * m3)) :=
  option_map (flat_map (fun p => let '(tri, blocks) := p in
    flat_map (fun row => map (fun e => (row, fst e, m3_scale (1 / 3) (snd e))) (blocks mult)) (tri_verts tri)))
    (vertex_contact_blocks ord t q view true).

(** ** The four iterators *)
(** contact_jacobian_jacobian_product_indexed_blocks_iter_impl, hessian.rs:503-545. *)
Definition contact_jacobian_jacobian (ord : list nat -> list nat) (t : query_topo) (qs mults : list v3) : outcome (option (list (nat * nat * m3))) :=
  match sb_type (q_base t) with
  | SVertex => Unsupported
  | SFace => Result (option_map (@concat _) (all_some (map (fun p => let '(row, (q, nbrs)) := p in
      option_map (map (fun e => (row, fst e, snd e))) (contact_jacobian_jacobian_at ord t q nbrs mults)) (hessian_rows t qs))))
  end.
(** contact_query_jacobian_jacobian_product_indexed_blocks_iter_impl, hessian.rs:564-637. *)
Definition contact_query_jacobian_jacobian (t : query_topo) (qs mults : list v3) : outcome (option (list (nat * nat * m3))) :=
  match sb_type (q_base t) with
  | SVertex => Unsupported
  | SFace => Result (option_map (@concat _) (all_some (map (fun p => let '(row, (q, nbrs)) := p in
      match query_contact_blocks t q nbrs false with
      | None => None
      | Some block => all_some (map (fun i => option_map (fun lambda => (row, row, block i lambda)) (mean_multiplier mults (sb_topo (q_base t)) i)) nbrs)
      end) (hessian_rows t qs))))
  end.
(** contact_hessian_product_indexed_blocks_iter_impl, hessian.rs:657-709. *)
Definition contact_hessian (ord : list nat -> list nat) (t : query_topo) (qs mults : list v3) : outcome (option (list (nat * nat * m3))) :=
  match sb_type (q_base t) with
  | SVertex => Unsupported
  | SFace => Result (option_map (@concat _) (all_some (map (fun p => let '((_, (q, nbrs)), lambda) := p in contact_hessian_at ord t q nbrs lambda)
      (combine (hessian_rows t qs) mults))))
  end.
(** contact_query_hessian_product_indexed_blocks_iter_impl, hessian.rs:729-811. *)
Definition contact_query_hessian (t : query_topo) (qs mults : list v3) : outcome (option (list (nat * nat * m3))) :=
  match sb_type (q_base t) with
  | SVertex => Unsupported
  | SFace => Result (option_map (@concat _) (all_some (map (fun p => let '((idx, (q, nbrs)), lambda) := p in
      match query_contact_blocks t q nbrs true with
      | None => None
      | Some block => option_map (@concat _) (all_some (map (fun i =>
          option_map (fun tri => map (fun v => (v, idx, m3_scale (1 / 3) (block i lambda))) (tri_verts tri)) (nth_error (sb_topo (q_base t)) i)) nbrs))
      end) (combine (hessian_rows t qs) mults))))
  end.
