(** Derivatives of the contact basis with respect to vertex positions:
    /repo/softy/src/constraints/point_contact.rs:931-955 and /repo/softy/src/constraints/penalty_point_contact.rs:2552-2715.

    Exact arithmetic; a division by zero (infinite in the code) is zero here, so theorems ask for non-zero gradients.  The blocks of
    second derivatives of the implicit function (query_hessian_product_indexed_blocks_iter and sample_query_hessian_indexed_blocks_iter)
    and its gradients (query_jacobian_full) are arguments.  [iamax] is tensr's index of a component of largest absolute value.
    [None] is a panic (an index out of range). *)
From Coq Require Import Reals List Bool.
From Verif Require Import Vec3 Mat3 RList NeighborModel AssemblyModel ContactJacModel ContactAsmModel.
Import ListNotations.
Local Open Scope R_scope.

(** contact_normals, point_contact.rs:941-952, for one query point with gradient [g]. *)
Definition contact_normal (g : v3) : v3 := if Rlt_dec 0 (v3_norm g) then v3_scale (/ - v3_norm g) g else g.
(** The basis of a contact: update_from_normals (contact.rs:429-445) applied to that normal. *)
Definition contact_frame (iamax : v3 -> nat) (g : v3) : frame := frame_from_normal (contact_normal g) (iamax (contact_normal g)).

(** [a * b.transpose()], and row [i] of a matrix. *)
Definition m3_outer (a b : v3) : m3 := M3 (v3_scale (vx a) b) (v3_scale (vy a) b) (v3_scale (vz a) b).
Definition m3_row (A : m3) (i : nat) : v3 := match i with O => r0 A | 1%nat => r1 A | _ => r2 A end.

(** penalty_point_contact.rs:2605-2610: Jacobian of the normal; [len] is the norm of the gradient, [H] its Jacobian. *)
Definition normal_jacobian (n : v3) (len : R) (H : m3) : m3 :=
  m3_scale (- (1 / len)) (m3_mul (m3_sub m3_I (m3_outer n n)) H).
(** 2612-2627: Jacobian of the tangent, from the Jacobian [N] of the normal. *)
Definition tangent_jacobian (n : v3) (a : nat) (N : m3) : m3 :=
  let t0 := v3_sub (axis a) (v3_scale (v3_get n a) n) in
  let norm_t_inv := 1 / v3_norm t0 in
  let t := v3_scale norm_t_inv t0 in
  let jac_t := m3_scale (- 1) (m3_add (m3_scale (v3_get n a) N) (m3_outer n (m3_row N a))) in
  m3_scale norm_t_inv (m3_mul (m3_sub m3_I (m3_outer t t)) jac_t).
(** 2629-2640: Jacobian of the bitangent. *)
Definition bitangent_jacobian (n t : v3) (N T : m3) : m3 :=
  M3 (v3_sub (v3_add (v3_sub (v3_scale (vz t) (r1 N)) (v3_scale (vy t) (r2 N))) (v3_scale (vy n) (r2 T))) (v3_scale (vz n) (r1 T)))
     (v3_sub (v3_add (v3_sub (v3_scale (vx t) (r2 N)) (v3_scale (vz t) (r0 N))) (v3_scale (vz n) (r0 T))) (v3_scale (vx n) (r2 T)))
     (v3_sub (v3_add (v3_sub (v3_scale (vy t) (r0 N)) (v3_scale (vx t) (r1 N))) (v3_scale (vx n) (r1 T))) (v3_scale (vy n) (r0 T))).
(** 2601-2660: the block of one contact, with its multiplier [m]. *)
Definition basis_product (n : v3) (imax : nat) (len : R) (m : v3) (transpose : bool) (H : m3) : m3 :=
  let N := normal_jacobian n len H in
  let a := Nat.modulo (imax + 1) 3 in
  let T := tangent_jacobian n a N in
  let B := bitangent_jacobian n (tangent_from_normal n imax) N T in
  if transpose then M3 (m3_mulv (m3_transpose N) m) (m3_mulv (m3_transpose T) m) (m3_mulv (m3_transpose B) m)
  else m3_add (m3_add (m3_scale (vx m) N) (m3_scale (vy m) T)) (m3_scale (vz m) B).

(** 2576-2588: blocks with respect to the query points in contact, as (contact, query point, vertex, block). *)
Definition query_blocks (constraints : list (option nat)) (collider : list nat) (Q : list (nat * m3)) : option (list (nat * nat * nat * m3)) :=
  option_map (@concat _) (all_some (map (fun e => let '(q, H) := e in
    match nth_error constraints q with
    | None => None
    | Some None => Some []
    | Some (Some k) => option_map (fun v => [(k, q, v, H)]) (nth_error collider q)
    end) Q)).
(** 2589-2603: blocks with respect to the vertices of the surface. *)
Definition surface_blocks (constraints : list (option nat)) (surface : list nat) (L : list (nat * nat * m3)) : option (list (nat * nat * nat * m3)) :=
  option_map (@concat _) (all_some (map (fun e => let '(q, v, H) := e in
    match nth_error constraints q with
    | None => None
    | Some None => Some []
    | Some (Some k) => option_map (fun v => [(k, q, v, H)]) (nth_error surface v)
    end) L)).
(** contact_basis_matrix_jacobian_product, 2552-2661; [Q] and [L] are the blocks of second derivatives, [grads] the gradients of
    the implicit function at all query points. *)
Definition basis_jacobian_product (iamax : v3 -> nat) (constraints : list (option nat)) (surface collider : list nat) (normals : list v3)
    (grads : list v3) (multipliers : list v3) (transpose : bool) (Q : list (nat * m3)) (L : list (nat * nat * m3)) : option (list (nat * nat * m3)) :=
  match query_blocks constraints collider Q, surface_blocks constraints surface L with
  | Some qb, Some sb =>
      all_some (map (fun e => let '(k, q, v, H) := e in
        match nth_error normals k, nth_error grads q, nth_error multipliers k with
        | Some n, Some g, Some m => Some (k, v, basis_product n (iamax n) (v3_norm g) m transpose H)
        | _, _, _ => None
        end) (qb ++ sb))
  | _, _ => None
  end.
(** build_contact_basis_gradient_product_from_selection, 2666-2715; the compression of tensr's [from_block_triplets_iter] is that of
    ContactAsmModel (blocks of equal place are added). *)
Definition basis_gradient_product (iamax : v3 -> nat) (constraints : list (option nat)) (surface collider : list nat) (normals : list v3)
    (grads : list v3) (multipliers : list v3) (transpose : bool) (Q : list (nat * m3)) (L : list (nat * nat * m3)) (num_vertices : nat) : option (mapped m3) :=
  option_map (fun P => from_triplets m3_add m3_zero (fun _ => true)
      (map (fun e => let '(row, col, B) := e in ((col, row), m3_transpose B)) (filter (fun e => Nat.ltb (snd (fst e)) num_vertices) P)))
    (basis_jacobian_product iamax constraints surface collider normals grads multipliers transpose Q L).
