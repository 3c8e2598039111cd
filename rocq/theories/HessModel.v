(** Second derivatives of the implicit potential: /repo/implicits/src/kernel.rs:564-576, /repo/implicits/src/field/background_field.rs:324-360,
    453-478 and 727-785, /repo/implicits/src/field/hessian.rs:13-24, 116-270, 812-1025, 1037-1141 and 2078-2120, and
    /repo/implicits/src/field/jacobian.rs:1170-1203.

    Exact reals, as in FieldModel.  Indexing a slice out of range and the [unwrap] of an empty neighbourhood are [None].  The second
    derivative of the background weight of the global kernel is NaN in the code when the background is weighted and zero here. *)
From Coq Require Import Reals List Bool.
From Verif Require Import Vec3 Mat3 RList KernelModel FieldModel NeighborModel SurfJacModel.
Import ListNotations.
Local Open Scope R_scope.

(** sym_outer, hessian.rs:14-23. *)
Definition sym_outer (a b : v3) : m3 :=
  let m00 := 2 * vx a * vx b in
  let m11 := 2 * vy a * vy b in
  let m22 := 2 * vz a * vz b in
  let m01 := vx a * vy b + vy a * vx b in
  let m02 := vx a * vz b + vz a * vx b in
  let m12 := vy a * vz b + vz a * vy b in
  M3 (V3 m00 m01 m02) (V3 m01 m11 m12) (V3 m02 m12 m22).
(** Iterator::sum of matrices. *)
Definition msum (l : list m3) : m3 := fold_right m3_add m3_0 l.

(** RadialKernel::hess, kernel.rs:564-576. *)
Definition k_hess (k : kernel) (x p : v3) : m3 :=
  let diff := v3_sub x p in
  let norm := v3_norm diff in
  if Rlt_dec 0 norm then
    let norm_inv := 1 / norm in
    let norm_inv2 := norm_inv * norm_inv in
    let proj_diff := outer diff (v3_scale norm_inv2 diff) in
    m3_add (m3_scale (k_df k norm * norm_inv) (m3_sub m3_I proj_diff)) (m3_scale (k_ddf k norm) proj_diff)
  else m3_0.
(** [kernel.with_closest_dist(closest_d).hess(q, pos)]. *)
Definition s_weight_hess (k : kernel) (closest_d : R) (q : v3) (s : sample) : m3 := k_hess (with_closest k closest_d) q (s_pos s).

(** background_weight_hessian, background_field.rs:324-360. *)
Definition background_weight_hessian (b : bg) (index : option nat) : m3 :=
  match k_radius (b_kernel b) with
  | None => m3_0
  | Some r =>
    if Rlt_dec r (b_dist b) then m3_0 else if negb (b_weighted b) then m3_0 else
    let disp := v3_scale (1 / b_dist b) (b_disp b) in
    let dwb := k_df (b_kernel b) (r - b_dist b) in
    let ddwb := k_ddf (b_kernel b) (r - b_dist b) in
    let hess := m3_sub (outer (v3_scale ddwb disp) disp) (m3_scale (dwb / b_dist b) (m3_sub m3_I (outer disp disp))) in
    match index with
    | None => hess
    | Some i => match b_index b with Local c => if Nat.eqb i c then hess else m3_0 | Global_ _ => m3_0 end
    end
  end.
(** field_hessian, background_field.rs:453-478. *)
Definition field_hessian (b : bg) : m3 :=
  match b_value b with
  | BConstant _ => m3_0
  | BClosest =>
      if Req_EM_T (b_dist b) 0 then m3_0 else
      let dist_inv := orientation b / b_dist b in
      let dir := v3_scale dist_inv (b_disp b) in
      m3_sub (m3_diag dist_inv) (outer dir (v3_scale dist_inv dir))
  end.
(** The sums of the gradients and of the Hessians of all weights, background_field.rs:749-763. *)
Definition total_gradient (b : bg) : v3 :=
  v3_add (vsum (map (fun i => s_weight_grad (b_kernel b) (b_dist b) (b_q b) (smp (b_all b) i)) (b_view b))) (background_weight_gradient b None).
Definition total_hessian (b : bg) : m3 :=
  m3_add (msum (map (fun i => s_weight_hess (b_kernel b) (b_dist b) (b_q b) (smp (b_all b) i)) (b_view b))) (background_weight_hessian b None).
(** compute_query_hessian, background_field.rs:727-785. *)
Definition bg_query_hessian (b : bg) : m3 :=
  let wsi := weight_sum_inv b in
  let wb := background_weight b in
  let hess := m3_scale wb (field_hessian b) in
  let hess :=
    if b_weighted b then
      let dwb := background_weight_gradient b None in
      let dw_total := total_gradient b in
      let ddwb := background_weight_hessian b None in
      let ddw_total := total_hessian b in
      let f := field_value b in
      let df := field_gradient b in
      m3_add hess
        (m3_sub (m3_add (m3_add (m3_sub (m3_sub (sym_outer df dwb)
          (m3_scale (wb * wsi) (sym_outer dw_total df)))
          (m3_scale (f * wsi) (sym_outer dw_total dwb)))
          (outer dw_total (v3_scale (2 * f * wb * wsi * wsi) dw_total)))
          (m3_scale f ddwb))
          (m3_scale (f * wb * wsi) ddw_total))
    else hess in
  m3_scale wsi hess.
(** normalized_neighbor_weight_hessian, hessian.rs:1085-1109. *)
Definition neighbor_weight_hessian (b : bg) : m3 := m3_scale (weight_sum_inv b) (total_hessian b).
(** The contribution of one sample, hessian.rs:1063-1077. *)
Definition sample_hessian_term (q : v3) (s : sample) (k : kernel) (dw_neigh : v3) (ddw_neigh : m3) (closest_d : R) : m3 :=
  let n := unit_of (s_nml s) in
  let w := s_weight k closest_d q s in
  let dw := s_weight_grad k closest_d q s in
  let ddw := s_weight_hess k closest_d q s in
  let psi := s_value s + v3_dot n (v3_sub q (s_pos s)) in
  m3_add (m3_sub (m3_sub (m3_sub (sym_outer n dw)
    (m3_scale w (sym_outer n dw_neigh)))
    (m3_scale psi (sym_outer dw_neigh dw)))
    (m3_scale (psi * w) ddw_neigh))
    (m3_scale psi (m3_add (outer dw_neigh (v3_scale (2 * w) dw_neigh)) ddw)).
(** query_hessian_at, hessian.rs:1038-1082. *)
Definition query_hessian_at (q : v3) (S : list sample) (view : list nat) (k : kernel) (P : bg_params) : option m3 :=
  match bg_local q S view k P None with
  | None => None
  | Some b =>
      Some (m3_add (m3_scale (weight_sum_inv b)
          (msum (map (fun i => sample_hessian_term q (smp S i) k (neighbor_weight_gradient b) (neighbor_weight_hessian b) (b_dist b)) view)))
        (bg_query_hessian b))
  end.

(** query_hessian_product_indexed_blocks_iter_impl, hessian.rs:207-243: the multipliers are zipped with the query points that have
    neighbours. *)
Definition hessian_rows (t : query_topo) (qs : list v3) : list (nat * (v3 * list nat)) :=
  filter (fun p => negb (is_nil (snd (snd p)))) (enumerate (combine qs (trivial_neighborhood t))).
Definition query_hessian_blocks (t : query_topo) (qs : list v3) (multipliers : list R) : option (list (nat * m3)) :=
  all_some (map (fun p => let '((idx, (q, nbrs)), mult) := p in
    option_map (fun H => (idx, m3_scale mult H)) (query_hessian_at q (sb_samples (q_base t)) nbrs (q_kernel t) (sb_bg (q_base t))))
    (combine (hessian_rows t qs) multipliers)).
(** Lower triangle of a block, hessian.rs:199: rows 0 to 2 and columns 0 to the row. *)
Definition lower_entries (A : m3) : list R := [vx (r0 A); vx (r1 A); vy (r1 A); vx (r2 A); vy (r2 A); vz (r2 A)].
(** query_hessian_product_values_iter_impl, hessian.rs:182-201, and query_hessian_product_values_impl, 247-270, which writes as many
    values as there are places. *)
Definition query_hessian_values (t : query_topo) (qs : list v3) (multipliers : list R) : option (list R) :=
  option_map (fun bs => flat_map (fun p => lower_entries (snd p)) bs) (query_hessian_blocks t qs multipliers).
Definition query_hessian_scaled_values (t : query_topo) (qs : list v3) (multipliers : list R) (scale : R) (values : list R) : option (list R) :=
  option_map (fun new => zip_update (fun _ v => v * scale) values new) (query_hessian_values t qs multipliers).
(** num_query_hessian_product_entries, query_hessian_product_block_indices_iter and query_hessian_product_indices_iter, hessian.rs:121-142. *)
Definition num_query_hessian_entries (t : query_topo) : nat := num_neighborhoods t * 6.
Definition query_hessian_block_indices (t : query_topo) : list nat := map fst (nonempty (trivial_neighborhood t)).
Definition query_hessian_indices (t : query_topo) : list (nat * nat) :=
  flat_map (fun i => flat_map (fun r => map (fun c => (3 * i + r, 3 * i + c)%nat) (seq 0 (r + 1))) [0; 1; 2]%nat) (query_hessian_block_indices t).

(** [l[i] -= x]. *)
Fixpoint subtract_at {A} (sub : A -> A -> A) (l : list A) (i : nat) (x : A) : option (list A) :=
  match l, i with
  | [], _ => None
  | a :: l', O => Some (sub a x :: l')
  | a :: l', Datatypes.S i' => option_map (cons a) (subtract_at sub l' i' x)
  end.
(** [surface_topo[s.index].iter().for_each(|&v| l[v] -= x)] over the samples of a view, jacobian.rs:1193-1200 and hessian.rs:1130-1138. *)
Definition scatter {A} (sub : A -> A -> A) (topo : list triangle) (x : nat -> A) (view : list nat) (l : list A) : option (list A) :=
  fold_left (fun acc i =>
    match nth_error topo i with
    | None => None
    | Some t => fold_left (fun acc v => match acc with None => None | Some l => subtract_at sub l v (x i) end) (tri_verts t) acc
    end) view (Some l).
(** normalized_neighbor_weight_vertex_gradients, jacobian.rs:1170-1203. *)
Definition vertex_weight_gradients (b : bg) (n : nat) (topo : list triangle) : option (list v3) :=
  scatter v3_sub topo (fun i => v3_scale (1 / 3 * weight_sum_inv b)
      (v3_sub (s_weight_grad (b_kernel b) (b_dist b) (b_q b) (smp (b_all b) i)) (background_weight_gradient b (Some i))))
    (b_view b) (repeat v3_0 n).
(** normalized_neighbor_weight_vertex_hessian, hessian.rs:1112-1141. *)
Definition vertex_weight_hessians (b : bg) (n : nat) (topo : list triangle) : option (list m3) :=
  scatter m3_sub topo (fun i => m3_scale (1 / 3 * weight_sum_inv b)
      (m3_add (s_weight_hess (b_kernel b) (b_dist b) (b_q b) (smp (b_all b) i)) (background_weight_hessian b (Some i))))
    (b_view b) (repeat m3_0 n).
(** sample_query_hessian_component_at, hessian.rs:2078-2120; [corner] is the gradient of the unit normal in the vertex, if it is a
    corner of the triangle of the sample. *)
Definition sample_query_component (q : v3) (s : sample) (k : kernel) (corner : option m3) (dw_neigh : v3) (ddwdq : m3) (dwdq : v3)
    (wsi closest_d : R) : m3 :=
  let n := unit_of (s_nml s) in
  let w := s_weight k closest_d q s in
  let dw := s_weight_grad k closest_d q s in
  let ddw := s_weight_hess k closest_d q s in
  let psi := s_value s + v3_dot n (v3_sub q (s_pos s)) in
  let dw_normalized := v3_scale wsi (v3_sub dw (v3_scale w dw_neigh)) in
  let grad_psi := v3_add (v3_scale psi dw_normalized) (v3_scale wsi (v3_scale w n)) in
  let third := 1 / 3 in
  let res := outer (v3_neg grad_psi) dwdq in
  let res := m3_add res (m3_scale wsi (m3_scale psi (m3_scale w (m3_sub (outer dw_neigh dwdq) ddwdq)))) in
  match corner with
  | None => res
  | Some G =>
      let res := m3_add res (outer dw_normalized (v3_sub (m3_mulv G (v3_sub q (s_pos s))) (v3_scale third n))) in
      m3_add res (m3_scale wsi
        (m3_add (m3_sub (m3_scale third (m3_scale psi (m3_add (m3_neg ddw) (outer dw_neigh dw))))
          (outer n (v3_scale third dw)))
          (m3_scale w (m3_transpose G))))
  end.
(** The vertices not [seen] before, hessian.rs:920-936. *)
Fixpoint unseen (seen l : list nat) : list nat :=
  match l with
  | [] => []
  | v :: l' => if existsb (Nat.eqb v) seen then unseen seen l' else v :: unseen (v :: seen) l'
  end.
(** One row of sample_query_hessian_product_indexed_blocks_iter_impl, hessian.rs:880-968. *)
Definition sample_query_row (t : query_topo) (q : v3) (view : list nat) : option (list (nat * m3)) :=
  let b := q_base t in
  let S := sb_samples b in
  let k := q_kernel t in
  match bg_local q S view k (sb_bg b) None with
  | None => None
  | Some bg =>
      match vertex_weight_gradients bg (length (sb_verts b)) (sb_topo b), vertex_weight_hessians bg (length (sb_verts b)) (sb_topo b),
            all_some (map (fun i => face_unit_normal_gradients (sb_verts b) (sb_topo b) i (smp S i)) view),
            all_some (map (nth_error (sb_topo b)) view) with
      | Some dwdq, Some ddwdq, Some grads, Some tris =>
          Some (map (fun v => (v, msum (map (fun p => let '(i, (tri, gs)) := p in
              sample_query_component q (smp S i) k (match position v tri with Some j => nth_error gs j | None => None end)
                (neighbor_weight_gradient bg) (nth v ddwdq m3_0) (nth v dwdq v3_0) (weight_sum_inv bg) (b_dist bg))
            (combine view (combine tris grads)))))
            (unseen [] (flat_map tri_verts tris)))
      | _, _, _, _ => None
      end
  end.
(** sample_query_hessian_product_indexed_blocks_iter_impl, hessian.rs:850-970, of a surface sampled on its faces; the multipliers are
    zipped with the query points that have neighbours, and are ones if there are none. *)
Inductive outcome (A : Type) := Unsupported | Result (a : A).
Arguments Unsupported {A}.
Arguments Result {A} _.
Definition sample_query_hessian (t : query_topo) (qs : list v3) (multipliers : option (list R)) : outcome (option (list (nat * nat * m3))) :=
  match sb_type (q_base t) with
  | SVertex => Unsupported
  | SFace =>
      let rows := hessian_rows t qs in
      let mults := match multipliers with Some m => m | None => repeat 1 (length rows) end in
      Result (option_map (@concat _) (all_some (map (fun p => let '((row, (q, nbrs)), mult) := p in
        option_map (map (fun e => (row, fst e, m3_scale mult (snd e)))) (sample_query_row t q nbrs)) (combine rows mults))))
  end.
(** sample_query_hessian_product_block_indices_iter, hessian.rs:978-1025. *)
Definition sample_query_hessian_indices (t : query_topo) : outcome (option (list (nat * nat))) :=
  match sb_type (q_base t) with
  | SVertex => Unsupported
  | SFace => Result (option_map (@concat _) (all_some (map (fun p => let '(row, nbrs) := p in
      option_map (fun tris => map (fun v => (row, v)) (unseen [] (flat_map tri_verts tris))) (all_some (map (nth_error (sb_topo (q_base t))) nbrs)))
      (nonempty (trivial_neighborhood t)))))
  end.
