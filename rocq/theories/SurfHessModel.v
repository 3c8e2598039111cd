(** Second derivatives of the implicit potential in the vertices of the surface: /repo/implicits/src/field/hessian.rs:34-113, 272-484
    and 1147-1509, and /repo/implicits/src/field/background_field.rs:381-399 and 585-683.

    Exact reals, as in FieldModel.  The [unwrap] of an empty neighbourhood is [None], and so is an index of a sample or of a vertex out
    of range, which is checked here for the whole neighbourhood at once.  [Triangle::area_normal_gradient] is the external function of
    SurfJacModel; [Triangle::area_normal_hessian_product] is external as well. *)
From Coq Require Import Reals List Bool.
From Verif Require Import Vec3 Mat3 RList KernelModel FieldModel NeighborModel SurfJacModel HessModel.
From Verif Require ElasticModel.
Local Notation m3_get := ElasticModel.m3_get.
Import ListNotations.
Local Open Scope R_scope.

Definition tri_of (topo : list triangle) (i : nat) : triangle := nth i topo (0, 0, 0)%nat.
Definition vertex_of (t : triangle) (j : nat) : nat := let '(a, b, c) := t in match j with O => a | 1%nat => b | _ => c end.
Definition points_of (V : list v3) (t : triangle) : v3 * v3 * v3 := let '(a, b, c) := t in (pt V a, pt V b, pt V c).
(** No slice of triangles or vertices is indexed out of range. *)
Definition view_in_range (V : list v3) (topo : list triangle) (view : list nat) : bool :=
  forallb (fun i => andb (Nat.ltb i (length topo)) (forallb (fun v => Nat.ltb v (length V)) (tri_verts (tri_of topo i)))) view.
(** Triangle::area_normal_hessian_product (external): the second derivative in corners [row] and [col] of the product of the area normal
    with [lambda], in columns, which the code reads as rows. *)
Definition area_normal_hessian_product (row col : nat) (lambda : v3) : m3 :=
  match Nat.modulo (col + 3 - row) 3 with O => m3_0 | 1%nat => cross_matrix lambda | _ => m3_neg (cross_matrix lambda) end.

(** hessian_block_indices, background_field.rs:382-399, and sample_hessian_indices, hessian.rs:35-42. *)
Definition lower_pairs (view : list nat) : list (nat * nat) :=
  flat_map (fun i => map (fun j => (j, i)) (filter (fun j => Nat.ltb i j) view)) view.
Definition hessian_block_indices (weighted : bool) (view : list nat) : list (nat * nat) :=
  map (fun i => (i, i)) view ++ (if weighted then lower_pairs view else []).
Definition sample_hessian_indices (view : list nat) : list (nat * nat) := map (fun i => (i, i)) view ++ lower_pairs view.

(** hessian_blocks, background_field.rs:589-683. *)
Definition bg_hessian_diag (b : bg) (i : nat) : m3 :=
  let wsi := weight_sum_inv b in
  let c := ci_get (b_index b) in
  let wb := background_weight b in
  let dwb := background_weight_gradient b (Some c) in
  let ddwb := background_weight_hessian b (Some c) in
  let f := field_value b in
  let df := v3_neg (field_gradient b) in
  let ddf := field_hessian b in
  let here := andb (is_closest_field (b_value b)) (Nat.eqb i c) in
  let hess := if here then m3_scale wb ddf else m3_0 in
  if negb (b_weighted b) then m3_scale wsi hess else
  let dw := s_weight_grad (b_kernel b) (b_dist b) (b_q b) (smp (b_all b) i) in
  let ddw := s_weight_hess (b_kernel b) (b_dist b) (b_q b) (smp (b_all b) i) in
  let hess := m3_add hess (m3_scale (f * wb * wsi) (m3_sub (outer dw (v3_scale (2 * wsi) dw)) ddw)) in
  let hess :=
    if here then
      let factor := 1 - wb * wsi in
      m3_add hess
        (m3_add (m3_add (m3_add (m3_sub (m3_scale (factor * f) ddwb)
          (m3_scale (factor * 2 * f * wsi) (outer dwb dwb)))
          (m3_scale ((1 - 2 * wb * wsi) * f * wsi) (sym_outer dwb dw)))
          (m3_scale factor (sym_outer df dwb)))
          (m3_scale wsi (m3_scale wb (sym_outer df dw))))
    else hess in
  m3_scale wsi hess.
Definition bg_hessian_off_diag (b : bg) (i j : nat) : m3 :=
  let wsi := weight_sum_inv b in
  let c := ci_get (b_index b) in
  let wb := background_weight b in
  let dwb := background_weight_gradient b (Some c) in
  let f := field_value b in
  let df := v3_neg (field_gradient b) in
  let dw_i := s_weight_grad (b_kernel b) (b_dist b) (b_q b) (smp (b_all b) i) in
  let dw_j := s_weight_grad (b_kernel b) (b_dist b) (b_q b) (smp (b_all b) j) in
  let dwdw_factor := 2 * f * wsi in
  let dwdwb_factor := f * (1 - 2 * wb * wsi) in
  let hess :=
    if Nat.eqb i c then outer dw_j (v3_add (v3_scale wb (v3_add (v3_scale dwdw_factor dw_i) df)) (v3_scale dwdwb_factor dwb))
    else if Nat.eqb j c then outer (v3_add (v3_scale wb (v3_add df (v3_scale dwdw_factor dw_j))) (v3_scale dwdwb_factor dwb)) dw_i
    else m3_scale (dwdw_factor * wb) (outer dw_j dw_i) in
  m3_scale wsi (m3_scale wsi hess).
Definition bg_hessian_blocks (b : bg) : list m3 :=
  map (bg_hessian_diag b) (b_view b) ++
  (if b_weighted b then flat_map (fun i => map (bg_hessian_off_diag b i) (filter (fun j => Nat.ltb i j) (b_view b))) (b_view b) else []).

(** sample_hessian_at, hessian.rs:1192-1303. *)
Definition sample_hessian_diag (b : bg) (local_pot : R) (i : nat) : m3 :=
  let wsi := weight_sum_inv b in
  let s := smp (b_all b) i in
  let unit_nml := unit_of (s_nml s) in
  let psi := s_value s + v3_dot (v3_sub (b_q b) (s_pos s)) unit_nml in
  let w := s_weight (b_kernel b) (b_dist b) (b_q b) s in
  let dw := v3_neg (s_weight_grad (b_kernel b) (b_dist b) (b_q b) s) in
  let ddw := s_weight_hess (b_kernel b) (b_dist b) (b_q b) s in
  let dwb := background_weight_gradient b (Some i) in
  let ddwb := background_weight_hessian b (Some i) in
  let dws := v3_add dwb dw in
  let h := m3_scale psi ddw in
  let h := m3_sub h (m3_scale local_pot (m3_add ddw ddwb)) in
  let h := m3_sub h (sym_outer dw unit_nml) in
  let h := m3_sub h (m3_scale (psi * wsi) (sym_outer dws dw)) in
  let h := m3_add h (outer dws (v3_scale (2 * local_pot * wsi) dws)) in
  let h := m3_add h (m3_scale (w * wsi) (sym_outer unit_nml dws)) in
  m3_scale wsi h.
Definition sample_hessian_off_diag (b : bg) (local_pot : R) (i j : nat) : m3 :=
  let wsi := weight_sum_inv b in
  let s_i := smp (b_all b) i in
  let s_j := smp (b_all b) j in
  let unit_nml_i := unit_of (s_nml s_i) in
  let psi_i := s_value s_i + v3_dot (v3_sub (b_q b) (s_pos s_i)) unit_nml_i in
  let w_i := s_weight (b_kernel b) (b_dist b) (b_q b) s_i in
  let dw_i := v3_neg (s_weight_grad (b_kernel b) (b_dist b) (b_q b) s_i) in
  let dws_i := v3_add (background_weight_gradient b (Some i)) dw_i in
  let unit_nml_j := unit_of (s_nml s_j) in
  let psi_j := s_value s_j + v3_dot (v3_sub (b_q b) (s_pos s_j)) unit_nml_j in
  let w_j := s_weight (b_kernel b) (b_dist b) (b_q b) s_j in
  let dw_j := v3_neg (s_weight_grad (b_kernel b) (b_dist b) (b_q b) s_j) in
  let dws_j := v3_add (background_weight_gradient b (Some j)) dw_j in
  let h := m3_sub m3_0 (outer dws_j (v3_scale psi_i dw_i)) in
  let h := m3_sub h (outer dw_j (v3_scale psi_j dws_i)) in
  let h := m3_add h (outer dws_j (v3_scale (2 * local_pot) dws_i)) in
  let h := m3_add h (outer unit_nml_j (v3_scale w_j dws_i)) in
  let h := m3_add h (outer dws_j (v3_scale w_i unit_nml_i)) in
  m3_scale (wsi * wsi) h.
Definition sample_hessian_at (b : bg) : list (nat * nat * m3) :=
  let local_pot := local_potential_at (b_q b) (b_all b) (b_view b) (b_kernel b) (weight_sum_inv b) (b_dist b) in
  map (fun i => (i, i, sample_hessian_diag b local_pot i)) (b_view b) ++
  flat_map (fun i => map (fun j => (j, i, sample_hessian_off_diag b local_pot i j)) (filter (fun j => Nat.ltb i j) (b_view b))) (b_view b) ++
  map (fun p => (fst (snd p), snd (snd p), fst p))
    (filter (fun p => Nat.leb (snd (snd p)) (fst (snd p))) (combine (bg_hessian_blocks b) (hessian_block_indices (b_weighted b) (b_view b)))).

(** face_unit_normals_symmetric_jacobian, hessian.rs:1418-1456, with the multiplier of normal_hessian_at, 1322. *)
Definition symmetric_block (tri : v3 * v3 * v3) (nml_proj : m3) (lambda : R) (k l : nat) : m3 :=
  m3_scale (lambda * (1 / 3))
    (m3_sub (m3_mul nml_proj (area_normal_gradient tri l)) (m3_mul (area_normal_gradient tri k) nml_proj)).
(** The pairs of corners at or below the diagonal, hessian.rs:1437-1442 and 1486-1491. *)
Definition corner_pairs (t : triangle) : list (nat * nat) :=
  flat_map (fun k => map (fun l => (k, l)) (filter (fun l => Nat.leb (vertex_of t l) (vertex_of t k)) [0; 1; 2]%nat)) [0; 1; 2]%nat.
Definition symmetric_jacobian (V : list v3) (topo : list triangle) (b : bg) : list (nat * nat * m3) :=
  flat_map (fun i =>
    let s := smp (b_all b) i in
    let t := tri_of topo i in
    let area := v3_norm (s_nml s) in
    let nml_proj := scaled_tangent_projection (v3_scale (1 / area) (s_nml s)) (1 / area) in
    let lambda := s_weight (b_kernel b) (b_dist b) (b_q b) s * weight_sum_inv b in
    map (fun p => (vertex_of t (fst p), vertex_of t (snd p), symmetric_block (points_of V t) nml_proj lambda (fst p) (snd p)))
      (corner_pairs t)) (b_view b).
(** compute_face_unit_normals_hessian_products, hessian.rs:1459-1509, with the multiplier of normal_hessian_at, 1331-1334. *)
Definition normal_hessian_block (tri : v3 * v3 * v3) (nml : v3) (norm_inv : R) (mult : v3) (j i : nat) : m3 :=
  let nml_proj := scaled_tangent_projection nml norm_inv in
  let proj_mult := m3_mulv nml_proj mult in
  let nml_mult_prod := m3_add (m3_add (m3_scale (v3_dot nml mult) nml_proj) (outer proj_mult nml)) (outer nml proj_mult) in
  m3_sub (m3_scale norm_inv (m3_mul (m3_mul (area_normal_gradient tri j) nml_mult_prod) (area_normal_gradient tri i)))
    (area_normal_hessian_product j i proj_mult).
Definition normal_hessian_products (V : list v3) (topo : list triangle) (b : bg) : list (nat * nat * m3) :=
  flat_map (fun i =>
    let s := smp (b_all b) i in
    let t := tri_of topo i in
    let area := v3_norm (s_nml s) in
    map (fun p => (vertex_of t (fst p), vertex_of t (snd p),
        normal_hessian_block (points_of V t) (v3_scale (1 / area) (s_nml s)) (1 / area) (weighted_displacement b i) (fst p) (snd p)))
      (corner_pairs t)) (b_view b).
(** [match row_vtx.cmp(&col_vtx)], hessian.rs:1366-1370 and 1395-1399. *)
Definition lower_block (row col : nat) (A : m3) : nat * nat * m3 :=
  if Nat.ltb col row then (row, col, A)
  else if Nat.ltb row col then (col, row, m3_transpose A)
  else (row, col, m3_add A (m3_transpose A)).
(** face_unit_normal_gradient_iter_from_sample, field.rs:1204-1242, of a sample in range. *)
Definition unit_normal_gradient (V : list v3) (topo : list triangle) (i : nat) (s : sample) (j : nat) : m3 :=
  let area := v3_norm (s_nml s) in
  m3_mul (m3_neg (area_normal_gradient (points_of V (tri_of topo i)) j)) (scaled_tangent_projection (v3_scale (1 / area) (s_nml s)) (1 / area)).
(** The remaining terms, hessian.rs:1345-1403. *)
Definition coupling_blocks (V : list v3) (topo : list triangle) (b : bg) : list (nat * nat * m3) :=
  let wsi := weight_sum_inv b in
  let q := b_q b in
  let third := 1 / 3 in
  flat_map (fun l =>
    let s_l := smp (b_all b) l in
    let t_l := tri_of topo l in
    let dwb_l := background_weight_gradient b (Some l) in
    let dw_l := v3_neg (s_weight_grad (b_kernel b) (b_dist b) q s_l) in
    let dws_l := v3_add dw_l dwb_l in
    flat_map (fun i => map (fun j =>
        lower_block (vertex_of t_l i) (vertex_of t_l j)
          (m3_scale (wsi * third) (outer (m3_mulv (unit_normal_gradient V topo l s_l i) (v3_sub q (s_pos s_l))) dw_l)))
      [0; 1; 2]%nat) [0; 1; 2]%nat ++
    flat_map (fun k =>
      let s_k := smp (b_all b) k in
      let t_k := tri_of topo k in
      let wk := s_weight (b_kernel b) (b_dist b) q s_k in
      flat_map (fun i => map (fun j =>
          lower_block (vertex_of t_k i) (vertex_of t_l j)
            (m3_scale (wk * wsi * wsi * third)
              (outer (m3_mulv (m3_neg (unit_normal_gradient V topo k s_k i)) (v3_sub q (s_pos s_k))) dws_l)))
        [0; 1; 2]%nat) [0; 1; 2]%nat) (b_view b)) (b_view b).
(** normal_hessian_at, hessian.rs:1306-1412. *)
Definition normal_hessian_at (V : list v3) (topo : list triangle) (b : bg) : list (nat * nat * m3) :=
  map (fun p => let '((row, col, s), (_, _, n)) := p in (row, col, m3_sub n s))
    (combine (symmetric_jacobian V topo b) (normal_hessian_products V topo b)) ++ coupling_blocks V topo b.

(** face_hessian_at, hessian.rs:1147-1189. *)
Definition samples_to_vertices (topo : list triangle) (row col : nat) (H : m3) : list (nat * nat * m3) :=
  flat_map (fun i => map (fun j => (i, j, m3_scale (1 / 9) H)) (filter (fun j => Nat.leb j i) (tri_verts (tri_of topo col))))
    (tri_verts (tri_of topo row)).
Definition main_hessian (topo : list triangle) (b : bg) : list (nat * nat * m3) :=
  flat_map (fun h => let '(row, col, H) := h in
    samples_to_vertices topo row col H ++ (if Nat.ltb col row then samples_to_vertices topo col row (m3_transpose H) else []))
    (sample_hessian_at b).
Definition face_hessian_at (q : v3) (S : list sample) (view : list nat) (k : kernel) (topo : list triangle) (V : list v3) (P : bg_params)
    (multiplier : R) : option (list (nat * nat * m3)) :=
  match bg_local q S view k P None with
  | None => None
  | Some b =>
      if view_in_range V topo view then
        Some (map (fun h => (fst h, m3_scale multiplier (snd h))) (normal_hessian_at V topo b ++ main_hessian topo b))
      else None
  end.

(** surface_hessian_product_indexed_blocks_iter_impl, hessian.rs:436-484; the multipliers are zipped with the query points that have
    neighbours. *)
Definition surface_hessian_blocks (t : query_topo) (qs : list v3) (multipliers : list R) : outcome (option (list (nat * nat * m3))) :=
  let b := q_base t in
  match sb_type b with
  | SVertex => Unsupported
  | SFace => Result (option_map (@concat _) (all_some (map (fun p => let '((_, (q, nbrs)), mult) := p in
      face_hessian_at q (sb_samples b) nbrs (q_kernel t) (sb_topo b) (sb_verts b) (sb_bg b) mult) (combine (hessian_rows t qs) multipliers))))
  end.
(** surface_hessian_product_values_iter_impl, hessian.rs:405-432. *)
Definition block_values (h : nat * nat * m3) : list R :=
  let '(row, col, A) := h in
  flat_map (fun r => map (fun c => m3_get A r c) (filter (fun c => Nat.leb (3 * col + c) (3 * row + r)) [0; 1; 2]%nat)) [0; 1; 2]%nat.
Definition outcome_map {A B} (f : A -> B) (o : outcome (option A)) : outcome (option B) :=
  match o with Unsupported => Unsupported | Result a => Result (option_map f a) end.
Definition surface_hessian_values (t : query_topo) (qs : list v3) (multipliers : list R) : outcome (option (list R)) :=
  outcome_map (flat_map block_values) (surface_hessian_blocks t qs multipliers).
(** surface_hessian_product_values_impl, hessian.rs:381-403: as many values as there are places. *)
Definition surface_hessian_scaled_values (t : query_topo) (qs : list v3) (multipliers : list R) (scale : R) (values : list R)
  : outcome (option (list R)) :=
  outcome_map (fun new => zip_update (fun _ v => v * scale) values new) (surface_hessian_values t qs multipliers).

(** face_hessian_indices_iter, hessian.rs:46-113. *)
Definition samples_to_vertices_indices (topo : list triangle) (row col : nat) : list (nat * nat) :=
  flat_map (fun r => map (fun c => (r, c)) (filter (fun c => Nat.leb c r) (tri_verts (tri_of topo col)))) (tri_verts (tri_of topo row)).
Definition main_hessian_indices (topo : list triangle) (weighted : bool) (nbrs : list nat) : list (nat * nat) :=
  flat_map (fun p => let '(row, col) := p in
    samples_to_vertices_indices topo row col ++ (if Nat.ltb col row then samples_to_vertices_indices topo col row else []))
    (sample_hessian_indices nbrs ++ hessian_block_indices weighted nbrs).
Definition ordered (i j : nat) : nat * nat := if Nat.leb j i then (i, j) else (j, i).
Definition normal_hessian_indices (topo : list triangle) (nbrs : list nat) : list (nat * nat) :=
  flat_map (fun s => flat_map (fun i => map (fun j => (i, j)) (filter (fun j => Nat.leb j i) (tri_verts (tri_of topo s)))) (tri_verts (tri_of topo s)))
    nbrs ++
  flat_map (fun s_i =>
    flat_map (fun i => map (fun j => ordered i j) (tri_verts (tri_of topo s_i))) (tri_verts (tri_of topo s_i)) ++
    flat_map (fun s_j => flat_map (fun j => map (fun i => ordered j i) (tri_verts (tri_of topo s_i))) (tri_verts (tri_of topo s_j))) nbrs) nbrs.
Definition face_hessian_indices (topo : list triangle) (weighted : bool) (nbrs : list nat) : option (list (nat * nat)) :=
  if forallb (fun i => Nat.ltb i (length topo)) nbrs then Some (normal_hessian_indices topo nbrs ++ main_hessian_indices topo weighted nbrs)
  else None.
(** surface_hessian_product_block_indices_iter, surface_hessian_product_indices_iter and num_surface_hessian_product_entries,
    hessian.rs:280-283, 334-371. *)
Definition surface_hessian_block_indices (t : query_topo) : outcome (option (list (nat * nat))) :=
  let b := q_base t in
  match sb_type b with
  | SVertex => Unsupported
  | SFace => Result (option_map (@concat _) (all_some (map (face_hessian_indices (sb_topo b) (p_weighted (sb_bg b))) (trivial_neighborhood t))))
  end.
Definition surface_hessian_indices (t : query_topo) : outcome (option (list (nat * nat))) :=
  outcome_map (fun ij => filter (fun p => Nat.leb (snd p) (fst p))
    (flat_map (fun p => flat_map (fun r => map (fun c => (3 * fst p + r, 3 * snd p + c)%nat) [0; 1; 2]%nat) [0; 1; 2]%nat) ij))
    (surface_hessian_block_indices t).
Definition num_surface_hessian_entries (t : query_topo) : outcome (option nat) := outcome_map (@length _) (surface_hessian_indices t).
(** surface_hessian_product_indices, hessian.rs:373-380: [None] also if the buffers are too short. *)
Definition surface_hessian_write_indices (t : query_topo) (rows cols : list nat) : outcome (option (list nat * list nat)) :=
  match surface_hessian_indices t with
  | Unsupported => Unsupported
  | Result None => Result None
  | Result (Some ij) =>
      Result (if andb (Nat.leb (length ij) (length rows)) (Nat.leb (length ij) (length cols))
        then Some (zip_update (fun _ p => fst p) rows ij, zip_update (fun _ p => snd p) cols ij) else None)
  end.
