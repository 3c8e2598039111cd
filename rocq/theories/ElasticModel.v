(** Hyperelastic tetrahedra: /repo/softy/src/energy_models/elasticity/tet_nh.rs, tet_snh.rs and tetsolid_nh.rs, over exact reals.
    [Tetrahedron::shape_matrix] (external crate meshx) is taken to have the rows [x0 - x3], [x1 - x3], [x2 - x3]; [vec] and [mtx] (external
    crate tensr) to stack rows. *)
From Coq Require Import Reals List Arith Bool.
From Verif Require Import Vec3 Mat3.
Import ListNotations.
Local Open Scope R_scope.

(** Energies that may be [T::infinity()]. *)
Inductive ext := Fin (x : R) | Inf.
Definition fin (e : ext) : R := match e with Fin x => x | Inf => 0 end.

(** A tetrahedron of points (or displacements, velocities, forces). *)
Record tet := Tet { t0 : v3; t1 : v3; t2 : v3; t3 : v3 }.
Definition shape_matrix (x : tet) : m3 := M3 (v3_sub (t0 x) (t3 x)) (v3_sub (t1 x) (t3 x)) (v3_sub (t2 x) (t3 x)).
(** The fields of the per-element energies, tet_nh.rs:16-22 and tet_snh.rs:18-24. *)
Record elem := Elem { Dx : m3; DX_inv : m3; vol : R; lambda : R; mu : R }.
(** deformation_gradient, tet_nh.rs:28-30, tet_snh.rs:30-32; and its differential, tet_nh.rs:53-57, tet_snh.rs:105-109. *)
Definition deformation_gradient (e : elem) : m3 := m3_mul (DX_inv e) (Dx e).
Definition deformation_gradient_differential (e : elem) (dx : tet) : m3 := m3_mul (DX_inv e) (shape_matrix dx).
(** [[H[0], H[1], H[2], -H[0] - H[1] - H[2]]]. *)
Definition close_rows (H : m3) : tet := Tet (r0 H) (r1 H) (r2 H) (v3_sub (v3_sub (v3_neg (r0 H)) (r1 H)) (r2 H)).
Definition m3_get (A : m3) (i j : nat) : R :=
  let r := match i with O => r0 A | 1%nat => r1 A | _ => r2 A end in match j with O => vx r | 1%nat => vy r | _ => vz r end.
Definition sum3 (f : nat -> R) : R := f 0%nat + f 1%nat + f 2%nat.

(** * Neo-Hookean, tet_nh.rs *)
(** energy, l.63-82. *)
Definition nh_energy (e : elem) : ext :=
  let F := deformation_gradient e in
  let I := m3_inner F F in
  let J := m3_det F in
  if Rle_dec J 0 then Inf
  else let logJ := ln J in Fin (vol e * (1 / 2 * mu e * (I - 3) - mu e * logJ + 1 / 2 * lambda e * logJ * logJ)).
(** energy_gradient, l.88-110; [None] stands for all components infinite.  [inverse_transpose().unwrap()] cannot fail when J > 0. *)
Definition nh_gradient (e : elem) : option tet :=
  let F := deformation_gradient e in
  let J := m3_det F in
  if Rle_dec J 0 then None
  else
    let F_inv_tr := m3_inv_transpose F in
    let logJ := ln J in
    Some (close_rows (m3_scale (vol e) (m3_mul (m3_transpose (DX_inv e)) (m3_add (m3_scale (mu e) F) (m3_scale (lambda e * logJ - mu e) F_inv_tr))))).
(** energy_hessian, l.117-180: entry [row][col] of block [n][k]; blocks and entries above the diagonal stay zero. *)
Definition nh_hess_term (e : elem) (n k row col : nat) : R :=
  let A := m3_mul (m3_transpose (DX_inv e)) (DX_inv e) in
  let Dx_inv := m3_inv (Dx e) in
  let alpha := mu e - lambda e * ln (m3_det (deformation_gradient e)) in
  let c_lambda := lambda e * m3_get Dx_inv row n * m3_get Dx_inv col k in
  let c_alpha := alpha * m3_get Dx_inv col n * m3_get Dx_inv row k in
  vol e * (c_alpha + c_lambda) + (if Nat.eqb col row then vol e * mu e * m3_get A n k else 0).
Definition nh_hessian (e : elem) (n k row col : nat) : R :=
  if Rle_dec (m3_det (deformation_gradient e)) 0 then 0
  else if Req_EM_T (m3_det (Dx e)) 0 then 0 (* Dx.inverse() is None *)
  else if Nat.ltb n 3 then
    if Nat.ltb k 3 then if (Nat.eqb n k && Nat.leb col row) || Nat.ltb k n then nh_hess_term e n k row col else 0 else 0
  else if Nat.ltb k 3 then - sum3 (fun n' => nh_hess_term e n' k row col)
  else if Nat.leb col row then sum3 (fun n' => sum3 (fun k' => nh_hess_term e n' k' row col)) else 0.
(** energy_hessian_product_transpose, l.189-216. *)
Definition nh_product (e : elem) (dx : tet) : m3 :=
  let F := deformation_gradient e in
  let dF := deformation_gradient_differential e dx in
  let J := m3_det F in
  if Rlt_dec 0 J then
    let alpha := mu e - lambda e * ln J in
    let F_inv_tr := m3_inv_transpose F in
    let dF_tr_F_inv_tr := m3_mul (m3_transpose dF) F_inv_tr in
    let dP := m3_add (m3_add (m3_scale (mu e) dF) (m3_scale alpha (m3_mul F_inv_tr dF_tr_F_inv_tr))) (m3_scale (m3_trace dF_tr_F_inv_tr * lambda e) F_inv_tr) in
    m3_scale (vol e) (m3_mul (m3_transpose (DX_inv e)) dP)
  else m3_0.

(** * Stable Neo-Hookean, tet_snh.rs *)
(** energy, l.117-133. *)
Definition snh_energy (e : elem) : ext :=
  let F := deformation_gradient e in
  let I := m3_inner F F in
  let J := m3_det F in
  let J_minus_alpha := J - 1 - 75 / 100 * mu e / lambda e in
  Fin (vol e * (1 / 2) * (mu e * (I - 3 - ln (I + 1)) + lambda e * J_minus_alpha * J_minus_alpha)).
(** energy_gradient, l.139-160; dJdF has the rows F1 x F2, F2 x F0, F0 x F1. *)
Definition snh_stress (lam mu : R) (F : m3) : m3 :=
  let I := m3_inner F F in
  let J := m3_det F in
  let alpha := 1 + 75 / 100 * mu / lam in
  m3_add (m3_scale (mu * (I / (I + 1))) F) (m3_scale (lam * (J - alpha)) (m3_cof F)).
Definition snh_gradient (e : elem) : option tet :=
  Some (close_rows (m3_scale (vol e) (m3_mul (m3_transpose (DX_inv e)) (snh_stress (lambda e) (mu e) (deformation_gradient e))))).
(** [(H * dF.vec()).mtx()] with the blocks of l.229-243: row r is the sum of cross products of rows of F and dF. *)
Definition skew_blocks (F D : m3) : m3 :=
  M3 (v3_add (v3_cross (v3_neg (r2 F)) (r1 D)) (v3_cross (r1 F) (r2 D)))
     (v3_add (v3_cross (r2 F) (r0 D)) (v3_cross (v3_neg (r0 F)) (r2 D)))
     (v3_add (v3_cross (v3_neg (r1 F)) (r0 D)) (v3_cross (r0 F) (r1 D))).
(** energy_hessian_product_transpose, l.205-255. *)
Definition snh_product (e : elem) (dx : tet) : m3 :=
  let F := deformation_gradient e in
  let dF := deformation_gradient_differential e dx in
  let J := m3_det F in
  let I := m3_inner F F in
  let dJdF := m3_cof F in
  let alpha := 1 + 75 / 100 * mu e / lambda e in
  let h_mtx := skew_blocks F dF in
  let FdFtrace := m3_inner F dF in
  let dP := m3_add
    (m3_scale (mu e) (m3_add (m3_scale (I / (I + 1)) dF) (m3_scale (FdFtrace * 2 / ((I + 1) * (I + 1))) F)))
    (m3_scale (lambda e) (m3_add (m3_scale (m3_inner dJdF dF) dJdF) (m3_scale (J - alpha) h_mtx))) in
  m3_scale (vol e) (m3_mul (m3_transpose (DX_inv e)) dP).
(** elastic_energy_deformation_hessian, l.38-84: entry [3 i + j][3 k + l] of dfdF, computed from the transposed deformation gradient.
    [skew v] is taken to be the matrix of the cross product with v. *)
Definition skew (v : v3) : m3 := M3 (V3 0 (- vz v) (vy v)) (V3 (vz v) 0 (- vx v)) (V3 (- vy v) (vx v) 0).
Definition row3 (A : m3) (i : nat) : v3 := match i with O => r0 A | 1%nat => r1 A | _ => r2 A end.
Definition h_block (F : m3) (r c : nat) : m3 :=
  match r, c with
  | 0%nat, 1%nat => skew (v3_neg (r2 F)) | 0%nat, 2%nat => skew (r1 F)
  | 1%nat, 0%nat => skew (r2 F) | 1%nat, 2%nat => skew (v3_neg (r0 F))
  | 2%nat, 0%nat => skew (v3_neg (r1 F)) | 2%nat, 1%nat => skew (r0 F)
  | _, _ => m3_0
  end.
Definition dfdF (e : elem) (i j k l : nat) : R :=
  let F := m3_transpose (deformation_gradient e) in
  let I := m3_inner F F in
  let J_minus_alpha := m3_det F - 1 - 75 / 100 * mu e / lambda e in
  let id := if Nat.eqb i k && Nat.eqb j l then 1 else 0 in
  id * (mu e * I / (I + 1))
  + m3_get F i j * m3_get F k l * (mu e * 2 / ((I + 1) * (I + 1)))
  + m3_get (m3_cof F) i j * m3_get (m3_cof F) k l * lambda e
  + m3_get (h_block F i k) j l * lambda e * J_minus_alpha.
(** energy_hessian, l.167-203: all blocks with r, c < 3, then the last row and the last block. *)
Definition snh_hess_term (e : elem) (r c i j : nat) : R :=
  let B := m3_transpose (DX_inv e) in
  sum3 (fun k => vol e * sum3 (fun l => dfdF e j k i l * m3_get B r l) * m3_get B c k).
Definition snh_hessian (e : elem) (n k row col : nat) : R :=
  if Nat.ltb n 3 then if Nat.ltb k 3 then snh_hess_term e n k row col else 0
  else if Nat.ltb k 3 then - sum3 (fun r => snh_hess_term e r k row col)
  else sum3 (fun c => sum3 (fun r => snh_hess_term e r c row col)).

(** * Meshes, tetsolid_nh.rs *)
(** The trait LinearElementEnergy, elasticity.rs:19-66. *)
Record tet_model := TetModel {
  m_energy : elem -> ext; m_gradient : elem -> option tet; m_product : elem -> tet -> m3; m_hessian : elem -> nat -> nat -> nat -> nat -> R }.
Definition neo_hookean := TetModel nh_energy nh_gradient nh_product nh_hessian.
Definition stable_neo_hookean := TetModel snh_energy snh_gradient snh_product snh_hessian.
(** One entry of TetElements: cell, rest shape and material. *)
Record solid_tet := SolidTet { c0 : nat; c1 : nat; c2 : nat; c3 : nat; s_DX_inv : m3; s_vol : R; s_lambda : R; s_mu : R; s_damping : R }.
(** [Tetrahedron::from_indexed_slice]; positions are given as a function, in-range indices are a hypothesis of the statements. *)
Definition gather (s : solid_tet) (x : nat -> v3) : tet := Tet (x (c0 s)) (x (c1 s)) (x (c2 s)) (x (c3 s)).
Definition elem_of (s : solid_tet) (x : tet) : elem := Elem (shape_matrix x) (s_DX_inv s) (s_vol s) (s_lambda s) (s_mu s).
Definition tet_add (a b : tet) : tet := Tet (v3_add (t0 a) (t0 b)) (v3_add (t1 a) (t1 b)) (v3_add (t2 a) (t2 b)) (v3_add (t3 a) (t3 b)).
Definition tet_sub (a b : tet) : tet := Tet (v3_sub (t0 a) (t0 b)) (v3_sub (t1 a) (t1 b)) (v3_sub (t2 a) (t2 b)) (v3_sub (t3 a) (t3 b)).
Definition tet_scale (s : R) (a : tet) : tet := Tet (v3_scale s (t0 a)) (v3_scale s (t1 a)) (v3_scale s (t2 a)) (v3_scale s (t3 a)).
Definition v3_sum (v : v3) : R := vx v + vy v + vz v.
(** energy, l.78-126, per element. *)
Definition tet_energy_with_damping (m : tet_model) (s : solid_tet) (dqdv : R) (x v : nat -> v3) : ext :=
  let tet_x := gather s x in
  let tet_v := gather s v in
  let tet_x0 := tet_sub tet_x (tet_scale dqdv tet_v) in
  let dH := m_product m (elem_of s tet_x0) tet_v in
  let damping_potential := 1 / 2 * s_damping s * (dqdv * dqdv) *
    (v3_dot (r0 dH) (t0 tet_v) + v3_dot (r1 dH) (t1 tet_v) + v3_dot (r2 dH) (t2 tet_v) - v3_sum (m3_mulv dH (t3 tet_v))) in
  match m_energy m (elem_of s tet_x) with Fin a => Fin (a + damping_potential) | Inf => Inf end.
Fixpoint mesh_energy (m : tet_model) (ss : list solid_tet) (dqdv : R) (x v : nat -> v3) : ext :=
  match ss with
  | [] => Fin 0
  | s :: r => match tet_energy_with_damping m s dqdv x v, mesh_energy m r dqdv x v with Fin a, Fin b => Fin (a + b) | _, _ => Inf end
  end.
(** add_energy_gradient, l.129-200: per element, then scattered. *)
Definition tet_gradient_with_damping (m : tet_model) (s : solid_tet) (dqdv : R) (x v : nat -> v3) : option tet :=
  let tet_x := gather s x in
  let tet_v := gather s v in
  let tet_x0 := tet_sub tet_x (tet_scale dqdv tet_v) in
  let dH := m_product m (elem_of s tet_x0) tet_v in
  let damping := s_damping s * dqdv in
  match m_gradient m (elem_of s tet_x) with
  | Some g => Some (tet_add g (Tet (v3_scale damping (r0 dH)) (v3_scale damping (r1 dH)) (v3_scale damping (r2 dH))
      (v3_sub (v3_sub (v3_neg (v3_scale damping (r0 dH))) (v3_scale damping (r1 dH))) (v3_scale damping (r2 dH)))))
  | None => None
  end.
(** [gradient[c] += g]; [None] is an index out of range (panic). *)
Fixpoint add_at (l : list v3) (i : nat) (g : v3) : option (list v3) :=
  match l, i with [], _ => None | a :: l', O => Some (v3_add a g :: l') | a :: l', S i' => option_map (cons a) (add_at l' i' g) end.
Definition bind {A B} (o : option A) (f : A -> option B) : option B := match o with Some a => f a | None => None end.
Definition add_tet (l : list v3) (s : solid_tet) (g : tet) : option (list v3) :=
  bind (add_at l (c0 s) (t0 g)) (fun l => bind (add_at l (c1 s) (t1 g)) (fun l => bind (add_at l (c2 s) (t2 g)) (fun l => add_at l (c3 s) (t3 g)))).
(** Infinite local gradients are not distinguished from panics here: [None] means there is no finite result. *)
Fixpoint add_mesh_gradient (m : tet_model) (ss : list solid_tet) (dqdv : R) (x v : nat -> v3) (l : list v3) : option (list v3) :=
  match ss with
  | [] => Some l
  | s :: r => bind (tet_gradient_with_damping m s dqdv x v) (fun g => bind (add_tet l s g) (add_mesh_gradient m r dqdv x v))
  end.
(** hessian_for_each, l.53-74: the order of the local entries as (vertex row, vertex column, row, column). *)
Definition hessian_entries : list (nat * nat * nat * nat) :=
  flat_map (fun k => flat_map (fun n => flat_map (fun row => map (fun col => (n, k, row, col)) (seq 0 (if Nat.eqb n k then row + 1 else 3))) (seq 0 3)) (seq k (4 - k))) (seq 0 4).
Definition cell_vertex (s : solid_tet) (n : nat) : nat := match n with O => c0 s | 1%nat => c1 s | 2%nat => c2 s | _ => c3 s end.
(** energy_hessian_indices_offset, l.252-288 (and the row/column variant, l.211-249). *)
Definition hessian_index (s : solid_tet) (off_row off_col : nat) (t : nat * nat * nat * nat) : nat * nat :=
  let '(n, k, row, col) := t in
  let global_row := (3 * cell_vertex s n + row)%nat in
  let global_col := (3 * cell_vertex s k + col)%nat in
  if Nat.ltb (cell_vertex s n) (cell_vertex s k) then ((global_col + off_row)%nat, (global_row + off_col)%nat) else ((global_row + off_row)%nat, (global_col + off_col)%nat).
Definition hessian_indices (ss : list solid_tet) (off_row off_col : nat) : list (nat * nat) :=
  flat_map (fun s => map (hessian_index s off_row off_col) hessian_entries) ss.
(** energy_hessian_values, l.290-395, without eigenvalue projection (projected_hessian = false). *)
Definition hessian_value (m : tet_model) (s : solid_tet) (scale dqdv : R) (x v : nat -> v3) (t : nat * nat * nat * nat) : R :=
  let '(n, k, row, col) := t in
  let tet_x := gather s x in
  let tet_x0 := tet_sub tet_x (tet_scale dqdv (gather s v)) in
  (m_hessian m (elem_of s tet_x) n k row col + m_hessian m (elem_of s tet_x0) n k row col * s_damping s) * scale.
Definition hessian_values (m : tet_model) (ss : list solid_tet) (scale dqdv : R) (x v : nat -> v3) : list R :=
  flat_map (fun s => map (hessian_value m s scale dqdv x v) hessian_entries) ss.
(** add_energy_hessian_diagonal, l.397-470: local diagonals, scattered to the vertices that have an entry. *)
Definition tet_diagonal (m : tet_model) (s : solid_tet) (scale dqdv : R) (x v : nat -> v3) (i : nat) : v3 :=
  V3 (hessian_value m s scale dqdv x v (i, i, 0%nat, 0%nat)) (hessian_value m s scale dqdv x v (i, i, 1%nat, 1%nat)) (hessian_value m s scale dqdv x v (i, i, 2%nat, 2%nat)).
Definition add_if_present (l : list v3) (i : nat) (g : v3) : list v3 := match add_at l i g with Some l' => l' | None => l end.
Definition add_mesh_diagonal (m : tet_model) (ss : list solid_tet) (scale dqdv : R) (x v : nat -> v3) (l : list v3) : list v3 :=
  fold_left (fun l s => fold_left (fun l i => add_if_present l (cell_vertex s i) (tet_diagonal m s scale dqdv x v i)) (seq 0 4) l) ss l.
