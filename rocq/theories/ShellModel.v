(** Triangle shells: /repo/softy/src/energy_models/elasticity/tri_nh.rs and trishell_nh.rs, and the rest shape of
    /repo/softy/src/objects/trishell.rs, over exact reals.  [Triangle::shape_matrix] (external crate meshx) is taken to have the rows
    [x0 - x2], [x1 - x2]; matrices of the external crate tensr are row-major, [sum_inner] adds all entries of a matrix,
    [lower_triangular_vec] lists the lower triangle row by row. *)
From Coq Require Import Reals List Arith Bool.
From Verif Require Import Vec3 Mat3 ElasticModel AngleModel.
Import ListNotations.
Local Open Scope R_scope.

(** * Matrices with two rows (external crate tensr) *)
Record m2 := M2 { m00 : R; m01 : R; m10 : R; m11 : R }.
Record m23 := M23 { w0 : v3; w1 : v3 }.
Definition m2_mul (A B : m2) : m2 :=
  M2 (m00 A * m00 B + m01 A * m10 B) (m00 A * m01 B + m01 A * m11 B) (m10 A * m00 B + m11 A * m10 B) (m10 A * m01 B + m11 A * m11 B).
Definition m2_transpose (A : m2) : m2 := M2 (m00 A) (m10 A) (m01 A) (m11 A).
Definition m2_scale (s : R) (A : m2) : m2 := M2 (s * m00 A) (s * m01 A) (s * m10 A) (s * m11 A).
Definition m2_det (A : m2) : R := m00 A * m11 A - m01 A * m10 A.
Definition m2_trace (A : m2) : R := m00 A + m11 A.
(** [inverse], for a non-zero determinant ([None] otherwise). *)
Definition m2_inv (A : m2) : m2 := m2_scale (/ m2_det A) (M2 (m11 A) (- m01 A) (- m10 A) (m00 A)).
Definition m2_get (A : m2) (i j : nat) : R := match i, j with O, O => m00 A | O, _ => m01 A | _, O => m10 A | _, _ => m11 A end.
Definition m2_sum_row (A : m2) (i : nat) : R := m2_get A i 0 + m2_get A i 1.
Definition m2_sum_inner (A : m2) : R := m00 A + m01 A + (m10 A + m11 A).
Definition m23_add (A B : m23) : m23 := M23 (v3_add (w0 A) (w0 B)) (v3_add (w1 A) (w1 B)).
Definition m23_sub (A B : m23) : m23 := M23 (v3_sub (w0 A) (w0 B)) (v3_sub (w1 A) (w1 B)).
Definition m23_scale (s : R) (A : m23) : m23 := M23 (v3_scale s (w0 A)) (v3_scale s (w1 A)).
Definition m23_0 : m23 := M23 v3_0 v3_0.
(** [A * X] for a 2x2 matrix A, [X * X^T], and [X * Y^T]. *)
Definition m2_m23 (A : m2) (X : m23) : m23 :=
  M23 (v3_add (v3_scale (m00 A) (w0 X)) (v3_scale (m01 A) (w1 X))) (v3_add (v3_scale (m10 A) (w0 X)) (v3_scale (m11 A) (w1 X))).
Definition m23_mul_tr (X Y : m23) : m2 := M2 (v3_dot (w0 X) (w0 Y)) (v3_dot (w0 X) (w1 Y)) (v3_dot (w1 X) (w0 Y)) (v3_dot (w1 X) (w1 Y)).
Definition m23_get (A : m23) (i j : nat) : R :=
  let r := match i with O => w0 A | _ => w1 A end in match j with O => vx r | 1%nat => vy r | _ => vz r end.

(** * Triangles *)
Record tri3 := Tri3 { q0 : v3; q1 : v3; q2 : v3 }.
Definition tri_shape (x : tri3) : m23 := M23 (v3_sub (q0 x) (q2 x)) (v3_sub (q1 x) (q2 x)).
(** NeoHookeanTriEnergy, tri_nh.rs:21-27. *)
Record tri_elem := TriElem { T_Dx : m23; T_DX_inv : m2; T_area : R; T_lambda : R; T_mu : R }.
(** deformation_gradient, l.33-35, and its differential, l.116-120. *)
Definition tri_F (e : tri_elem) : m23 := m2_m23 (T_DX_inv e) (T_Dx e).
Definition tri_dF (e : tri_elem) (dx : tri3) : m23 := m2_m23 (T_DX_inv e) (tri_shape dx).
(** [[H[0], H[1], -H[0] - H[1]]]. *)
Definition tri_close (H : m23) : tri3 := Tri3 (w0 H) (w1 H) (v3_sub (v3_neg (w0 H)) (w1 H)).
(** energy, l.127-145. *)
Definition tri_energy (e : tri_elem) : ext :=
  let F := tri_F e in
  let C := m23_mul_tr F F in
  let C_det := m2_det C in
  let I := m00 C + m11 C in
  if Rle_dec C_det 0 then Inf
  else let log_C_det := ln C_det in
    Fin (T_area e * (1 / 2) * (T_mu e * (I - 2 - log_C_det) + 1 / 4 * T_lambda e * log_C_det * log_C_det)).
(** energy_gradient, l.152-172: zero for a degenerate triangle. *)
Definition tri_gradient (e : tri_elem) : tri3 :=
  let F := tri_F e in
  let C := m23_mul_tr F F in
  let C_det := m2_det C in
  if Rle_dec C_det 0 then Tri3 v3_0 v3_0 v3_0
  else
    let F_inv_tr := m2_m23 (m2_inv C) F in
    let logJ := 1 / 2 * ln C_det in
    let P := m23_add (m23_scale (T_mu e) F) (m23_scale (T_lambda e * logJ - T_mu e) F_inv_tr) in
    tri_close (m23_scale (T_area e) (m2_m23 (m2_transpose (T_DX_inv e)) P)).
(** stiffness_product_tensor, l.41-91: [dP(x, i)].  [dF[i]] is row [i] of the product of l.53-57, a 2-vector here given by its two components;
    [comp] picks a component of a vector. *)
Definition comp (v : v3) (j : nat) : R := match j with O => vx v | 1%nat => vy v | _ => vz v end.
Definition tri_dF_row (B : m2) (i : nat) : R * R :=
  let Bt := m2_transpose B in
  match i with O => (m00 Bt, m01 Bt) | 1%nat => (m10 Bt, m11 Bt) | _ => (- m00 Bt - m10 Bt, - m01 Bt - m11 Bt) end.
Definition axis (j : nat) : v3 := match j with O => V3 1 0 0 | 1%nat => V3 0 1 0 | _ => V3 0 0 1 end.
Definition tri_dP (e : tri_elem) (F_inv_tr : m23) (C_inv_tr : m2) (n : v3) (alpha : R) (x i : nat) : m23 :=
  let '(d0, d1) := tri_dF_row (T_DX_inv e) i in
  let f0 := comp (w0 F_inv_tr) x in
  let f1 := comp (w1 F_inv_tr) x in
  let FinvT_dFT := M2 (f0 * d0) (f0 * d1) (f1 * d0) (f1 * d1) in
  let c0 := m00 C_inv_tr * d0 + m01 C_inv_tr * d1 in
  let c1 := m10 C_inv_tr * d0 + m11 C_inv_tr * d1 in
  let out := m23_sub (m23_add (m23_scale alpha (m2_m23 FinvT_dFT F_inv_tr)) (m23_scale (m2_trace FinvT_dFT * T_lambda e) F_inv_tr))
    (M23 (v3_scale (c0 * comp n x * alpha) n) (v3_scale (c1 * comp n x * alpha) n)) in
  m23_add out (M23 (v3_scale (d0 * T_mu e) (axis x)) (v3_scale (d1 * T_mu e) (axis x))).
(** energy_hessian, l.180-233: entry [row][col] of block [n][k]; the entries not written stay zero. *)
Definition tri_h (e : tri_elem) (i row : nat) : m23 :=
  let F := tri_F e in
  let C := m23_mul_tr F F in
  let alpha := T_mu e - T_lambda e * (1 / 2) * ln (m2_det C) in
  let C_inv_tr := m2_transpose (m2_inv C) in
  let F_inv_tr := m2_m23 (m2_transpose C_inv_tr) F in
  let n := normalized (v3_cross (w0 F) (w1 F)) in
  m23_scale (T_area e) (m2_m23 (m2_transpose (T_DX_inv e)) (tri_dP e F_inv_tr C_inv_tr n alpha row i)).
Definition tri_hessian (e : tri_elem) (n k row col : nat) : R :=
  if Rlt_dec 0 (m2_det (m23_mul_tr (tri_F e) (tri_F e))) then
    if Nat.ltb k 2 then if Nat.ltb k n || (Nat.eqb n k && Nat.leb col row) then m23_get (tri_h e n row) k col else 0
    else if Nat.eqb n 2 then - m23_get (tri_h e 2 row) 0 col - m23_get (tri_h e 2 row) 1 col else 0
  else 0.
(** energy_hessian_product_transpose, l.240-269 ([dP_tr] is transposed back in the last line; here everything is transposed). *)
Definition tri_product (e : tri_elem) (dx : tri3) : m23 :=
  let F := tri_F e in
  let dF := tri_dF e dx in
  let C := m23_mul_tr F F in
  let C_det := m2_det C in
  if Rlt_dec 0 C_det then
    let alpha := T_mu e - T_lambda e * (1 / 2) * ln C_det in
    let C_inv := m2_inv C in
    let F_inv_tr := m2_m23 C_inv F in
    let dF_F_inv := m23_mul_tr dF F_inv_tr in
    let n := normalized (v3_cross (w0 F) (w1 F)) in
    let dn0 := v3_dot n (w0 dF) in
    let dn1 := v3_dot n (w1 dF) in
    let nC0 := dn0 * m00 C_inv + dn1 * m10 C_inv in
    let nC1 := dn0 * m01 C_inv + dn1 * m11 C_inv in
    let dP := m23_sub (m23_add (m23_add (m23_scale (T_mu e) dF) (m23_scale alpha (m2_m23 (m2_transpose dF_F_inv) F_inv_tr)))
      (m23_scale (m2_trace dF_F_inv * T_lambda e) F_inv_tr)) (m23_scale alpha (M23 (v3_scale nC0 n) (v3_scale nC1 n))) in
    m23_scale (T_area e) (m2_m23 (m2_transpose (T_DX_inv e)) dP)
  else m23_0.

(** isotropic_tri_shape_matrix, trishell.rs:186-194, and its inverse, l.197-218. *)
Definition isotropic_shape (m : m23) : m2 :=
  let m0_norm := v3_norm (w0 m) in
  let e0 := v3_scale (/ m0_norm) (w0 m) in
  let m1_e0 := v3_dot e0 (w1 m) in
  let m1_e1 := v3_norm (v3_sub (w1 m) (v3_scale m1_e0 e0)) in
  M2 m0_norm 0 m1_e0 m1_e1.

(** * Bending, tri_nh.rs:272-347 *)
(** The entries of DihedralElements for one edge. *)
Record dihedral := Dihedral { di_edge : interior_edge; di_angle : R; di_ref_angle : R; di_ref_length : R; di_stiffness : R }.
(** energy, l.285-291; energy_angle_derivative, l.297-302; energy_gradient, l.306-320; the scalar [d2w_dth2] of energy_hessian, l.324-346. *)
Definition bending_energy (d : dihedral) (x : nat -> v3) (faces : topology) : R :=
  let theta := incremental_angle (di_edge d) (di_angle d) x faces in
  let theta_strain := theta - di_ref_angle d in
  1 / 2 * di_ref_length d * di_stiffness d * theta_strain * theta_strain.
Definition bending_dw (d : dihedral) (x : nat -> v3) (faces : topology) : R :=
  di_ref_length d * di_stiffness d * (incremental_angle (di_edge d) (di_angle d) x faces - di_ref_angle d).
Definition bending_gradient (d : dihedral) (x : nat -> v3) (faces : topology) : tet :=
  tet_scale (bending_dw d x faces) (edge_angle_gradient (di_edge d) x faces).
Definition bending_d2w (d : dihedral) : R := di_stiffness d * di_ref_length d.
Definition tet_row (t : tet) (i : nat) : v3 := match i with O => t0 t | 1%nat => t1 t | 2%nat => t2 t | _ => t3 t end.
(** energy_hessian_values, trishell_nh.rs:573-600: the [i]-th entry of the lower triangle of a diagonal block, and the entry of an
    off-diagonal block with counter [b]. *)
Definition bending_diag (d : dihedral) (x : nat -> v3) (faces : topology) (vtx i : nat) : R :=
  let g := tet_row (edge_angle_gradient (di_edge d) x faces) vtx in
  nth i (AngleModel.lower_triangular_vec (outer g (v3_scale (bending_d2w d) g))) 0
  + nth i (nth vtx (fst (edge_angle_hessian (di_edge d) x faces)) []) 0 * bending_dw d x faces.
Definition bending_lower (d : dihedral) (x : nat -> v3) (faces : topology) (row_vtx col_vtx b row col : nat) : R :=
  let g := edge_angle_gradient (di_edge d) x faces in
  m3_get (outer (tet_row g row_vtx) (v3_scale (bending_d2w d) (tet_row g col_vtx))) row col
  + (if Nat.eqb b 5 then 0 else m3_get (nth b (snd (edge_angle_hessian (di_edge d) x faces)) m3_0) row col * bending_dw d x faces).

(** * The whole shell, trishell_nh.rs *)
(** One entry of TriangleElements. *)
Record shell_tri := ShellTri { f_0 : nat; f_1 : nat; f_2 : nat; f_DX_inv : m2; f_area : R; f_lambda : R; f_mu : R; f_damping : R }.
Record shell := Shell { sh_tris : list shell_tri; sh_dihedrals : list dihedral; sh_faces : topology }.
Definition face_vertex (t : shell_tri) (n : nat) : nat := match n with O => f_0 t | 1%nat => f_1 t | _ => f_2 t end.
(** [Triangle::from_indexed_slice]; positions are given as a function, in-range indices are a hypothesis of the statements. *)
Definition tri_gather (t : shell_tri) (x : nat -> v3) : tri3 := Tri3 (x (f_0 t)) (x (f_1 t)) (x (f_2 t)).
Definition tri_elem_of (t : shell_tri) (x : tri3) : tri_elem := TriElem (tri_shape x) (f_DX_inv t) (f_area t) (f_lambda t) (f_mu t).
(** energy, l.146-209. *)
Definition membrane_energy (t : shell_tri) (dqdv : R) (x v : nat -> v3) : ext :=
  let e := tri_elem_of t (tri_gather t x) in
  let dF := tri_dF e (tri_gather t v) in
  let dFTdF_tr := v3_dot (w0 dF) (w0 dF) + v3_dot (w1 dF) (w1 dF) in
  match tri_energy e with Fin a => Fin (a + f_mu t * f_area t * dFTdF_tr * (1 / 2) * f_damping t * (dqdv * dqdv)) | Inf => Inf end.
Definition ext_add (a b : ext) : ext := match a, b with Fin x, Fin y => Fin (x + y) | _, _ => Inf end.
Definition ext_sum (l : list ext) : ext := fold_right ext_add (Fin 0) l.
Definition shell_energy (S : shell) (dqdv : R) (x v : nat -> v3) : ext :=
  ext_add (ext_sum (map (fun t => membrane_energy t dqdv x v) (sh_tris S))) (ext_sum (map (fun d => Fin (bending_energy d x (sh_faces S))) (sh_dihedrals S))).
(** add_energy_gradient, l.215-308: the additions to the gradient in order; [None] is an index out of range. *)
Definition membrane_forces (t : shell_tri) (dqdv : R) (x v : nat -> v3) : list (nat * v3) :=
  let e := tri_elem_of t (tri_gather t x) in
  let g := tri_gradient e in
  let dF := m23_scale dqdv (tri_dF e (tri_gather t v)) in
  let damp := m23_scale (f_mu t * f_area t * f_damping t) (m2_m23 (m2_transpose (f_DX_inv t)) dF) in
  [(f_0 t, q0 g); (f_1 t, q1 g); (f_2 t, q2 g); (f_0 t, w0 damp); (f_2 t, v3_neg (w0 damp)); (f_1 t, w1 damp); (f_2 t, v3_neg (w1 damp))].
Definition bending_forces (d : dihedral) (x : nat -> v3) (faces : topology) : list (nat * v3) :=
  let g := bending_gradient d x faces in map (fun i => (edge_vert (di_edge d) faces i, tet_row g i)) [0; 1; 2; 3]%nat.
Fixpoint scatter (ps : list (nat * v3)) (l : list v3) : option (list v3) :=
  match ps with [] => Some l | p :: r => bind (add_at l (fst p) (snd p)) (scatter r) end.
Definition shell_forces (S : shell) (dqdv : R) (x v : nat -> v3) : list (nat * v3) :=
  flat_map (fun t => membrane_forces t dqdv x v) (sh_tris S) ++ flat_map (fun d => bending_forces d x (sh_faces S)) (sh_dihedrals S).
Definition add_shell_gradient (S : shell) (dqdv : R) (x v : nat -> v3) : list v3 -> option (list v3) := scatter (shell_forces S dqdv x v).
(** tri_hessian_for_each, l.62-82, and edge_hessian_for_each, l.91-140: the order of the local entries; the third component of the off-diagonal
    list is the block counter. *)
Definition tri_entries : list (nat * nat * nat * nat) :=
  flat_map (fun k => flat_map (fun n => flat_map (fun row => map (fun col => (n, k, row, col)) (seq 0 (if Nat.eqb n k then row + 1 else 3))) (seq 0 3)) (seq k (3 - k))) (seq 0 3).
Definition edge_diag_entries : list (nat * nat * nat * nat) :=
  flat_map (fun vtx => map (fun p => (vtx, fst (snd p), snd (snd p), fst p))
    (combine (seq 0 6) (flat_map (fun row => map (fun col => (row, col)) (seq 0 (row + 1))) (seq 0 3)))) (seq 0 4).
Definition edge_lower_entries : list (nat * nat * nat * (nat * nat)) :=
  flat_map (fun p => flat_map (fun row => map (fun col => (fst (snd p), snd (snd p), fst p, (row, col))) (seq 0 3)) (seq 0 3))
    (combine (seq 0 6) (flat_map (fun row_vtx => map (fun col_vtx => (row_vtx, col_vtx)) (seq 0 row_vtx)) (seq 1 3))).
(** energy_hessian_size, l.312-317; energy_hessian_indices_offset, l.412-491 (and the row/column variant, l.324-410). *)
Definition shell_hessian_size (S : shell) : nat := (45 * length (sh_tris S) + 78 * length (sh_dihedrals S))%nat.
Definition swapped_index (vr vc row col off_row off_col : nat) : nat * nat :=
  let global_row := (3 * vr + row)%nat in
  let global_col := (3 * vc + col)%nat in
  if Nat.ltb vr vc then ((global_col + off_row)%nat, (global_row + off_col)%nat) else ((global_row + off_row)%nat, (global_col + off_col)%nat).
Definition tri_index (t : shell_tri) (off_row off_col : nat) (p : nat * nat * nat * nat) : nat * nat :=
  let '(n, k, row, col) := p in swapped_index (face_vertex t n) (face_vertex t k) row col off_row off_col.
Definition edge_indices (d : dihedral) (faces : topology) (off_row off_col : nat) : list (nat * nat) :=
  map (fun p => let '(vtx, row, col, _) := p in let c := edge_vert (di_edge d) faces vtx in ((3 * c + row + off_row)%nat, (3 * c + col + off_col)%nat)) edge_diag_entries
  ++ map (fun p => let '(rv, cv, _, (row, col)) := p in swapped_index (edge_vert (di_edge d) faces rv) (edge_vert (di_edge d) faces cv) row col off_row off_col) edge_lower_entries.
Definition shell_hessian_indices (S : shell) (off_row off_col : nat) : list (nat * nat) :=
  flat_map (fun t => map (tri_index t off_row off_col) tri_entries) (sh_tris S)
  ++ flat_map (fun d => edge_indices d (sh_faces S) off_row off_col) (sh_dihedrals S).
(** energy_hessian_values, l.498-600. *)
Definition tri_ddF (t : shell_tri) : m2 := m2_scale (f_area t * f_mu t * f_damping t) (m2_mul (m2_transpose (f_DX_inv t)) (f_DX_inv t)).
Definition damping_entry (t : shell_tri) (n k : nat) : R :=
  let ddF := tri_ddF t in
  if Nat.eqb n 2 && Nat.eqb k 2 then m2_sum_inner ddF
  else if Nat.eqb k 2 then - m2_sum_row ddF n
  else if Nat.eqb n 2 then - m2_sum_row ddF k
  else m2_get ddF n k.
Definition tri_value (t : shell_tri) (scale : R) (x : nat -> v3) (p : nat * nat * nat * nat) : R :=
  let '(n, k, row, col) := p in
  (tri_hessian (tri_elem_of t (tri_gather t x)) n k row col + (if Nat.eqb row col then damping_entry t n k else 0)) * scale.
Definition edge_values (d : dihedral) (faces : topology) (scale : R) (x : nat -> v3) : list R :=
  map (fun p => let '(vtx, row, col, i) := p in scale * bending_diag d x faces vtx i) edge_diag_entries
  ++ map (fun p => let '(rv, cv, b, (row, col)) := p in scale * bending_lower d x faces rv cv b row col) edge_lower_entries.
Definition shell_hessian_values (S : shell) (scale : R) (x : nat -> v3) : list R :=
  flat_map (fun t => map (tri_value t scale x) tri_entries) (sh_tris S)
  ++ flat_map (fun d => edge_values d (sh_faces S) scale x) (sh_dihedrals S).
(** add_energy_hessian_diagonal, l.685-801: local diagonals, added where the vertex index is below the number of vertices. *)
Definition tri_diagonal (t : shell_tri) (scale : R) (x : nat -> v3) (i : nat) : v3 :=
  let H := tri_hessian (tri_elem_of t (tri_gather t x)) i i in
  let ddF := tri_ddF t in
  let damp := match i with O => m00 ddF | 1%nat => m11 ddF | _ => m2_sum_inner ddF end in
  v3_add (V3 (H 0%nat 0%nat * scale) (H 1%nat 1%nat * scale) (H 2%nat 2%nat * scale)) (v3_scale scale (v3_scale damp (V3 1 1 1))).
Definition edge_diagonal (d : dihedral) (faces : topology) (scale : R) (x : nat -> v3) (vtx : nat) : v3 :=
  let g := tet_row (edge_angle_gradient (di_edge d) x faces) vtx in
  let A := outer g (v3_scale (bending_d2w d) g) in
  let h := nth vtx (fst (edge_angle_hessian (di_edge d) x faces)) [] in
  let dw := bending_dw d x faces in
  v3_scale scale (v3_add (V3 (m3_get A 0 0) (m3_get A 1 1) (m3_get A 2 2)) (v3_scale dw (V3 (nth 0 h 0) (nth 2 h 0) (nth 5 h 0)))).
Definition scatter_guarded (ps : list (nat * v3)) (l : list v3) : list v3 := fold_left (fun acc p => add_if_present acc (fst p) (snd p)) ps l.
Definition add_shell_hessian_diagonal (S : shell) (scale : R) (x : nat -> v3) (l : list v3) : list v3 :=
  scatter_guarded (flat_map (fun t => map (fun i => (face_vertex t i, tri_diagonal t scale x i)) [0; 1; 2]%nat) (sh_tris S)
    ++ flat_map (fun d => map (fun i => (edge_vert (di_edge d) (sh_faces S) i, edge_diagonal d (sh_faces S) scale x i)) [0; 1; 2; 3]%nat) (sh_dihedrals S)) l.
(** update_angles, trishell.rs:501-515. *)
Definition update_angles (S : shell) (x1 : nat -> v3) : shell :=
  Shell (sh_tris S) (map (fun d => Dihedral (di_edge d) (incremental_angle (di_edge d) (di_angle d) x1 (sh_faces S)) (di_ref_angle d) (di_ref_length d) (di_stiffness d)) (sh_dihedrals S)) (sh_faces S).
