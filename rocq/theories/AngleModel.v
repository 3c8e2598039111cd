(** Interior edges and their bending angles: /repo/softy/src/objects/interior_edge.rs, over exact reals.
    [Triangle::area_normal] (external crate meshx) is taken to be [(b - a) x (c - a)], as the comments of the code assume.
    Positions and faces are total functions of their indices, so out of range panics are not modelled here. *)
From Coq Require Import Reals ZArith List Arith Bool.
From Verif Require Import Vec3 Mat3 ElasticModel.
Import ListNotations.
Local Open Scope R_scope.

(** * External numeric functions *)
(** [Float::atan2] (signed zeros are not distinguished: [atan2 0 x] is [PI] for negative [x]). *)
Definition atan2 (y x : R) : R :=
  if Rlt_dec 0 x then atan (y / x)
  else if Rlt_dec x 0 then if Rle_dec 0 y then atan (y / x) + PI else atan (y / x) - PI
  else if Rlt_dec 0 y then PI / 2 else if Rlt_dec y 0 then - (PI / 2) else 0.
(** [Float::signum]. *)
Definition signum (x : R) : R := if Rlt_dec x 0 then -1 else 1.
(** Remainder [%] of floats: the quotient is truncated towards zero. *)
Definition trunc (x : R) : Z := if Rle_dec 0 x then Int_part x else (- Int_part (- x))%Z.
Definition frem (a b : R) : R := a - b * IZR (trunc (a / b)).

(** * Interior edges, l.34-40 *)
Record interior_edge := IEdge { face_0 : nat; face_1 : nat; start_0 : nat; start_1 : nat }.
Definition topology := nat -> nat -> nat.
(** face_vert, l.54-62, for the two faces. *)
Definition face_vert0 {T} (e : interior_edge) (get : nat -> nat -> T) (vert : nat) : T := get (face_0 e) ((start_0 e + vert) mod 3)%nat.
Definition face_vert1 {T} (e : interior_edge) (get : nat -> nat -> T) (vert : nat) : T := get (face_1 e) ((start_1 e + vert) mod 3)%nat.
(** verts, l.105-109: edge_verts (l.113-118), then tangent_verts (l.143-152). *)
Definition edge_vert (e : interior_edge) (faces : topology) (i : nat) : nat :=
  match i with O => face_vert0 e faces 0 | 1%nat => face_vert0 e faces 1 | 2%nat => face_vert0 e faces 2 | _ => face_vert1 e faces 2 end.
(** edge_vector, l.175-182; face0_tangent, l.187-197; face1_tangent, l.202-215. *)
Definition edge_vector (e : interior_edge) (pos : nat -> v3) (faces : topology) : v3 := v3_sub (pos (face_vert0 e faces 1)) (pos (face_vert0 e faces 0)).
Definition face0_tangent (e : interior_edge) (pos : nat -> v3) (faces : topology) : v3 := v3_sub (pos (face_vert0 e faces 2)) (pos (faces (face_0 e) (start_0 e))).
Definition face1_tangent (e : interior_edge) (pos : nat -> v3) (faces : topology) : v3 := v3_sub (pos (face_vert1 e faces 2)) (pos (face_vert0 e faces 0)).
(** is_oriented, l.219-221. *)
Definition is_oriented (e : interior_edge) (faces : topology) : bool := negb (Nat.eqb (face_vert0 e faces 0) (face_vert1 e faces 0)).
Definition area_normal (a b c : v3) : v3 := v3_cross (v3_sub b a) (v3_sub c a).
(** face_area_normals, l.228-252. *)
Definition area_normal0 (e : interior_edge) (pos : nat -> v3) (faces : topology) : v3 :=
  area_normal (pos (faces (face_0 e) 0%nat)) (pos (faces (face_0 e) 1%nat)) (pos (faces (face_0 e) 2%nat)).
Definition area_normal1 (e : interior_edge) (pos : nat -> v3) (faces : topology) : v3 :=
  let '(i, j) := if is_oriented e faces then (0, 1)%nat else (1, 0)%nat in
  area_normal (pos (faces (face_1 e) i)) (pos (faces (face_1 e) j)) (pos (faces (face_1 e) 2%nat)).
(** edge_angle, l.268-283. *)
Definition edge_angle (e : interior_edge) (pos : nat -> v3) (faces : topology) : R :=
  let an0 := area_normal0 e pos faces in
  let an1 := area_normal1 e pos faces in
  let y := v3_norm (edge_vector e pos faces) * v3_dot (face1_tangent e pos faces) an0 in
  - atan2 y (v3_dot an0 an1).
(** ref_edge_angle, l.291-318; positions are given per face corner. *)
Definition v3_eqb (a b : v3) : bool :=
  (if Req_EM_T (vx a) (vx b) then true else false) && (if Req_EM_T (vy a) (vy b) then true else false) && (if Req_EM_T (vz a) (vz b) then true else false).
Definition ref_edge_angle (e : interior_edge) (ref_pos : nat -> nat -> v3) : R :=
  let an0 := area_normal (ref_pos (face_0 e) 0%nat) (ref_pos (face_0 e) 1%nat) (ref_pos (face_0 e) 2%nat) in
  let an1 := area_normal (ref_pos (face_1 e) 0%nat) (ref_pos (face_1 e) 1%nat) (ref_pos (face_1 e) 2%nat) in
  let rv00 := face_vert0 e ref_pos 0 in
  let rv01 := face_vert0 e ref_pos 1 in
  let rv10 := face_vert1 e ref_pos 0 in
  let rv11 := face_vert1 e ref_pos 1 in
  if (v3_eqb rv00 rv10 && v3_eqb rv01 rv11) || (v3_eqb rv00 rv11 && v3_eqb rv01 rv10) then
    let t := v3_sub (face_vert0 e ref_pos 2) rv00 in
    atan2 (v3_norm (v3_cross an0 an1)) (v3_dot an0 an1) * - signum (v3_dot an1 t)
  else 0.
(** ref_length, l.162-171, and tile_span, l.77-101. *)
Definition ref_length (e : interior_edge) (ref_pos : nat -> nat -> v3) : R :=
  (v3_norm (v3_sub (face_vert0 e ref_pos 1) (face_vert0 e ref_pos 0)) + v3_norm (v3_sub (face_vert1 e ref_pos 1) (face_vert1 e ref_pos 0))) * (1 / 2).
Definition normalized (a : v3) : v3 := v3_scale (/ v3_norm a) a.
Definition tile_span (e : interior_edge) (ref_pos : nat -> nat -> v3) : R :=
  let f0x0 := face_vert0 e ref_pos 0 in
  let f1x1 := face_vert1 e ref_pos 0 in
  let f1x0 := face_vert1 e ref_pos 1 in
  let f0e0 := normalized (v3_sub (face_vert0 e ref_pos 1) f0x0) in
  let f1e0 := normalized (v3_sub f1x1 f1x0) in
  let h0 := v3_norm (v3_cross (v3_sub (face_vert0 e ref_pos 2) f0x0) f0e0) in
  let h1 := v3_norm (v3_cross (v3_sub (face_vert1 e ref_pos 2) f1x0) f1e0) in
  (h0 + h1) / 6.
(** project_angle, l.325-334. *)
Definition project_angle (angle : R) : R :=
  let out := frem (angle + PI) (2 * PI) - PI in
  if Rlt_dec out (- PI) then out + 2 * PI else out.
(** incremental_angle, l.341-358. *)
Definition incremental_angle (e : interior_edge) (ref_angle : R) (pos : nat -> v3) (faces : topology) : R :=
  let angle_diff := edge_angle e pos faces - project_angle ref_angle in
  let angle_diff := if Rlt_dec angle_diff (- PI) then angle_diff + 2 * PI else if Rlt_dec PI angle_diff then angle_diff - 2 * PI else angle_diff in
  ref_angle + angle_diff.
(** edge_angle_gradient, l.366-404. *)
Definition zero_tet : tet := Tet v3_0 v3_0 v3_0 v3_0.
Definition edge_angle_gradient (e : interior_edge) (pos : nat -> v3) (faces : topology) : tet :=
  let an0 := area_normal0 e pos faces in
  let an1 := area_normal1 e pos faces in
  let e0 := edge_vector e pos faces in
  let e1 := face0_tangent e pos faces in
  let e2 := face1_tangent e pos faces in
  let a0_squared := v3_dot an0 an0 in
  let a1_squared := v3_dot an1 an1 in
  if Req_EM_T a0_squared 0 then zero_tet
  else if Req_EM_T a1_squared 0 then zero_tet
  else
    let e0_norm := v3_norm e0 in
    let e0n := v3_scale (/ e0_norm) e0 in
    let e1e0n := v3_dot e1 e0n in
    let e2e0n := v3_dot e2 e0n in
    let an0nn := v3_scale (/ a0_squared) an0 in
    let an1nn := v3_scale (/ a1_squared) an1 in
    Tet (v3_add (v3_scale (e0_norm - e1e0n) an0nn) (v3_scale (e0_norm - e2e0n) an1nn))
        (v3_add (v3_scale e1e0n an0nn) (v3_scale e2e0n an1nn))
        (v3_scale (- e0_norm) an0nn)
        (v3_scale (- e0_norm) an1nn).
(** edge_angle_hessian, l.420-507.  [skew a] is the matrix of [a x _]; [outer a b] is [a * b^T]. *)
Definition skew (a : v3) : m3 := M3 (V3 0 (- vz a) (vy a)) (V3 (vz a) 0 (- vx a)) (V3 (- vy a) (vx a) 0).
Definition outer (a b : v3) : m3 := M3 (v3_scale (vx a) b) (v3_scale (vy a) b) (v3_scale (vz a) b).
Definition m3_neg (A : m3) : m3 := M3 (v3_neg (r0 A)) (v3_neg (r1 A)) (v3_neg (r2 A)).
(** dan0nn and dan1nn. *)
Definition dann (a_squared : R) (ann : v3) : m3 := m3_sub (m3_scale (1 / a_squared) m3_I) (m3_scale 2 (outer ann ann)).
Record angle_blocks := ABlocks { d_e0e0 : m3; d_e1e0 : m3; d_e2e0 : m3; d_e1e1 : m3; d_e2e2 : m3 }.
Definition angle_derivatives (an0 an1 e0 e1 e2 : v3) : angle_blocks :=
  let a0_squared := v3_dot an0 an0 in
  let a1_squared := v3_dot an1 an1 in
  let e0_norm := sqrt (v3_dot e0 e0) in
  let e0u := v3_scale (/ e0_norm) e0 in
  let e0u_e1 := v3_dot e0u e1 in
  let e0u_e2 := v3_dot e0u e2 in
  let an0nn := v3_scale (/ a0_squared) an0 in
  let an1nn := v3_scale (/ a1_squared) an1 in
  let dan0nn := dann a0_squared an0nn in
  let dan1nn := dann a1_squared an1nn in
  let dn0de0 := skew (v3_neg e1) in
  let dn0de1 := skew e0 in
  let dn1de0 := skew e2 in
  let dn1de2 := skew (v3_neg e0) in
  ABlocks
    (m3_add (m3_add (m3_add (m3_scale e0u_e1 (m3_mul dan0nn dn0de0)) (outer an0nn (v3_scale (/ e0_norm) (v3_sub e1 (v3_scale e0u_e1 e0u)))))
      (m3_scale e0u_e2 (m3_mul dan1nn dn1de0))) (outer an1nn (v3_scale (/ e0_norm) (v3_sub e2 (v3_scale e0u_e2 e0u)))))
    (m3_add (m3_scale e0u_e1 (m3_mul dan0nn dn0de1)) (outer an0nn e0u))
    (m3_add (m3_scale e0u_e2 (m3_mul dan1nn dn1de2)) (outer an1nn e0u))
    (m3_scale (- e0_norm) (m3_mul dan0nn dn0de1))
    (m3_scale (- e0_norm) (m3_mul dan1nn dn1de2)).
(** The nine computed blocks; the block of rows [i], columns [j <= i].  Blocks on the diagonal are stored as their lower triangle
    ([lower_triangular_vec], taken to be row-major), the block 3-2 is not stored. *)
Definition angle_hessian_block (d : angle_blocks) (i j : nat) : m3 :=
  match i, j with
  | O, O => m3_add (m3_add (m3_add (m3_add (m3_add (m3_add (d_e0e0 d) (d_e1e0 d)) (m3_transpose (d_e1e0 d))) (d_e2e0 d)) (m3_transpose (d_e2e0 d))) (d_e1e1 d)) (d_e2e2 d)
  | 1%nat, O => m3_sub (m3_sub (m3_neg (d_e0e0 d)) (d_e1e0 d)) (d_e2e0 d)
  | 2%nat, O => m3_sub (m3_neg (m3_transpose (d_e1e0 d))) (d_e1e1 d)
  | 3%nat, O => m3_sub (m3_neg (m3_transpose (d_e2e0 d))) (d_e2e2 d)
  | 1%nat, 1%nat => d_e0e0 d
  | 2%nat, 1%nat => m3_transpose (d_e1e0 d)
  | 3%nat, 1%nat => m3_transpose (d_e2e0 d)
  | 2%nat, 2%nat => d_e1e1 d
  | 3%nat, 3%nat => d_e2e2 d
  | _, _ => m3_0
  end.
Definition lower_triangular_vec (A : m3) : list R := [vx (r0 A); vx (r1 A); vy (r1 A); vx (r2 A); vy (r2 A); vz (r2 A)].
Definition edge_angle_hessian (e : interior_edge) (pos : nat -> v3) (faces : topology) : list (list R) * list m3 :=
  let an0 := area_normal0 e pos faces in
  let an1 := area_normal1 e pos faces in
  if Req_EM_T (v3_dot an0 an0) 0 then (repeat (repeat 0 6) 4, repeat m3_0 5)
  else if Req_EM_T (v3_dot an1 an1) 0 then (repeat (repeat 0 6) 4, repeat m3_0 5)
  else
    let d := angle_derivatives an0 an1 (edge_vector e pos faces) (face0_tangent e pos faces) (face1_tangent e pos faces) in
    (map (fun i => lower_triangular_vec (angle_hessian_block d i i)) [0; 1; 2; 3]%nat,
     map (fun p => angle_hessian_block d (fst p) (snd p)) [(1, 0); (2, 0); (2, 1); (3, 0); (3, 1)]%nat).
