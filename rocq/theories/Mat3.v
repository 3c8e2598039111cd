(** 3x3 matrices (row-major, as [tensr::Matrix3]) over exact reals: part of the external [tensr] crate used by the modelled
    code.  The crate is not in /repo; these standard meanings are part of the trusted base. *)
From Coq Require Import Reals.
From Verif Require Import Vec3.
Local Open Scope R_scope.

Record m3 := M3 { r0 : v3; r1 : v3; r2 : v3 }.
Definition m3_0 : m3 := M3 v3_0 v3_0 v3_0.
Definition m3_I : m3 := M3 (V3 1 0 0) (V3 0 1 0) (V3 0 0 1).
Definition m3_add (A B : m3) : m3 := M3 (v3_add (r0 A) (r0 B)) (v3_add (r1 A) (r1 B)) (v3_add (r2 A) (r2 B)).
Definition m3_sub (A B : m3) : m3 := M3 (v3_sub (r0 A) (r0 B)) (v3_sub (r1 A) (r1 B)) (v3_sub (r2 A) (r2 B)).
Definition m3_scale (s : R) (A : m3) : m3 := M3 (v3_scale s (r0 A)) (v3_scale s (r1 A)) (v3_scale s (r2 A)).
Definition m3_transpose (A : m3) : m3 :=
  M3 (V3 (vx (r0 A)) (vx (r1 A)) (vx (r2 A))) (V3 (vy (r0 A)) (vy (r1 A)) (vy (r2 A))) (V3 (vz (r0 A)) (vz (r1 A)) (vz (r2 A))).
(** [A * v]. *)
Definition m3_mulv (A : m3) (v : v3) : v3 := V3 (v3_dot (r0 A) v) (v3_dot (r1 A) v) (v3_dot (r2 A) v).
(** [A * B]. *)
Definition m3_mul (A B : m3) : m3 :=
  M3 (m3_mulv (m3_transpose B) (r0 A)) (m3_mulv (m3_transpose B) (r1 A)) (m3_mulv (m3_transpose B) (r2 A)).
Definition m3_trace (A : m3) : R := vx (r0 A) + vy (r1 A) + vz (r2 A).
Definition m3_det (A : m3) : R := v3_dot (r0 A) (v3_cross (r1 A) (r2 A)).
(** Sum of products of entries (Frobenius inner product). *)
Definition m3_inner (A B : m3) : R := v3_dot (r0 A) (r0 B) + v3_dot (r1 A) (r1 B) + v3_dot (r2 A) (r2 B).
(** Cofactor matrix: its rows are cross products of the other rows. *)
Definition m3_cof (A : m3) : m3 := M3 (v3_cross (r1 A) (r2 A)) (v3_cross (r2 A) (r0 A)) (v3_cross (r0 A) (r1 A)).
(** Inverse transpose and inverse (meaningful for non-zero determinant). *)
Definition m3_inv_transpose (A : m3) : m3 := m3_scale (/ m3_det A) (m3_cof A).
Definition m3_inv (A : m3) : m3 := m3_transpose (m3_inv_transpose A).
(** The matrix [A + s * D]. *)
Definition m3_line (A D : m3) (s : R) : m3 := m3_add A (m3_scale s D).
