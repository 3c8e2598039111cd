(** Vocabulary for statements about shells. *)
From Coq Require Import Reals List Arith Bool.
From Verif Require Import Vec3 Mat3 RList ElasticModel ElasticSpec AngleModel AngleSpec ShellModel.
Import ListNotations.
Local Open Scope R_scope.

(** Inner product of three vertex vectors, motion along [d], components. *)
Definition tri_dot (a b : tri3) : R := v3_dot (q0 a) (q0 b) + v3_dot (q1 a) (q1 b) + v3_dot (q2 a) (q2 b).
Definition tri_line (x d : tri3) (s : R) : tri3 := Tri3 (v3_line (q0 x) (q0 d) s) (v3_line (q1 x) (q1 d) s) (v3_line (q2 x) (q2 d) s).
Definition tri_map (f : v3 -> v3) (x : tri3) : tri3 := Tri3 (f (q0 x)) (f (q1 x)) (f (q2 x)).
Definition tri_get (t : tri3) (i j : nat) : R := v3_get (match i with O => q0 t | 1%nat => q1 t | _ => q2 t end) j.
(** A triangle with rest shape inverse [B]. *)
Definition at_tri (B : m2) (a lam m : R) (x : tri3) : tri_elem := TriElem (tri_shape x) B a lam m.
(** The triangle has positive area, and so has its rest shape. *)
Definition flat_normal (x : tri3) : v3 := v3_cross (v3_sub (q0 x) (q2 x)) (v3_sub (q1 x) (q2 x)).
Definition proper (B : m2) (x : tri3) : Prop := m2_det B <> 0 /\ flat_normal x <> v3_0.
(** Linear map of the rest plane into space without any stretch. *)
Definition isometry (F : m23) : Prop := v3_dot (w0 F) (w0 F) = 1 /\ v3_dot (w1 F) (w1 F) = 1 /\ v3_dot (w0 F) (w1 F) = 0.
(** The symmetric matrix with the lower triangle of [H], applied to a displacement. *)
Definition tri_sym_apply (H : nat -> nat -> nat -> nat -> R) (d : tri3) (n row : nat) : R :=
  sum3 (fun k => sum3 (fun col => sym_entry H n k row col * tri_get d k col)).
Definition tri_total (g : tri3) : v3 := v3_add (v3_add (q0 g) (q1 g)) (q2 g).
Definition tri_torque (x g : tri3) : v3 := v3_add (v3_add (v3_cross (q0 x) (q0 g)) (v3_cross (q1 x) (q1 g))) (v3_cross (q2 x) (q2 g)).

(** Shells whose indices are below [n], with distinct vertices per element. *)
Definition edge_vertices (e : interior_edge) (faces : topology) : list nat := map (edge_vert e faces) [0; 1; 2; 3]%nat.
Definition shell_in_range (n : nat) (S : shell) : Prop :=
  (forall t, In t (sh_tris S) -> (f_0 t < n /\ f_1 t < n /\ f_2 t < n)%nat) /\
  (forall d c, In d (sh_dihedrals S) -> In c (edge_vertices (di_edge d) (sh_faces S)) -> (c < n)%nat).
Definition shell_distinct (S : shell) : Prop :=
  (forall t, In t (sh_tris S) -> NoDup [f_0 t; f_1 t; f_2 t]) /\
  (forall d, In d (sh_dihedrals S) -> NoDup (edge_vertices (di_edge d) (sh_faces S))).
(** Every triangle has positive area, every interior edge is well formed, its faces have positive area and its angle is less than half a
    turn away from the recorded one. *)
Definition smooth_at (S : shell) (x : nat -> v3) : Prop :=
  (forall t, In t (sh_tris S) -> proper (f_DX_inv t) (tri_gather t x)) /\
  (forall d, In d (sh_dihedrals S) -> valid_edge (di_edge d) (sh_faces S) /\ nondegenerate (corners (di_edge d) x (sh_faces S)) /\
    Rabs (incremental_angle (di_edge d) (di_angle d) x (sh_faces S) - di_angle d) < PI).
(** The same shell without damping. *)
Definition undamped_tri (t : shell_tri) : shell_tri := ShellTri (f_0 t) (f_1 t) (f_2 t) (f_DX_inv t) (f_area t) (f_lambda t) (f_mu t) 0.
Definition undamped_shell (S : shell) : shell := Shell (map undamped_tri (sh_tris S)) (sh_dihedrals S) (sh_faces S).
