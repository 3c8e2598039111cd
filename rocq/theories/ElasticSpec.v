(** Vocabulary for statements about hyperelastic elements and meshes. *)
From Coq Require Import Reals List Arith.
From Verif Require Import Vec3 Mat3 RList ElasticModel.
Import ListNotations.
Local Open Scope R_scope.

(** Inner product of four vertex vectors, and the motion [x + s d]. *)
Definition tet_dot (a b : tet) : R := v3_dot (t0 a) (t0 b) + v3_dot (t1 a) (t1 b) + v3_dot (t2 a) (t2 b) + v3_dot (t3 a) (t3 b).
Definition tet_line (x d : tet) (s : R) : tet := tet_add x (tet_scale s d).
(** An element with rest shape matrix inverse [B]. *)
Definition at_shape (B : m3) (v lam m : R) (x : tet) : elem := Elem (shape_matrix x) B v lam m.
Definition rotation (Q : m3) : Prop := m3_mul Q (m3_transpose Q) = m3_I /\ m3_det Q = 1.
(** Rigid motion [Q p + c] of a point. *)
Definition rigid (Q : m3) (c p : v3) : v3 := v3_add (m3_mulv Q p) c.
Definition tet_map (f : v3 -> v3) (x : tet) : tet := Tet (f (t0 x)) (f (t1 x)) (f (t2 x)) (f (t3 x)).
(** Forces and torques. *)
Definition v3_total (l : list v3) : v3 := fold_right v3_add v3_0 l.
Definition torque (x : nat -> v3) (l : list v3) : v3 := v3_total (map (fun p => v3_cross (x (fst p)) (snd p)) (combine (seq 0 (length l)) l)).
Definition power (l : list v3) (d : nat -> v3) : R := rsum (map (fun p => v3_dot (snd p) (d (fst p))) (combine (seq 0 (length l)) l)).
(** The displacement that moves coordinate [j] of vertex [i]. *)
Definition v3_axis (j : nat) : v3 := match j with O => V3 1 0 0 | 1%nat => V3 0 1 0 | _ => V3 0 0 1 end.
Definition tet_axis (i j : nat) : tet :=
  let u := v3_axis j in match i with O => Tet u v3_0 v3_0 v3_0 | 1%nat => Tet v3_0 u v3_0 v3_0 | 2%nat => Tet v3_0 v3_0 u v3_0 | _ => Tet v3_0 v3_0 v3_0 u end.
Definition in_range (n : nat) (s : solid_tet) : Prop := (c0 s < n)%nat /\ (c1 s < n)%nat /\ (c2 s < n)%nat /\ (c3 s < n)%nat.
(** Hooke's law: stress of a small displacement gradient. *)
Definition hooke (lam m : R) (D : m3) : m3 := m3_add (m3_scale m (m3_add D (m3_transpose D))) (m3_scale (lam * m3_trace D) m3_I).
(** Component [j] of the vector of vertex [i]. *)
Definition v3_get (v : v3) (j : nat) : R := match j with O => vx v | 1%nat => vy v | _ => vz v end.
Definition tet_get (t : tet) (i j : nat) : R := v3_get (match i with O => t0 t | 1%nat => t1 t | 2%nat => t2 t | _ => t3 t end) j.
Definition sum4 (f : nat -> R) : R := f 0%nat + f 1%nat + f 2%nat + f 3%nat.
(** The symmetric matrix with the lower triangle of [H], applied to a displacement. *)
Definition lower (n k row col : nat) : bool := Nat.ltb k n || (Nat.eqb k n && Nat.leb col row).
Definition sym_entry (H : nat -> nat -> nat -> nat -> R) (n k row col : nat) : R := if lower n k row col then H n k row col else H k n col row.
Definition sym_apply (H : nat -> nat -> nat -> nat -> R) (d : tet) (n row : nat) : R :=
  sum4 (fun k => sum3 (fun col => sym_entry H n k row col * tet_get d k col)).
(** Bilinear form of the symmetric matrix given by triplets of its lower triangle. *)
Definition lower_form (ts : list (nat * nat * R)) (y z : nat -> R) : R :=
  rsum (map (fun t => let '(r, c, h) := t in if Nat.eqb r c then h * y r * z c else h * (y r * z c + y c * z r)) ts).
(** Coordinates of a vector field. *)
Definition coords (d : nat -> v3) (p : nat) : R := v3_get (d (Nat.div p 3)) (Nat.modulo p 3).
Definition distinct_vertices (s : solid_tet) : Prop := NoDup [c0 s; c1 s; c2 s; c3 s].
(** Motion of all vertices along [d]. *)
Definition move (x d : nat -> v3) (s : R) (i : nat) : v3 := v3_line (x i) (d i) s.
(** The diagonal entry [p] of the matrix given by triplets. *)
Definition diagonal_sum (ts : list (nat * nat * R)) (p : nat) : R :=
  rsum (map (fun t => let '(r, c, h) := t in if andb (Nat.eqb r p) (Nat.eqb c p) then h else 0) ts).
(** A gradient, with zero in place of an infinite one. *)
Definition tet_or_zero (o : option tet) : tet := match o with Some g => g | None => Tet v3_0 v3_0 v3_0 v3_0 end.
(** The same element without damping. *)
Definition undamped (s : solid_tet) : solid_tet := SolidTet (c0 s) (c1 s) (c2 s) (c3 s) (s_DX_inv s) (s_vol s) (s_lambda s) (s_mu s) 0.
