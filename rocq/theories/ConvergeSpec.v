(** Specification of the stopping condition, with indices instead of iterators. *)
From Coq Require Import Reals List Arith.
From Verif Require Import Vec3.
Import ListNotations.
Local Open Scope R_scope.

(** Component block [i] of a flat vector. *)
Definition block (l : list R) (i : nat) : v3 := V3 (nth (3 * i) l 0) (nth (3 * i + 1) l 0) (nth (3 * i + 2) l 0).
(** Sum of [f 0 .. f (n-1)]. *)
Fixpoint sum_below (f : nat -> R) (n : nat) : R := match n with O => 0 | S n' => sum_below f n' + f n' end.

Definition force_small (r : list R) (tol : R) : Prop := forall i, (i < length r)%nat -> Rabs (nth i r 0) < tol.
Definition step_small (x_prev x : list R) (tol : R) : Prop :=
  sqrt (sum_below (fun i => (nth i x_prev 0 - nth i x 0)^2) (length x)) < tol * (sqrt (sum_below (fun i => (nth i x 0)^2) (length x)) + 1).
Definition acceleration_small (n : nat) (x r mass_inv size : list R) (h tol : R) : Prop :=
  forall i, (i < n)%nat ->
    nth i mass_inv 0 * v3_norm (block r i) <= tol * v3_norm (block x i) \/
    nth i mass_inv 0 * v3_norm (block r i) <= tol * nth i size 0 / h.
