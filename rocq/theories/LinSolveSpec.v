(** Specification vocabulary for linear solves. *)
From Coq Require Import Reals List Arith.
From Verif Require Import RList LinSolveModel.
Import ListNotations.
Local Open Scope R_scope.

(** A linear operator on vectors of length [n]. *)
Definition linear_on (n : nat) (A : list R -> list R) : Prop :=
  (forall x, length x = n -> length (A x) = n) /\
  (forall a x b y, length x = n -> length y = n ->
     forall i, nth i (A (map (fun p => a * fst p + b * snd p) (combine x y))) 0 = a * nth i (A x) 0 + b * nth i (A y) 0).
(** The callback overwrites its output with [A x], whatever the buffer held. *)
Definition computes (n : nat) (mv : operator) (A : list R -> list R) : Prop :=
  forall k x old, length x = n -> length old = n -> fst (mv k x old) = A x.
(** Squared norm of the true residual [b - A x]. *)
Fixpoint sq_diff (b y : list R) : R := match b, y with b0 :: b', y0 :: y' => (b0 - y0)^2 + sq_diff b' y' | _, _ => 0 end.
Fixpoint sq_norm (b : list R) : R := match b with b0 :: b' => b0^2 + sq_norm b' | [] => 0 end.
