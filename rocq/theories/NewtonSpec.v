(** Vocabulary for stating what a Newton solve guarantees, with indices instead of iterators. *)
From Coq Require Import Reals List Arith.
From Verif Require Import NewtonModel.
Import ListNotations.
Local Open Scope R_scope.

(** [y] is the original vector times a power of one half with at most [n] halvings. *)
Definition halved (n : nat) (x y : list R) : Prop :=
  length y = length x /\ exists k, (k <= n)%nat /\ forall i, nth i y 0 = nth i x 0 / 2 ^ k.
Definition zero_vector (n : nat) (y : list R) : Prop := length y = n /\ forall i, nth i y 0 = 0.

(** [x] lies on the line through [x0] with direction [p] at parameter [a]. *)
Definition at_step (x0 p : list R) (a : R) (x : list R) : Prop :=
  length x = length x0 /\ forall i, nth i x 0 = nth i x0 0 + a * nth i p 0.

(** Directions returned by the linear solvers have the length of the unknown. *)
Definition sized (n : nat) (e : env) : Prop :=
  (forall it eps x tol p, length x = n -> o_iterative e it eps x tol = Some p -> length p = n) /\
  (forall it eps x p, length x = n -> o_direct e it eps x = Solution (Some p) -> length p = n).

(** The directional derivative is odd in the direction. *)
Definition odd_slope (e : env) : Prop :=
  forall it eps x p s, o_slope e it eps x p = Some s -> o_slope e it eps x (map Ropp p) = Some (- s).

(** Pointwise order of parameter lists. *)
Definition below (a b : list R) : Prop := length a = length b /\ forall i, nth i a 0 <= nth i b 0.

(** Smoothing parameters chosen by a user. *)
Definition user_range (eps : vec) : Prop := forall j, (j < length eps)%nat -> 0 < nth j eps 0 <= 1.

(** The merit of a point is a function of the smoothing parameters and the point, the same at each of the three places where the solver computes it. *)
Definition merit_function (e : env) (M : vec -> vec -> option R) : Prop :=
  (forall k eps x, o_init_merit e k eps x = M eps x) /\ (forall it k eps x, o_merit e it k eps x = M eps x) /\ (forall it eps x, o_merit_update e it eps x = M eps x).
