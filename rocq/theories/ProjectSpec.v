(** What a projection should do: sides of a level set, the thickness next to it, and the paths that points may take. *)
From Coq Require Import Reals List.
From Verif Require Import Vec3 ProjectModel.
Import ListNotations.
Local Open Scope R_scope.

(** The side asked for, and at most [eps] beyond the level. *)
Definition on_side (s : side) (iso x : R) : Prop := match s with Above => iso <= x | Below => x <= iso end.
Definition near_level (s : side) (iso eps x : R) : Prop := match s with Above => x <= iso + eps | Below => iso - eps <= x end.
(** How far a value is short of the level. *)
Definition short (s : side) (iso x : R) : R := match s with Above => iso - x | Below => x - iso end.
Definition toward (s : side) (g : v3) : v3 := match s with Above => g | Below => v3_neg g end.
(** The potential of a fresh buffer. *)
Definition level (F : field) (i : nat) (q : v3) : R := f_pot F i q 0.
(** The potential does not depend on what the buffer held before, or is just what it held. *)
Definition steady (F : field) (i : nat) : Prop :=
  (forall q v, f_pot F i q v = f_pot F i q 0) \/ (forall q v, f_pot F i q v = v).

(** A point short of the level moves along the direction of steepest change by the missing amount and half the thickness, or by that halved up
    to nine times. *)
Definition one_move (F : field) (s : side) (iso eps : R) (i : nat) (a b : v3) : Prop :=
  ~ on_side s iso (level F i a) /\ f_jac F i a <> v3_0 /\
  exists k, (k <= 9)%nat /\
    b = v3_add a (v3_scale ((eps / 2 + short s iso (level F i a)) / 2 ^ k / v3_norm (f_jac F i a)) (toward s (f_jac F i a))).
Inductive path (F : field) (s : side) (iso eps : R) (i : nat) : nat -> v3 -> v3 -> Prop :=
| path_here a : path F s iso eps i 0 a a
| path_move n a b c : one_move F s iso eps i a b -> path F s iso eps i n b c -> path F s iso eps i (S n) a c.
