(** Specification vocabulary for contact: power of forces, rate of change of distances. *)
From Coq Require Import Reals List.
From Verif Require Import Vec3 RList.
Import ListNotations.
Local Open Scope R_scope.

(** Power of vertex forces [f] under vertex velocities [u]: sum of dot products. *)
Definition power (f u : list v3) : R := rsum (map (fun p => v3_dot (fst p) (snd p)) (combine f u)).
Lemma power_cons (a b : v3) (f u : list v3) : power (a :: f) (b :: u) = v3_dot a b + power f u.
Proof. unfold power. simpl. apply rsum_cons. Qed.

(** Rate of change of distance [i] under vertex velocities [u], read off a list of Jacobian blocks
    (row, vertex, gradient block): the sum of [block . u_vertex] over the blocks of that row. *)
Definition distance_rate (blocks : list (nat * nat * v3)) (u : list v3) (i : nat) : R :=
  rsum (map (fun b => if Nat.eqb (fst (fst b)) i then v3_dot (snd b) (nth (snd (fst b)) u v3_0) else 0) blocks).
