(** Vocabulary for statements about inertia and gravity. *)
From Coq Require Import Reals List Arith.
From Verif Require Import Vec3 Mat3 RList ElasticModel ElasticSpec MassModel.
Import ListNotations.
Local Open Scope R_scope.

Definition elem_mass (e : melem) : R := measure e * density e.
Definition total_mass (es : list melem) : R := rsum (map elem_mass es).
Definition cells_in_range (n : nat) (es : list melem) : Prop := forall e c, In e es -> In c (cell e) -> (c < n)%nat.
(** Elements with [k] corners. *)
Definition corners (k : nat) (es : list melem) : Prop := forall e, In e es -> length (cell e) = k.
(** Weighted sum of vectors. *)
Definition weighted (es : list melem) (f : melem -> R) (a : nat -> v3) : v3 :=
  v3_total (flat_map (fun e => map (fun c => v3_scale (f e) (a c)) (cell e)) es).
(** The entry [p] of the matrix-vector product of triplets with all entries listed. *)
Definition triplet_product (ts : list (nat * nat * R)) (z : nat -> R) (p : nat) : R :=
  rsum (map (fun t => let '(r, c, h) := t in if Nat.eqb r p then h * z c else 0) ts).
Definition m3_symmetric (A : m3) : Prop := m3_transpose A = A.
