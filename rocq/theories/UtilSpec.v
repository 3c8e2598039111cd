(** Vocabulary for statements about helpers. *)
From Coq Require Import Reals ZArith List Arith Bool.
From Verif Require Import RList UtilModel.
Import ListNotations.

(** IEEE 754 binary interchange format with [e] exponent bits and [m] mantissa bits. *)
Definition sign_bit (e m bits : Z) : bool := Z.testbit bits (e + m).
Definition exponent_bits (e m bits : Z) : Z := ((bits / 2 ^ m) mod 2 ^ e)%Z.
Definition mantissa_bits (m bits : Z) : Z := (bits mod 2 ^ m)%Z.
Definition is_normal (e m bits : Z) : Prop := (0 < exponent_bits e m bits < 2 ^ e - 1)%Z.
Definition is_zero (e m bits : Z) : Prop := exponent_bits e m bits = 0%Z /\ mantissa_bits m bits = 0%Z.
Definition is_subnormal (e m bits : Z) : Prop := exponent_bits e m bits = 0%Z /\ mantissa_bits m bits <> 0%Z.
Definition is_infinite (e m bits : Z) : Prop := exponent_bits e m bits = (2 ^ e - 1)%Z /\ mantissa_bits m bits = 0%Z.
Definition is_nan (e m bits : Z) : Prop := exponent_bits e m bits = (2 ^ e - 1)%Z /\ mantissa_bits m bits <> 0%Z.
Local Open Scope R_scope.
(** Two to an integer power. *)
Definition two_to (k : Z) : R := powerRZ 2 k.
Definition bias (e : Z) : Z := (2 ^ (e - 1) - 1)%Z.
(** The magnitude of a normal number. *)
Definition normal_magnitude (e m bits : Z) : R := (1 + IZR (mantissa_bits m bits) / two_to m) * two_to (exponent_bits e m bits - bias e).
(** Multiplicity. *)
Definition occurrences (x : nat) (l : list nat) : nat := count_occ Nat.eq_dec l x.
(** Faces around the edge of two vertices; the neighbours of a vertex below [size]. *)
Definition has_vertices (i j : nat) (f : face) : bool :=
  let '(a, b, c) := f in (Nat.eqb a i || Nat.eqb b i || Nat.eqb c i) && (Nat.eqb a j || Nat.eqb b j || Nat.eqb c j).
Definition faces_at_edge (faces : list face) (i j : nat) : nat := length (filter (has_vertices i j) faces).
Definition proper_face (size : nat) (f : face) : Prop := let '(a, b, c) := f in (a < size)%nat /\ (b < size)%nat /\ (c < size)%nat /\ a <> b /\ b <> c /\ a <> c.
Definition neighbours (size : nat) (faces : list face) (i : nat) : list nat :=
  filter (fun j => negb (Nat.eqb i j) && Nat.ltb 0 (faces_at_edge faces i j)) (seq 0 size).
(** Those of the listed vertices joined to [i] by an edge of more than one face. *)
Definition shared (faces : list face) (i : nat) (l : list nat) : list nat := filter (fun j => Nat.ltb 1 (faces_at_edge faces i j)) l.
Definition row_sum (row : list (nat * R)) : R := rsum (map snd row).
(** The standard relations between moduli: Young's modulus, Poisson's ratio and bulk modulus of given Lame parameters. *)
Definition young_of_lame (lambda mu : R) : R := mu * (3 * lambda + 2 * mu) / (lambda + mu).
Definition poisson_of_lame (lambda mu : R) : R := lambda / (2 * (lambda + mu)).
Definition bulk_of_lame (lambda mu : R) : R := lambda + 2 / 3 * mu.
