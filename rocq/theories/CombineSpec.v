(** What an energy contributes, independently of how it is combined. *)
From Coq Require Import Reals List Arith.
From Verif Require Import RList ElasticModel CombineModel.
Import ListNotations.
Local Open Scope R_scope.

(** A number, a vector to add, the index pairs relative to an offset, the values per scale and the diagonal to add per scale. *)
Record contribution := Contribution { c_energy : R; c_gradient : nat -> R; c_pairs : list (nat * nat); c_values : R -> list R; c_diagonal : R -> nat -> R }.
(** [e] has this contribution on buffers of length [n]: slices of the right length are filled, accumulating buffers are added to. *)
Definition contributes (n : nat) (e : en) (c : contribution) : Prop :=
  en_energy e = c_energy c /\
  (forall l, length l = n -> exists l', en_gradient e l = Some l' /\ length l' = n /\ forall p, (p < n)%nat -> nth p l' 0 = nth p l 0 + c_gradient c p) /\
  length (c_pairs c) = en_size e /\
  (forall off l, length l = en_size e -> en_indices e off l = Some (map (fun q => (fst q + fst off, snd q + snd off)%nat) (c_pairs c))) /\
  (forall s, length (c_values c s) = en_size e) /\
  (forall s l, length l = en_size e -> en_values e s l = Some (c_values c s)) /\
  (forall s l, length l = n -> exists l', en_diagonal e s l = Some l' /\ length l' = n /\ forall p, (p < n)%nat -> nth p l' 0 = nth p l 0 + c_diagonal c s p).

Definition no_contribution : contribution := Contribution 0 (fun _ => 0) [] (fun _ => []) (fun _ _ => 0).
Definition both (a b : contribution) : contribution :=
  Contribution (c_energy a + c_energy b) (fun p => c_gradient a p + c_gradient b p) (c_pairs a ++ c_pairs b) (fun s => c_values a s ++ c_values b s) (fun s p => c_diagonal a s p + c_diagonal b s p).
(** The leaves of a nesting, left to right. *)
Fixpoint leaves (c : comb) : list en :=
  match c with Leaf e => [e] | Absent => [] | Present c | LeftC c | RightC c => leaves c | PairC a b => leaves a ++ leaves b end.
Definition total_of (cs : list contribution) : contribution := fold_right both no_contribution cs.
(** The triplets an energy writes with the offset [off], and the dense matrix they denote. *)
Definition triplets (c : contribution) (s : R) : list (nat * nat * R) := combine (c_pairs c) (c_values c s).
Definition dense (ts : list (nat * nat * R)) (r k : nat) : R := rsum (map (fun t => let '(i, j, v) := t in if Nat.eqb i r then (if Nat.eqb j k then v else 0) else 0) ts).
