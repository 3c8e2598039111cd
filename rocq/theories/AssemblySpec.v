(** Specification vocabulary: matrices given by triplets and by stored entries. *)
From Coq Require Import Reals List Arith Bool.
From Verif Require Import RList AssemblyModel.
Import ListNotations.
Local Open Scope R_scope.

(** Entry (r, c) of the matrix given by triplets: the sum of all values at that position. *)
Definition triplet_entry (rows cols : list nat) (vals : list R) (r c : nat) : R :=
  rsum (map (fun k => if Nat.eqb (nth k rows O) r && Nat.eqb (nth k cols O) c then nth k vals 0 else 0) (seq 0 (length rows))).
(** Entry (r, c) of the matrix given by stored positions and values. *)
Definition stored_entry (pattern : list pos) (storage : list R) (r c : nat) : R :=
  rsum (map (fun d => if pos_eqb (nth d pattern (O, O)) (r, c) then nth d storage 0 else 0) (seq 0 (length pattern))).
(** Row-major strict order. *)
Definition pos_lt (a b : pos) : Prop := (fst a < fst b)%nat \/ (fst a = fst b /\ (snd a < snd b)%nat).
