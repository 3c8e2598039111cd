(** Sparse block matrices and the contact matrices, in textbook terms. *)
From Coq Require Import Reals List Bool Sorting.Sorted.
From Verif Require Import Vec3 Mat3 RList FieldModel NeighborModel ContactMapSpec ContactAsmModel.
Import ListNotations.
Local Open Scope R_scope.

Record comm_monoid {A} (add : A -> A -> A) (zero : A) : Prop := {
  cm_assoc : forall x y z, add x (add y z) = add (add x y) z;
  cm_comm : forall x y, add x y = add y x;
  cm_zero : forall x, add zero x = x }.
(** The block at a place: the sum of the blocks given for it. *)
Definition at_place {A} (add : A -> A -> A) (zero : A) (T : list (nat * nat * A)) (p : nat * nat) : A :=
  fold_right add zero (map snd (filter (fun e => Nat.eqb (fst (fst e)) (fst p) && Nat.eqb (snd (fst e)) (snd p)) T)).
(** The blocks stored in a matrix, with their places. *)
Definition stored {A} (m : mapped A) : list (nat * nat * A) := combine (mp_pattern m) (mp_blocks m).
(** Row-major order without repetition. *)
Definition in_order (l : list (nat * nat)) : Prop :=
  StronglySorted (fun a b => (fst a < fst b)%nat \/ (fst a = fst b /\ (snd a < snd b)%nat)) l.
(** Inner product of fields of vectors. *)
Definition pairing (n : nat) (a b : nat -> v3) : R := rsum (map (fun i => v3_dot (a i) (b i)) (seq 0 n)).
(** Product of a matrix of columns with numbers. *)
Definition column_product (L : list (nat * nat * v3)) (a : nat -> R) (r : nat) : v3 :=
  vsum (map (fun e => let '(row, col, b) := e in if Nat.eqb row r then v3_scale (a col) b else v3_0) L).
(** Surfaces with the same connectivity whose query points see the same samples. *)
Definition same_sparsity (t t' : query_topo) : Prop :=
  sb_type (q_base t') = sb_type (q_base t) /\ sb_topo (q_base t') = sb_topo (q_base t) /\
  length (sb_verts (q_base t')) = length (sb_verts (q_base t)) /\ trivial_neighborhood t' = trivial_neighborhood t.
