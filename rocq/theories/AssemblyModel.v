(** Sparse Jacobian pattern and value redistribution: /repo/softy/src/fem/nl/newton.rs:588-627 and 1379-1391. *)
From Coq Require Import Reals List Arith Bool.
Import ListNotations.

(** Position of a triplet in the matrix. *)
Definition pos := (nat * nat)%type.
Definition pos_eqb (a b : pos) : bool := Nat.eqb (fst a) (fst b) && Nat.eqb (snd a) (snd b).
(** The comparison used for sorting, newton.rs:606: rows first, then columns ([true] for less or equal). *)
Definition pos_leb (a b : pos) : bool :=
  match Nat.compare (fst a) (fst b) with Lt => true | Gt => false | Eq => Nat.leb (snd a) (snd b) end.

(** [entries.sort_by(..)], newton.rs:604-606: a stable sort of the triplet numbers by position (insertion sort computes the
    same, uniquely determined, list). *)
Fixpoint insert_entry (key : nat -> pos) (i : nat) (l : list nat) : list nat :=
  match l with
  | [] => [i]
  | j :: l' => if pos_leb (key i) (key j) then i :: l else j :: insert_entry key i l'
  end.
Definition sort_entries (key : nat -> pos) (l : list nat) : list nat := fold_right (insert_entry key) [] l.

(** Compression of sorted triplets (tensr's [from_sorted_triplets_iter_uncompressed] followed by [pruned] keeping everything,
    newton.rs:616-625): equal neighbours share one stored entry; also returns the destination of every source. *)
Fixpoint compress_from (last : pos) (d : nat) (ks : list pos) : list pos * list nat :=
  match ks with
  | [] => ([], [])
  | k :: ks' =>
      if pos_eqb k last then let (p, ds) := compress_from last d ks' in (p, d :: ds)
      else let (p, ds) := compress_from k (S d) ks' in (k :: p, S d :: ds)
  end.
Definition compress (ks : list pos) : list pos * list nat :=
  match ks with [] => ([], []) | k :: ks' => let (p, ds) := compress_from k 0 ks' in (k :: p, 0 :: ds) end.

Fixpoint set_nth {A} (l : list A) (i : nat) (x : A) : list A :=
  match l, i with [], _ => [] | _ :: l', O => x :: l' | y :: l', S i' => y :: set_nth l' i' x end.

(** sparse_matrix_and_mapping, newton.rs:588-627: the stored positions and, for each triplet, the stored entry it goes to.
    [rows] and [cols] have equal lengths (asserted in the code). *)
Definition sparse_matrix_and_mapping (rows cols : list nat) (mtx_size : nat) (transpose : bool) : list pos * list (option nat) :=
  let (rows, cols) := if transpose then (cols, rows) else (rows, cols) in
  let nnz := length rows in
  let key := fun i => (nth i rows 0, nth i cols 0) in
  let entries := sort_entries key (seq 0 nnz) in
  let entries := filter (fun i => Nat.ltb (nth i rows 0) mtx_size && Nat.ltb (nth i cols 0) mtx_size) entries in
  let (pattern, dst) := compress (map key entries) in
  let mapping := fold_left (fun m p => set_nth m (fst p) (Some (snd p))) (combine entries dst) (repeat None nnz) in
  (pattern, mapping).

(** Redistribution of the Jacobian values, newton.rs:1379-1391: zero the storage, then add every mapped value. *)
Definition add_at (s : list R) (i : nat) (x : R) : list R := set_nth s i (nth i s 0%R + x)%R.
Definition redistribute (num_stored : nat) (mapping : list (option nat)) (vals : list R) : list R :=
  fold_left (fun s p => match fst p with Some d => add_at s d (snd p) | None => s end) (combine mapping vals) (repeat 0%R num_stored).
