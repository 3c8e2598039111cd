(** Property theorems for sparse assembly. *)
From Coq Require Import Reals List Arith Lia Lra Sorting.Sorted.
From Verif Require Import RList AssemblyModel AssemblySpec AssemblyProofs.
Import ListNotations.

(** C18. The stored positions are strictly sorted by row and column (no duplicates) and are exactly the positions of the triplets inside the system. *)
Theorem assembled_pattern_is_exact (rows cols : list nat) (n : nat) :
  let (pattern, mapping) := sparse_matrix_and_mapping rows cols n false in
  length mapping = length rows /\ StronglySorted pos_lt pattern /\ NoDup pattern /\
  (forall r c, In (r, c) pattern <-> r < n /\ c < n /\ exists k, k < length rows /\ nth k rows 0 = r /\ nth k cols 0 = c).
Proof. exact (assembly_pattern rows cols n). Qed.
Print Assumptions assembled_pattern_is_exact.
Example assembled_pattern_is_exact_nonvacuous :
  sparse_matrix_and_mapping [2; 0; 2; 5; 0] [1; 0; 1; 0; 2] 3 false = ([(0, 0); (0, 2); (2, 1)], [Some 2; Some 0; Some 2; None; Some 1]).
Proof. reflexivity. Qed.

(** C18. After redistribution every entry of the system is the sum of all triplet values at its position. *)
Theorem assembled_entry_is_sum_of_triplets (rows cols : list nat) (vals : list R) (n r c : nat) :
  length vals = length rows -> r < n -> c < n ->
  let (pattern, mapping) := sparse_matrix_and_mapping rows cols n false in
  stored_entry pattern (redistribute (length pattern) mapping vals) r c = triplet_entry rows cols vals r c.
Proof. exact (stored_entry_is_triplet_entry rows cols vals n r c). Qed.
Print Assumptions assembled_entry_is_sum_of_triplets.
Example assembled_entry_is_sum_of_triplets_nonvacuous :
  triplet_entry [2; 0; 2; 5; 0] [1; 0; 1; 0; 2] [1%R; 2%R; 3%R; 4%R; 5%R] 2 1 = 4%R.
Proof. unfold triplet_entry, rsum; simpl. lra. Qed.

(** C18. The transposed variant (used on macOS) assembles the transposed matrix. *)
Theorem assembled_transpose_swaps (rows cols : list nat) (vals : list R) (n r c : nat) :
  length vals = length cols -> length rows = length cols -> r < n -> c < n ->
  let (pattern, mapping) := sparse_matrix_and_mapping rows cols n true in
  stored_entry pattern (redistribute (length pattern) mapping vals) r c = triplet_entry rows cols vals c r.
Proof. exact (assembly_transposed_entry rows cols vals n r c). Qed.
Print Assumptions assembled_transpose_swaps.
Example assembled_transpose_swaps_nonvacuous : length [1%R; 2%R] = length [0; 1] /\ 0 < 2 /\ 1 < 2.
Proof. simpl. lia. Qed.
