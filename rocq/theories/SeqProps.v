(** Property theorems for remapping and masks. *)
From Coq Require Import List Arith Lia Sorting.Sorted.
From Verif Require Import SeqModel SeqProofs.
Import ListNotations.

(** C16. Remapping: same length as the new set; surviving constraints keep their value; the others get the default. *)
Theorem remap_keeps_surviving_values {T : Type} (values : list T) (d : T) (olds news : list nat) :
  length values = length olds -> StronglySorted lt olds -> StronglySorted lt news ->
  length (remap_values values d olds news) = length news /\
  (forall j k, j < length news -> k < length olds -> nth j news 0 = nth k olds 0 ->
     nth j (remap_values values d olds news) d = nth k values d) /\
  (forall j, j < length news -> ~ In (nth j news 0) olds -> nth j (remap_values values d olds news) d = d).
Proof. exact (remap_correct values d olds news). Qed.
Print Assumptions remap_keeps_surviving_values.
Example remap_keeps_surviving_values_nonvacuous :
  StronglySorted lt [2; 5; 7] /\ StronglySorted lt [1; 5; 9] /\ remap_values [20; 50; 70] 0 [2; 5; 7] [1; 5; 9] = [0; 50; 0].
Proof. repeat split; repeat constructor. Qed.

(** C17. Collecting the masked filter yields exactly the unmasked elements in order; the number of [next] calls allowed
    ([fuel]) is irrelevant once it covers the mask. *)
Theorem mask_filter_keeps_unmasked {T : Type} (fuel : nat) (xs : list T) (ms : list bool) : length ms <= fuel ->
  collect filter_next fuel xs ms = map fst (filter snd (combine xs ms)).
Proof. exact (filter_collect fuel xs ms). Qed.
Print Assumptions mask_filter_keeps_unmasked.
Example mask_filter_keeps_unmasked_nonvacuous : collect filter_next 5 [1; 2; 3; 4] [true; false; true; false; true] = [1; 3].
Proof. reflexivity. Qed.

(** C17. Distributing the filtered elements over the same mask: every produced position holds the original element or the
    default, and if the sequence covers the mask every position is produced. *)
Theorem mask_distribute_inverts_filter {T : Type} (fuel : nat) (d : T) (xs : list T) (ms : list bool) : length ms <= fuel ->
  let out := collect (distribute_next d) fuel (collect filter_next fuel xs ms) ms in
  (length ms <= length xs -> length out = length ms) /\
  (forall i, i < length out -> nth i out d = if nth i ms false then nth i xs d else d) /\
  length out <= length ms.
Proof.
  exact (fun H => eq_ind_r (fun l => (let out := collect (distribute_next d) fuel l ms in
     (length ms <= length xs -> length out = length ms) /\
     (forall i, i < length out -> nth i out d = if nth i ms false then nth i xs d else d) /\ length out <= length ms))
    (eq_ind_r (fun out => (length ms <= length xs -> length out = length ms) /\
     (forall i, i < length out -> nth i out d = if nth i ms false then nth i xs d else d) /\ length out <= length ms)
      (spread_kept d ms xs) (distribute_collect d fuel (kept xs ms) ms H)) (filter_collect fuel xs ms H)).
Qed.
Print Assumptions mask_distribute_inverts_filter.
Example mask_distribute_inverts_filter_nonvacuous :
  collect (distribute_next 0) 4 (collect filter_next 4 [1; 2; 3; 4] [true; false; false; true]) [true; false; false; true] = [1; 0; 0; 4].
Proof. reflexivity. Qed.

(** C17. Filtering a distributed sequence returns the sequence when it has one element per unmasked position. *)
Theorem mask_filter_inverts_distribute {T : Type} (fuel : nat) (d : T) (ys : list T) (ms : list bool) : length ms <= fuel ->
  length ys = count_occ Bool.bool_dec ms true ->
  collect filter_next fuel (collect (distribute_next d) fuel ys ms) ms = ys.
Proof.
  exact (fun H Hc => eq_trans (filter_collect fuel _ ms H)
    (eq_trans (f_equal (fun l => kept l ms) (distribute_collect d fuel ys ms H)) (kept_spread d ms ys Hc))).
Qed.
Print Assumptions mask_filter_inverts_distribute.
Example mask_filter_inverts_distribute_nonvacuous : length [7; 8] = count_occ Bool.bool_dec [true; false; true] true.
Proof. reflexivity. Qed.
