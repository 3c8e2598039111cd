(** Iterator helpers: remapping cached values and mask iterators. *)
From Coq Require Import List Arith.
Import ListNotations.

Section Remap.
Context {T : Type}.
(** One call of the closure in remap_values_iter, /repo/softy/src/constraints/mod.rs:93-110: the state is the peekable iterator
    of the old (value, index) pairs not yet consumed. *)
Fixpoint remap_step (default : T) (old : list (T * nat)) (new_idx : nat) : T * list (T * nat) :=
  match old with
  | [] => (default, [])
  | (v, old_idx) :: rest =>
      if Nat.ltb old_idx new_idx then remap_step default rest new_idx
      else if Nat.eqb old_idx new_idx then (v, rest)
      else (default, old)
  end.
(** The map over the new indices. *)
Fixpoint remap_loop (default : T) (old : list (T * nat)) (new_indices : list nat) : list T :=
  match new_indices with
  | [] => []
  | n :: ns => let (v, old') := remap_step default old n in v :: remap_loop default old' ns
  end.
(** remap_values, constraints/mod.rs:70-77, and remap_values_iter, 80-111. *)
Definition remap_values (values : list T) (default : T) (old_indices new_indices : list nat) : list T :=
  remap_loop default (combine values old_indices) new_indices.
End Remap.

Section Mask.
Context {T : Type}.
(** FilterMaskedIterator::next, /repo/softy/src/mask_iter.rs:20-32; the state is what is left of the two iterators. *)
Fixpoint filter_next (xs : list T) (ms : list bool) : option T * (list T * list bool) :=
  match xs, ms with
  | x :: xs', m :: ms' => if m then (Some x, (xs', ms')) else filter_next xs' ms'
  | [], _ => (None, ([], ms))
  | _ :: xs', [] => (None, (xs', []))
  end.
(** DistributeIterator::next, mask_iter.rs:71-85. *)
Definition distribute_next (default : T) (xs : list T) (ms : list bool) : option T * (list T * list bool) :=
  match ms with
  | [] => (None, (xs, []))
  | true :: ms' => match xs with [] => (None, ([], ms')) | x :: xs' => (Some x, (xs', ms')) end
  | false :: ms' => (Some default, (xs, ms'))
  end.
(** [Iterator::collect]: call [next] until it returns [None] ([fuel] bounds the calls; see the theorems). *)
Fixpoint collect (next : list T -> list bool -> option T * (list T * list bool)) (fuel : nat) (xs : list T) (ms : list bool) : list T :=
  match fuel with
  | O => []
  | S fuel' => match next xs ms with (Some x, (xs', ms')) => x :: collect next fuel' xs' ms' | (None, _) => [] end
  end.
End Mask.
