(** What the second derivatives of the implicit potential are for: the rate of its gradient. *)
From Coq Require Import Reals List.
From Verif Require Import Vec3 Mat3 RList KernelModel FieldModel FieldSpec.
Import ListNotations.
Local Open Scope R_scope.

(** A background field that adds nothing to the gradient: it does not depend on the distance, or it has no weight of its own and the
    nearest sample is within the radius of the kernel. *)
Definition quiet_background (k : kernel) (P : bg_params) (S : list sample) (q : v3) (c : nat) : Prop :=
  p_type P <> FDistance \/
  (p_weighted P = false /\ match k_radius k with None => True | Some r => v3_norm (away S q c) <= r end).
(** Rate of the gradient: the product of a sparse row of blocks with the velocities of the columns. *)
Definition block_row_product (row : list (nat * m3)) (U : nat -> v3) : v3 :=
  fold_right v3_add v3_0 (map (fun e => m3_mulv (snd e) (U (fst e))) row).
(** Entry of the symmetric matrix whose lower triangle is given as indices and values. *)
Definition lower_entry (ij : list (nat * nat)) (vals : list R) (i j : nat) : R :=
  let '(i, j) := if Nat.leb j i then (i, j) else (j, i) in
  rsum (map (fun p => if andb (Nat.eqb (fst (fst p)) i) (Nat.eqb (snd (fst p)) j) then snd p else 0) (combine ij vals)).
