(** Specification vocabulary for mixed complementarity problems. *)
From Coq Require Import Reals List Arith Bool.
From Verif Require Import RList McpModel.
Import ListNotations.
Local Open Scope R_scope.

Definition above (x : R) (l : bound) : Prop := match l with Some l => l <= x | None => True end.
Definition below (x : R) (u : bound) : Prop := match u with Some u => x <= u | None => True end.
Definition ordered (l u : bound) : Prop := match l, u with Some l, Some u => l <= u | _, _ => True end.
Definition separated (l u : bound) : Prop := match l, u with Some l, Some u => l < u | _, _ => True end.

(** The mixed complementarity condition for one unknown with force [F]. *)
Definition complementary (F x : R) (l u : bound) : Prop :=
  (above x l /\ below x u /\ F = 0) \/ (below x u /\ l = Some x /\ 0 <= F) \/ (above x l /\ u = Some x /\ F <= 0).

(** Product of a triplet matrix with a vector, row [i]. *)
Definition triplet_product (ts : list (nat * nat * R)) (p : list R) (i : nat) : R :=
  rsum (map (fun t => let '(r, c, v) := t in if Nat.eqb r i then v * nth c p 0 else 0) ts).
(** The same triplets with new values. *)
Definition with_values (ts : list (nat * nat * R)) (vals : list R) : list (nat * nat * R) :=
  map (fun tv => (fst (fst (fst tv)), snd (fst (fst tv)), snd tv)) (combine ts vals).
