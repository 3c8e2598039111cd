(** Sums over lists of reals: [Iterator::sum] / accumulation loops of the modelled code, and their algebra. *)
From Coq Require Import Reals List Lra Lia Permutation.
Import ListNotations.
Local Open Scope R_scope.

(** [iter.sum()]: left-to-right accumulation starting from zero. *)
Definition rsum (l : list R) : R := fold_left Rplus l 0.

Lemma fold_plus (l : list R) (a : R) : fold_left Rplus l a = a + rsum l.
Proof.
  unfold rsum. revert a. induction l as [|x l IH]; intros a; simpl; [lra|].
  rewrite IH. rewrite (IH (0 + x)). lra.
Qed.
Lemma rsum_nil : rsum [] = 0.
Proof. reflexivity. Qed.
Lemma rsum_cons (a : R) (l : list R) : rsum (a :: l) = a + rsum l.
Proof. unfold rsum at 1. simpl. rewrite fold_plus. lra. Qed.
Lemma rsum_app (l m : list R) : rsum (l ++ m) = rsum l + rsum m.
Proof. induction l as [|a l IH]; simpl; rewrite ?rsum_cons, ?rsum_nil, ?IH; lra. Qed.
Lemma rsum_perm (l m : list R) : Permutation l m -> rsum l = rsum m.
Proof. induction 1; rewrite ?rsum_cons, ?IHPermutation, ?IHPermutation1; try lra. Qed.
Lemma rsum_nonneg (l : list R) : (forall x, In x l -> 0 <= x) -> 0 <= rsum l.
Proof.
  induction l as [|a l IH]; intros H; [rewrite rsum_nil; lra|]. rewrite rsum_cons.
  pose proof (H a (or_introl eq_refl)). pose proof (IH (fun x Hx => H x (or_intror Hx))). lra.
Qed.
Lemma rsum_scale {A} (c : R) (f : A -> R) (l : list A) : rsum (map (fun x => c * f x) l) = c * rsum (map f l).
Proof. induction l as [|a l IH]; simpl; rewrite ?rsum_nil, ?rsum_cons, ?IH; lra. Qed.
Lemma rsum_plus {A} (f g : A -> R) (l : list A) :
  rsum (map (fun x => f x + g x) l) = rsum (map f l) + rsum (map g l).
Proof. induction l as [|a l IH]; simpl; rewrite ?rsum_nil, ?rsum_cons, ?IH; lra. Qed.
Lemma rsum_ext {A} (f g : A -> R) (l : list A) : (forall x, In x l -> f x = g x) -> rsum (map f l) = rsum (map g l).
Proof. intros H. f_equal. apply map_ext_in. exact H. Qed.
Lemma rsum_zero {A} (f : A -> R) (l : list A) : (forall x, In x l -> f x = 0) -> rsum (map f l) = 0.
Proof.
  intros H. induction l as [|a l IH]; simpl; [reflexivity|]. rewrite rsum_cons, (H a (or_introl eq_refl)), IH; [lra|].
  intros x Hx. apply H. right. exact Hx.
Qed.
Lemma rsum_swap {A B} (f : A -> B -> R) (l : list A) (m : list B) :
  rsum (map (fun a => rsum (map (f a) m)) l) = rsum (map (fun b => rsum (map (fun a => f a b) l)) m).
Proof.
  induction l as [|a l IH]; simpl.
  - rewrite rsum_nil. symmetry. apply rsum_zero. reflexivity.
  - rewrite rsum_cons, IH, <- rsum_plus. f_equal. apply map_ext. intros b. rewrite rsum_cons. reflexivity.
Qed.
(** A sum with a single possibly non-zero index. *)
Lemma rsum_seq_single (f : nat -> R) (n i : nat) : (i < n)%nat ->
  rsum (map (fun k => if Nat.eqb k i then f k else 0) (seq 0 n)) = f i.
Proof.
  intros Hi.
  assert (G : forall len start, (start <= i < start + len)%nat ->
     rsum (map (fun k => if Nat.eqb k i then f k else 0) (seq start len)) = f i).
  { induction len as [|len IH]; intros start H; [exfalso; lia|]. simpl. rewrite rsum_cons.
    destruct (Nat.eqb_spec start i) as [E|E].
    - subst. rewrite rsum_zero; [lra|]. intros k Hk. apply in_seq in Hk.
      destruct (Nat.eqb_spec k i); [exfalso; lia|reflexivity].
    - rewrite IH by lia. lra. }
  apply G. lia.
Qed.
