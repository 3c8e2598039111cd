(** Properties of combined energies. *)
From Coq Require Import Reals List Arith Lra Lia.
From Verif Require Import RList ElasticModel MassModel MassSpec MassProofs CombineModel CombineSpec CombineProofs.
Import ListNotations.
Local Open Scope R_scope.

(** An energy that does what it says: used to show that the hypotheses can be met. *)
Definition plain (n : nat) (c : contribution) : en :=
  En (c_energy c) (fun l => Some (map (fun p => nth p l 0 + c_gradient c p) (seq 0 n))) (length (c_pairs c))
     (fun off l => if Nat.eqb (length l) (length (c_pairs c)) then Some (map (fun q => (fst q + fst off, snd q + snd off)%nat) (c_pairs c)) else None)
     (fun s l => if Nat.eqb (length l) (length (c_pairs c)) then Some (c_values c s) else None)
     (fun s l => Some (map (fun p => nth p l 0 + c_diagonal c s p) (seq 0 n))).
Lemma plain_contributes n c : (forall s, length (c_values c s) = length (c_pairs c)) -> contributes n (plain n c) c.
Proof.
  assert (G : forall F l, length l = n -> exists l', Some (map (fun p => nth p l 0 + F p) (seq 0 n)) = Some l' /\ length l' = n /\ forall p, (p < n)%nat -> nth p l' 0 = nth p l 0 + F p).
  { intros F l _. eexists. split; [reflexivity|]. split; [rewrite map_length, seq_length; reflexivity|]. intros p Hp.
    rewrite (nth_indep _ 0 (nth 0 l 0 + F 0%nat)) by (rewrite map_length, seq_length; exact Hp). rewrite (map_nth (fun p => nth p l 0 + F p) (seq 0 n) 0%nat p), seq_nth by exact Hp. reflexivity. }
  intros H. unfold contributes, plain. cbn [en_energy en_gradient en_size en_indices en_values en_diagonal]. split; [reflexivity|]. split; [apply G|]. split; [reflexivity|].
  split; [intros off l E; rewrite E, Nat.eqb_refl; reflexivity|]. split; [exact H|]. split; [intros s l E; rewrite E, Nat.eqb_refl; reflexivity|]. intros s. apply G.
Qed.
Definition inertia_contribution (es : list melem) : contribution := Contribution 3 (fun p => INR p) (inertia_indices es 0 0) (inertia_values (1 / 4) es) (fun _ _ => 1).
Definition other_contribution : contribution := Contribution 5 (fun _ => 2) [(1, 0)]%nat (fun s => [7 * s]) (fun _ _ => 0).

(** C60: the energy, gradient, triplets and diagonal of a pair are those of the parts added or appended, index pairs staying aligned with
    values; an absent energy contributes nothing. *)
Theorem pair_adds_up : forall n a b ca cb, contributes n a ca -> contributes n b cb -> contributes n (pair_en a b) (both ca cb).
Proof. exact pair_contributes. Qed.
Example pair_adds_up_ex : exists l, en_indices (pair_en (plain 6 other_contribution) (plain 6 other_contribution)) (10, 20)%nat [(0, 0); (0, 0)]%nat = Some l /\ l = [(11, 20); (11, 20)]%nat
  /\ contributes 6 (plain 6 other_contribution) other_contribution.
Proof. eexists. split; [reflexivity|]. split; [reflexivity|]. apply plain_contributes. reflexivity. Qed.
Theorem absent_energy_contributes_nothing : forall n l off s, contributes n (opt_en None) no_contribution /\ en_gradient (opt_en None) l = Some l /\ en_diagonal (opt_en None) s l = Some l /\ en_size (opt_en None) = 0%nat /\ en_indices (opt_en None) off [] = Some [].
Proof. intros n l off s. split; [apply absent_contributes|]. repeat split; reflexivity. Qed.
Example absent_energy_contributes_nothing_ex : en_gradient (pair_en (opt_en None) (plain 2 other_contribution)) [1; 1] = Some [1 + 2; 1 + 2].
Proof. reflexivity. Qed.

(** C60: every nesting of pairs, options and alternatives contributes exactly the contributions of its present leaves, and its matrix is
    the sum of their matrices. *)
Theorem nested_energies_add_up : forall n c cs, Forall2 (contributes n) (leaves c) cs ->
  contributes n (comb_en c) (total_of cs) /\ forall s r k, dense (triplets (total_of cs) s) r k = rsum (map (fun x => dense (triplets x s) r k) cs).
Proof.
  intros n c cs H. split; [apply comb_contributes; exact H|]. intros s r k. apply total_dense. intros x Hx.
  destruct (In_nth cs x no_contribution Hx) as (i & Hi & E). assert (Hc : exists e, contributes n e x).
  { clear E Hi. induction H as [|e y es ys He Hs IH]; [destruct Hx|]. destruct Hx as [<-|Hx]; [exists e; exact He|exact (IH Hx)]. }
  destruct Hc as (e & _ & _ & A3 & _ & A5 & _). rewrite A3, A5. reflexivity.
Qed.
Example nested_energies_add_up_ex : let c := PairC (Present (Leaf (plain 12 (inertia_contribution [MElem [0; 1; 2; 3]%nat 6 2])))) (PairC Absent (LeftC (Leaf (plain 12 other_contribution)))) in
  Forall2 (contributes 12) (leaves c) [inertia_contribution [MElem [0; 1; 2; 3]%nat 6 2]; other_contribution] /\ en_size (comb_en c) = 13%nat /\ en_energy (comb_en c) = 8.
Proof.
  cbv zeta. split; [cbn [leaves app]; constructor; [apply plain_contributes; reflexivity|constructor; [apply plain_contributes; reflexivity|constructor]]|]. split; [reflexivity|]. cbn. ring.
Qed.

(** C60: a slice shorter than the size of the first part is a panic, so sizes must be computed before the slices are handed out. *)
Theorem pair_needs_room : forall a b off l, (length l < en_size a)%nat -> en_indices (pair_en a b) off l = None.
Proof. intros a b off l H. unfold pair_en. cbn. unfold split_fill. destruct (Nat.leb_spec (en_size a) (length l)); [lia|reflexivity]. Qed.
Example pair_needs_room_ex : en_indices (pair_en (plain 2 other_contribution) (opt_en None)) (0, 0)%nat [] = None.
Proof. reflexivity. Qed.

Print Assumptions pair_adds_up. Print Assumptions absent_energy_contributes_nothing. Print Assumptions nested_energies_add_up. Print Assumptions pair_needs_room.
