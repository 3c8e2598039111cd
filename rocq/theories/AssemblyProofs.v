(** Lemmas about sparse assembly. *)
From Coq Require Import Reals List Arith Bool Lia Lra Sorting.Sorted Permutation.
From Verif Require Import RList AssemblyModel AssemblySpec.
Import ListNotations.

Lemma pos_eqb_spec (a b : pos) : reflect (a = b) (pos_eqb a b).
Proof.
  destruct a as [a1 a2], b as [b1 b2]. unfold pos_eqb; simpl.
  destruct (Nat.eqb_spec a1 b1), (Nat.eqb_spec a2 b2); simpl; constructor; congruence.
Qed.
Definition pos_le (a b : pos) : Prop := pos_lt a b \/ a = b.
Lemma pos_leb_le (a b : pos) : pos_leb a b = true -> pos_le a b.
Proof.
  destruct a as [a1 a2], b as [b1 b2]. unfold pos_leb, pos_le, pos_lt; simpl. destruct (Nat.compare_spec a1 b1); try discriminate.
  - intros H1. apply Nat.leb_le in H1. subst. destruct (Nat.eq_dec a2 b2); [right; congruence|left; right; lia].
  - intros _. left. left. lia.
Qed.
Lemma pos_leb_gt (a b : pos) : pos_leb a b = false -> pos_le b a.
Proof.
  destruct a as [a1 a2], b as [b1 b2]. unfold pos_leb, pos_le, pos_lt; simpl. destruct (Nat.compare_spec a1 b1); try discriminate.
  - intros H1. apply Nat.leb_gt in H1. left. right. lia.
  - intros _. left. left. lia.
Qed.
Lemma pos_lt_irrefl (a : pos) : ~ pos_lt a a.
Proof. unfold pos_lt. lia. Qed.
Lemma pos_le_trans (a b c : pos) : pos_le a b -> pos_le b c -> pos_le a c.
Proof.
  destruct a as [a1 a2], b as [b1 b2], c as [c1 c2]. unfold pos_le, pos_lt; simpl. intros [H1|H1] [H2|H2]; try inversion H1; try inversion H2; subst.
  all: try (left; lia). right; congruence.
Qed.

(** ** Sorting *)
Lemma insert_perm (key : nat -> pos) (i : nat) (l : list nat) : Permutation (i :: l) (insert_entry key i l).
Proof.
  induction l as [|j l IH]; simpl; [reflexivity|]. destruct (pos_leb (key i) (key j)); [reflexivity|].
  rewrite <- IH. apply perm_swap.
Qed.
Lemma sort_perm (key : nat -> pos) (l : list nat) : Permutation l (sort_entries key l).
Proof. induction l as [|i l IH]; simpl; [reflexivity|]. rewrite <- insert_perm, <- IH. reflexivity. Qed.
Definition sorted_by (key : nat -> pos) (l : list nat) : Prop := StronglySorted pos_le (map key l).
Lemma insert_sorted (key : nat -> pos) (i : nat) (l : list nat) : sorted_by key l -> sorted_by key (insert_entry key i l).
Proof.
  unfold sorted_by. induction l as [|j l IH]; simpl; intros H; [repeat constructor|]. inversion H as [|? ? H1 H2]; subst.
  destruct (pos_leb (key i) (key j)) eqn:E; simpl.
  - apply pos_leb_le in E. constructor; [exact H|]. constructor; [exact E|]. eapply Forall_impl; [|exact H2]. intros a Ha. eapply pos_le_trans; eauto.
  - apply pos_leb_gt in E. constructor; [apply IH; exact H1|]. rewrite Forall_forall in *. intros a Ha. apply in_map_iff in Ha. destruct Ha as (k & <- & Hk).
    apply (Permutation_in k (Permutation_sym (insert_perm key i l))) in Hk. destruct Hk as [<-|Hk]; [exact E|]. apply H2. apply in_map. exact Hk.
Qed.
Lemma sort_sorted (key : nat -> pos) (l : list nat) : sorted_by key (sort_entries key l).
Proof. induction l as [|i l IH]; simpl; [constructor|]. apply insert_sorted. exact IH. Qed.
Lemma filter_sorted (key : nat -> pos) (f : nat -> bool) (l : list nat) : sorted_by key l -> sorted_by key (filter f l).
Proof.
  unfold sorted_by. induction l as [|j l IH]; simpl; intros H; [constructor|]. inversion H as [|? ? H1 H2]; subst. destruct (f j); [|auto].
  simpl. constructor; [auto|]. rewrite Forall_forall in *. intros a Ha. apply in_map_iff in Ha. destruct Ha as (k & <- & Hk). apply filter_In in Hk.
  apply H2. apply in_map. tauto.
Qed.

(** ** Compression *)
Lemma compress_from_spec : forall ks last d, StronglySorted pos_le (last :: ks) ->
  let (p, ds) := compress_from last d ks in
  length ds = length ks /\
  StronglySorted pos_lt (last :: p) /\
  (forall x, In x p -> In x ks) /\
  (forall s, s < length ks -> d <= nth s ds 0 < d + length (last :: p) /\ nth (nth s ds 0 - d) (last :: p) (0, 0) = nth s ks (0, 0)).
Proof.
  induction ks as [|k ks IH]; intros last d H; simpl.
  - repeat split; try (repeat constructor); try contradiction; lia.
  - inversion H as [|? ? Hs Hall]; subst. inversion Hs as [|? ? Hs' Hall']; subst. inversion Hall as [|? ? Hlk Hall2]; subst.
    destruct (pos_eqb_spec k last) as [E|E].
    + subst k. specialize (IH last d). destruct (compress_from last d ks) as [p ds].
      destruct IH as (L & S1 & I1 & N1); [constructor; assumption|]. repeat split.
      * simpl. lia.
      * exact S1.
      * intros x Hx. right. apply I1. exact Hx.
      * destruct s as [|s]; simpl; [lia|]. apply N1. simpl in *. lia.
      * destruct s as [|s]; simpl in *; [lia|]. apply N1. lia.
      * destruct s as [|s]; simpl; [rewrite Nat.sub_diag; reflexivity|]. apply N1. simpl in *. lia.
    + specialize (IH k (S d) Hs). destruct (compress_from k (S d) ks) as [p ds].
      destruct IH as (L & S1 & I1 & N1).
      assert (Hlt : pos_lt last k) by (destruct Hlk; [assumption|congruence]).
      repeat split.
      * simpl. lia.
      * constructor; [exact S1|]. constructor; [exact Hlt|]. inversion S1 as [|? ? _ Hk]; subst. eapply Forall_impl; [|exact Hk].
        intros a Ha. destruct a as [a1 a2], k as [k1 k2], last as [l1 l2]. unfold pos_lt in *; simpl in *. lia.
      * intros x [Hx|Hx]; [left; exact Hx|right; apply I1; exact Hx].
      * destruct s as [|s]; simpl; [lia|]. simpl in *. specialize (N1 s ltac:(lia)). lia.
      * destruct s as [|s]; simpl in *; [lia|]. specialize (N1 s ltac:(lia)). lia.
      * destruct s as [|s]; cbn [nth].
        -- replace (S d - d) with 1 by lia. reflexivity.
        -- simpl in H0. destruct (N1 s ltac:(lia)) as [B N2]. rewrite <- N2.
           replace (nth s ds 0 - d) with (S (nth s ds 0 - S d)) by lia. reflexivity.
Qed.
Lemma compress_spec (ks : list pos) : StronglySorted pos_le ks ->
  let (p, ds) := compress ks in
  length ds = length ks /\ StronglySorted pos_lt p /\ (forall x, In x p -> In x ks) /\
  (forall s, s < length ks -> nth s ds 0 < length p /\ nth (nth s ds 0) p (0, 0) = nth s ks (0, 0)).
Proof.
  destruct ks as [|k ks]; simpl; intros H.
  - repeat split; try constructor; try contradiction; lia.
  - pose proof (compress_from_spec ks k 0 H) as S. destruct (compress_from k 0 ks) as [p ds]. destruct S as (L & S1 & I1 & N1).
    repeat split.
    + simpl. lia.
    + exact S1.
    + intros x [Hx|Hx]; [left; exact Hx|right; apply I1; exact Hx].
    + destruct s as [|s]; simpl; [lia|]. simpl in *. specialize (N1 s ltac:(lia)). lia.
    + destruct s as [|s]; cbn [nth]; [reflexivity|]. simpl in H0. destruct (N1 s ltac:(lia)) as [B N2]. rewrite Nat.sub_0_r in N2. exact N2.
Qed.
Lemma pos_lt_NoDup (p : list pos) : StronglySorted pos_lt p -> NoDup p.
Proof.
  induction 1 as [|a l Hs IH Hall]; constructor; [|exact IH]. intros Hin. rewrite Forall_forall in Hall.
  exact (pos_lt_irrefl a (Hall a Hin)).
Qed.

(** ** Mapping *)
Lemma set_nth_length {A} (l : list A) (i : nat) (x : A) : length (set_nth l i x) = length l.
Proof. revert i. induction l as [|a l IH]; intros [|i]; simpl; auto. Qed.
Lemma nth_set_same {A} (l : list A) (i : nat) (x d : A) : i < length l -> nth i (set_nth l i x) d = x.
Proof. revert i. induction l as [|a l IH]; intros [|i] H; simpl in *; try lia; [reflexivity|]. apply IH. lia. Qed.
Lemma nth_set_other {A} (l : list A) (i j : nat) (x d : A) : i <> j -> nth j (set_nth l i x) d = nth j l d.
Proof. revert i j. induction l as [|a l IH]; intros [|i] [|j] H; simpl; try reflexivity; try lia. apply IH. lia. Qed.

Definition map_all (ps : list (nat * nat)) (m : list (option nat)) : list (option nat) :=
  fold_left (fun m p => set_nth m (fst p) (Some (snd p))) ps m.
Lemma map_all_length (ps : list (nat * nat)) : forall m, length (map_all ps m) = length m.
Proof. induction ps as [|p ps IH]; intros m; simpl; [reflexivity|]. unfold map_all in *; simpl. rewrite IH. apply set_nth_length. Qed.
Lemma map_all_other (ps : list (nat * nat)) : forall m k, ~ In k (map fst ps) -> nth k (map_all ps m) None = nth k m None.
Proof.
  induction ps as [|p ps IH]; intros m k H; simpl; [reflexivity|]. unfold map_all in *; simpl. simpl in H. rewrite IH by tauto.
  apply nth_set_other. tauto.
Qed.
Lemma map_all_in (ps : list (nat * nat)) : forall m k d, NoDup (map fst ps) -> In (k, d) ps -> k < length m -> nth k (map_all ps m) None = Some d.
Proof.
  induction ps as [|[i e] ps IH]; intros m k d Hn Hin Hk; simpl in *; [contradiction|]. inversion Hn as [|? ? Hni Hn']; subst.
  unfold map_all in *; simpl. destruct Hin as [E|Hin].
  - inversion E; subst. fold (map_all ps (set_nth m k (Some d))). rewrite map_all_other by exact Hni. apply nth_set_same. exact Hk.
  - apply IH; auto. rewrite set_nth_length. exact Hk.
Qed.

(** ** Redistribution *)
Lemma add_at_length (s : list R) (i : nat) (x : R) : length (add_at s i x) = length s.
Proof. apply set_nth_length. Qed.
Lemma nth_add_at (s : list R) (i d : nat) (x : R) : i < length s ->
  nth d (add_at s i x) 0%R = (nth d s 0 + if Nat.eqb i d then x else 0)%R.
Proof.
  intros H. unfold add_at. destruct (Nat.eqb_spec i d) as [E|E].
  - subst. rewrite nth_set_same by exact H. reflexivity.
  - rewrite nth_set_other by exact E. ring.
Qed.
Definition contributes (d : nat) (p : option nat * R) : R := match fst p with Some e => if Nat.eqb e d then snd p else 0%R | None => 0%R end.
Lemma redistribute_value (ps : list (option nat * R)) : forall s d,
  (forall e x, In (Some e, x) ps -> e < length s) ->
  nth d (fold_left (fun s p => match fst p with Some d => add_at s d (snd p) | None => s end) ps s) 0%R
    = (nth d s 0 + rsum (map (contributes d) ps))%R.
Proof.
  induction ps as [|[[e|] x] ps IH]; intros s d H; cbn [fold_left map fst snd].
  - rewrite rsum_nil. ring.
  - rewrite IH.
    + rewrite rsum_cons. unfold contributes at 2; cbn [fst snd]. rewrite nth_add_at by (eapply H; left; reflexivity). ring.
    + intros e' x' Hin. rewrite add_at_length. eapply H. right. exact Hin.
  - rewrite IH.
    + rewrite rsum_cons. unfold contributes at 2; cbn [fst snd]. ring.
    + intros e' x' Hin. eapply H. right. exact Hin.
Qed.
Lemma redistribute_length (n : nat) (mapping : list (option nat)) (vals : list R) : length (redistribute n mapping vals) = n.
Proof.
  unfold redistribute.
  assert (G : forall ps s, length (fold_left (fun s p => match fst p with Some d => add_at s d (snd p) | None => s end) ps s) = length s).
  { induction ps as [|[[e|] x] ps IH]; intros s; simpl; [reflexivity| |]; rewrite IH; [apply add_at_length|reflexivity]. }
  rewrite G. apply repeat_length.
Qed.
Lemma nth_repeat0 (n d : nat) : nth d (repeat 0%R n) 0%R = 0%R.
Proof. revert d. induction n as [|n IH]; intros [|d]; simpl; auto. Qed.
Lemma rsum_combine_index (f : option nat * R -> R) (m : list (option nat)) : forall vals, length m = length vals ->
  rsum (map f (combine m vals)) = rsum (map (fun k => f (nth k m None, nth k vals 0%R)) (seq 0 (length m))).
Proof.
  induction m as [|a m IH]; intros [|b vals] H; simpl in *; try lia; [reflexivity|].
  rewrite !rsum_cons, IH by lia. f_equal. rewrite <- seq_shift, map_map. reflexivity.
Qed.

Section Build.
Variables (rows cols : list nat) (n : nat).
Let key := fun i => (nth i rows 0, nth i cols 0).
Let ok := fun i => Nat.ltb (nth i rows 0) n && Nat.ltb (nth i cols 0) n.
Let entries := filter ok (sort_entries key (seq 0 (length rows))).
Lemma entries_in (k : nat) : In k entries <-> k < length rows /\ ok k = true.
Proof.
  unfold entries. rewrite filter_In. split; intros [H1 H2]; (split; [|exact H2]).
  - apply (Permutation_in _ (Permutation_sym (sort_perm key _))) in H1. apply in_seq in H1. lia.
  - apply (Permutation_in _ (sort_perm key _)). apply in_seq. lia.
Qed.
Lemma entries_NoDup : NoDup entries.
Proof. apply NoDup_filter. apply (Permutation_NoDup (sort_perm key _)). apply seq_NoDup. Qed.
Lemma map_fst_combine' {A B} (l : list A) (m : list B) : length m = length l -> map fst (combine l m) = l.
Proof. revert m. induction l as [|a l IH]; intros [|b m] H; simpl in *; try lia; [reflexivity|]. f_equal. apply IH. lia. Qed.

Lemma build_spec :
  let (pattern, mapping) := sparse_matrix_and_mapping rows cols n false in
  length mapping = length rows /\
  StronglySorted pos_lt pattern /\
  (forall x, In x pattern -> fst x < n /\ snd x < n /\ exists k, k < length rows /\ x = (nth k rows 0, nth k cols 0)) /\
  (forall k, k < length rows -> ok k = false -> nth k mapping None = None) /\
  (forall k, k < length rows -> ok k = true -> exists d, d < length pattern /\ nth k mapping None = Some d /\ nth d pattern (0, 0) = key k).
Proof.
  unfold sparse_matrix_and_mapping. fold key. fold ok. fold entries.
  assert (Hs : StronglySorted pos_le (map key entries)) by (apply filter_sorted, sort_sorted).
  pose proof (compress_spec _ Hs) as C. destruct (compress (map key entries)) as [pattern dst]. destruct C as (Ld & Sp & Ip & Np).
  rewrite map_length in Ld, Np.
  fold (map_all (combine entries dst) (repeat None (length rows))).
  assert (F : map fst (combine entries dst) = entries) by (apply map_fst_combine'; exact Ld).
  repeat split.
  - rewrite map_all_length. apply repeat_length.
  - exact Sp.
  - apply Ip in H. apply in_map_iff in H. destruct H as (k & <- & Hk). apply entries_in in Hk. destruct Hk as [_ Hk]. unfold ok in Hk.
    apply andb_prop in Hk. destruct Hk as [Hk _]. apply Nat.ltb_lt in Hk. exact Hk.
  - apply Ip in H. apply in_map_iff in H. destruct H as (k & <- & Hk). apply entries_in in Hk. destruct Hk as [_ Hk]. unfold ok in Hk.
    apply andb_prop in Hk. destruct Hk as [_ Hk]. apply Nat.ltb_lt in Hk. exact Hk.
  - apply Ip in H. apply in_map_iff in H. destruct H as (k & <- & Hk). apply entries_in in Hk. exists k. split; [tauto|reflexivity].
  - intros k Hk Hf. rewrite map_all_other.
    + assert (G : forall m j, nth j (repeat (@None nat) m) None = None) by (induction m as [|m IH]; intros [|j]; simpl; auto). apply G.
    + rewrite F. intros Hin. apply entries_in in Hin. destruct Hin as [_ Hin]. congruence.
  - intros k Hk Ht. assert (Hin : In k entries) by (apply entries_in; auto).
    destruct (In_nth entries k 0 Hin) as (s & Hsl & Es). destruct (Np s Hsl) as [Hd Hp].
    exists (nth s dst 0). split; [exact Hd|]. split.
    + apply map_all_in.
      * rewrite F. exact entries_NoDup.
      * rewrite <- Es, <- (combine_nth entries dst s 0 0 (eq_sym Ld)). apply nth_In. rewrite combine_length. lia.
      * rewrite repeat_length. exact Hk.
    + rewrite Hp. rewrite nth_indep with (d' := key 0) by (rewrite map_length; exact Hsl). rewrite map_nth, Es. reflexivity.
Qed.
End Build.

Lemma pos_eqb_split (a b r c : nat) : pos_eqb (a, b) (r, c) = Nat.eqb a r && Nat.eqb b c.
Proof. reflexivity. Qed.

Lemma stored_entry_is_triplet_entry (rows cols : list nat) (vals : list R) (n r c : nat) :
  length vals = length rows -> r < n -> c < n ->
  let (pattern, mapping) := sparse_matrix_and_mapping rows cols n false in
  stored_entry pattern (redistribute (length pattern) mapping vals) r c = triplet_entry rows cols vals r c.
Proof.
  intros Hv Hr Hc. pose proof (build_spec rows cols n) as B.
  destruct (sparse_matrix_and_mapping rows cols n false) as [pattern mapping]. destruct B as (Lm & Sp & Ip & Mn & Ms).
  set (P := length pattern).
  assert (Hnd : NoDup pattern) by (apply pos_lt_NoDup; exact Sp).
  assert (Hval : forall d, d < P -> nth d (redistribute P mapping vals) 0%R =
     rsum (map (fun k => if pos_eqb (nth k rows 0, nth k cols 0) (nth d pattern (0, 0)) then nth k vals 0%R else 0%R) (seq 0 (length rows)))).
  { intros d Hd. unfold redistribute. rewrite redistribute_value.
    - rewrite nth_repeat0, Rplus_0_l, rsum_combine_index by lia. rewrite Lm. apply rsum_ext. intros k Hk. apply in_seq in Hk.
      unfold contributes; cbn [fst snd].
      destruct (Nat.ltb (nth k rows 0) n && Nat.ltb (nth k cols 0) n) eqn:E.
      + destruct (Ms k ltac:(lia) E) as (e & He & Me & Pe). rewrite Me.
        destruct (Nat.eqb_spec e d) as [Ed|Ed].
        * subst e. rewrite Pe. destruct (pos_eqb_spec (nth k rows 0, nth k cols 0) (nth k rows 0, nth k cols 0)); [reflexivity|congruence].
        * destruct (pos_eqb_spec (nth k rows 0, nth k cols 0) (nth d pattern (0, 0))) as [Ep|Ep]; [|reflexivity].
          exfalso. apply Ed. apply (proj1 (NoDup_nth pattern (0, 0)) Hnd e d He Hd). rewrite Pe. exact Ep.
      + rewrite (Mn k ltac:(lia) E). destruct (pos_eqb_spec (nth k rows 0, nth k cols 0) (nth d pattern (0, 0))) as [Ep|Ep]; [|reflexivity].
        exfalso. destruct (Ip (nth d pattern (0, 0)) (nth_In _ _ Hd)) as (I1 & I2 & _). rewrite <- Ep in I1, I2. cbn [fst snd] in I1, I2.
        apply Nat.ltb_lt in I1. apply Nat.ltb_lt in I2. rewrite I1, I2 in E. discriminate.
    - intros e x Hin. rewrite repeat_length. apply in_combine_l in Hin. destruct (In_nth mapping (Some e) None Hin) as (k & Hk & Ek).
      rewrite Lm in Hk. destruct (Nat.ltb (nth k rows 0) n && Nat.ltb (nth k cols 0) n) eqn:E.
      + destruct (Ms k Hk E) as (e' & He' & Me & _). rewrite Ek in Me. inversion Me; subst. exact He'.
      + rewrite (Mn k Hk E) in Ek. discriminate. }
  unfold stored_entry, triplet_entry. fold P.
  destruct (in_dec (fun a b : pos => reflect_dec _ _ (pos_eqb_spec a b)) (r, c) pattern) as [Hin|Hnin].
  - destruct (In_nth pattern (r, c) (0, 0) Hin) as (d0 & Hd0 & E0).
    rewrite (rsum_ext _ (fun d => if Nat.eqb d d0 then nth d (redistribute P mapping vals) 0%R else 0%R)).
    + rewrite rsum_seq_single by exact Hd0. rewrite Hval by exact Hd0. rewrite E0. reflexivity.
    + intros d Hd. apply in_seq in Hd. destruct (pos_eqb_spec (nth d pattern (0, 0)) (r, c)) as [E|E]; destruct (Nat.eqb_spec d d0) as [E2|E2]; try reflexivity.
      * exfalso. apply E2. apply (proj1 (NoDup_nth pattern (0, 0)) Hnd d d0); [lia|exact Hd0|congruence].
      * subst. contradiction.
  - rewrite rsum_zero.
    + symmetry. apply rsum_zero. intros k Hk. apply in_seq in Hk. rewrite <- pos_eqb_split.
      destruct (pos_eqb_spec (nth k rows 0, nth k cols 0) (r, c)) as [E|E]; [|reflexivity].
      exfalso. inversion E as [[E1 E2]]. destruct (Ms k ltac:(lia)) as (d & Hd & _ & Pd).
      { rewrite E1, E2. apply Nat.ltb_lt in Hr. apply Nat.ltb_lt in Hc. rewrite Hr, Hc. reflexivity. }
      apply Hnin. rewrite <- E, <- Pd. apply nth_In. exact Hd.
    + intros d Hd. apply in_seq in Hd. destruct (pos_eqb_spec (nth d pattern (0, 0)) (r, c)) as [E|E]; [|reflexivity].
      exfalso. apply Hnin. rewrite <- E. apply nth_In. unfold P in Hd. lia.
Qed.

Lemma assembly_transpose (rows cols : list nat) (n : nat) :
  sparse_matrix_and_mapping rows cols n true = sparse_matrix_and_mapping cols rows n false.
Proof. reflexivity. Qed.

Lemma assembly_pattern (rows cols : list nat) (n : nat) :
  let (pattern, mapping) := sparse_matrix_and_mapping rows cols n false in
  length mapping = length rows /\ StronglySorted pos_lt pattern /\ NoDup pattern /\
  (forall r c, In (r, c) pattern <-> r < n /\ c < n /\ exists k, k < length rows /\ nth k rows 0 = r /\ nth k cols 0 = c).
Proof.
  pose proof (build_spec rows cols n) as B. destruct (sparse_matrix_and_mapping rows cols n false) as [pattern mapping].
  destruct B as (Lm & Sp & Ip & Mn & Ms). split; [exact Lm|]. split; [exact Sp|]. split; [apply pos_lt_NoDup; exact Sp|].
  intros r c. split.
  - intros H. destruct (Ip _ H) as (H1 & H2 & k & Hk & E). inversion E; subst. split; [exact H1|]. split; [exact H2|]. exists k. auto.
  - intros (Hr & Hc & k & Hk & E1 & E2). destruct (Ms k Hk) as (d & Hd & _ & Pd).
    { rewrite E1, E2. apply Nat.ltb_lt in Hr. apply Nat.ltb_lt in Hc. rewrite Hr, Hc. reflexivity. }
    rewrite E1, E2 in Pd. rewrite <- Pd. apply nth_In. exact Hd.
Qed.

Lemma assembly_transposed_entry (rows cols : list nat) (vals : list R) (n r c : nat) :
  length vals = length cols -> length rows = length cols -> r < n -> c < n ->
  let (pattern, mapping) := sparse_matrix_and_mapping rows cols n true in
  stored_entry pattern (redistribute (length pattern) mapping vals) r c = triplet_entry rows cols vals c r.
Proof.
  intros Hv Hl Hr Hc. rewrite assembly_transpose. pose proof (stored_entry_is_triplet_entry cols rows vals n r c Hv Hr Hc) as E.
  destruct (sparse_matrix_and_mapping cols rows n false) as [pattern mapping]. rewrite E. unfold triplet_entry. rewrite Hl.
  apply rsum_ext. intros k _. rewrite andb_comm. reflexivity.
Qed.
