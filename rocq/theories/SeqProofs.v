(** Lemmas about remapping and masks. *)
From Coq Require Import List Arith Lia Sorting.Sorted.
From Verif Require Import SeqModel.
Import ListNotations.

(** ** Remap *)
Section Remap.
Context {T : Type}.
Definition lookup_old (old : list (T * nat)) (i : nat) : option T :=
  option_map fst (find (fun p => Nat.eqb (snd p) i) old).
Lemma lookup_none (old : list (T * nat)) (i : nat) : (forall p, In p old -> snd p <> i) -> lookup_old old i = None.
Proof.
  intros H. unfold lookup_old. induction old as [|p old IH]; simpl; [reflexivity|].
  destruct (Nat.eqb_spec (snd p) i); [exfalso; apply (H p); simpl; auto|]. apply IH. intros q Hq. apply H. right. exact Hq.
Qed.
Definition val_or (d : T) (o : option T) : T := match o with Some v => v | None => d end.

Lemma remap_step_spec (d : T) : forall old i, StronglySorted lt (map snd old) ->
  fst (remap_step d old i) = val_or d (lookup_old old i) /\
  StronglySorted lt (map snd (snd (remap_step d old i))) /\
  (forall j, i < j -> lookup_old (snd (remap_step d old i)) j = lookup_old old j).
Proof.
  induction old as [|[v o] old IH]; intros i Hs; simpl.
  - repeat split; constructor.
  - inversion Hs as [|? ? Hs' Hall]; subst. rewrite Forall_forall in Hall.
    assert (Hgt : forall p, In p old -> o < snd p) by (intros p Hp; apply Hall; apply in_map; exact Hp).
    destruct (Nat.ltb_spec o i) as [Hlt|Hge].
    + destruct (IH i Hs') as (E1 & E2 & E3). repeat split; [|exact E2|].
      * rewrite E1. unfold lookup_old; simpl. destruct (Nat.eqb_spec o i); [lia|reflexivity].
      * intros j Hj. rewrite E3 by exact Hj. unfold lookup_old; simpl. destruct (Nat.eqb_spec o j); [lia|reflexivity].
    + destruct (Nat.eqb_spec o i) as [He|Hne]; simpl.
      * subst. split; [|split; [exact Hs'|]].
        -- unfold lookup_old; simpl. rewrite Nat.eqb_refl. reflexivity.
        -- intros j Hj. unfold lookup_old; simpl. destruct (Nat.eqb_spec i j); [lia|reflexivity].
      * split; [|split; [exact Hs|reflexivity]].
        rewrite lookup_none; [reflexivity|]. intros p [Hp|Hp]; [subst; simpl; lia|]. pose proof (Hgt p Hp). lia.
Qed.
Lemma remap_loop_spec (d : T) : forall new old, StronglySorted lt (map snd old) -> StronglySorted lt new ->
  remap_loop d old new = map (fun i => val_or d (lookup_old old i)) new.
Proof.
  induction new as [|n new IH]; intros old Ho Hn; simpl; [reflexivity|].
  inversion Hn as [|? ? Hn' Hall]; subst. rewrite Forall_forall in Hall.
  destruct (remap_step_spec d old n Ho) as (E1 & E2 & E3). destruct (remap_step d old n) as [v old'] eqn:E. simpl in *.
  rewrite E1. f_equal. rewrite (IH old' E2 Hn'). apply map_ext_in. intros i Hi. rewrite E3 by (apply Hall; exact Hi). reflexivity.
Qed.
Lemma map_snd_combine {A B} (l : list A) (m : list B) : length l = length m -> map snd (combine l m) = m.
Proof. revert m. induction l as [|a l IH]; intros [|b m] H; simpl in *; try lia; [reflexivity|]. f_equal. apply IH. lia. Qed.
Lemma lookup_combine (values : list T) (olds : list nat) (k : nat) (d : T) : length values = length olds -> NoDup olds ->
  k < length olds -> lookup_old (combine values olds) (nth k olds 0) = Some (nth k values d).
Proof.
  revert olds k. induction values as [|v values IH]; intros [|o olds] k Hl Hn Hk; simpl in *; try lia.
  inversion Hn as [|? ? Hni Hn']; subst. unfold lookup_old; simpl. destruct k as [|k].
  - rewrite Nat.eqb_refl. reflexivity.
  - destruct (Nat.eqb_spec o (nth k olds 0)) as [E|E].
    + exfalso. apply Hni. rewrite E. apply nth_In. lia.
    + apply IH; auto; lia.
Qed.
Lemma SSorted_NoDup (l : list nat) : StronglySorted lt l -> NoDup l.
Proof.
  induction 1 as [|a l Hs IH Hall]; constructor; [|exact IH]. intros Hin. rewrite Forall_forall in Hall. specialize (Hall a Hin). lia.
Qed.
Lemma remap_correct (values : list T) (d : T) (olds news : list nat) :
  length values = length olds -> StronglySorted lt olds -> StronglySorted lt news ->
  length (remap_values values d olds news) = length news /\
  (forall j k, j < length news -> k < length olds -> nth j news 0 = nth k olds 0 ->
     nth j (remap_values values d olds news) d = nth k values d) /\
  (forall j, j < length news -> ~ In (nth j news 0) olds -> nth j (remap_values values d olds news) d = d).
Proof.
  intros Hl Ho Hn. unfold remap_values.
  assert (Hs : StronglySorted lt (map snd (combine values olds))) by (rewrite map_snd_combine; assumption).
  rewrite remap_loop_spec by assumption. set (f := fun i => val_or d (lookup_old (combine values olds) i)).
  assert (Hnth : forall j, j < length news -> nth j (map f news) d = f (nth j news 0)).
  { intros j Hj. rewrite nth_indep with (d' := f 0) by (rewrite map_length; exact Hj). apply map_nth. }
  split; [apply map_length|]. split.
  - intros j k Hj Hk E. rewrite Hnth by exact Hj. unfold f. rewrite E, (lookup_combine values olds k d Hl (SSorted_NoDup _ Ho) Hk). reflexivity.
  - intros j Hj Hnin. rewrite Hnth by exact Hj. unfold f. rewrite lookup_none; [reflexivity|].
    intros [v o] Hp E. simpl in E. subst o. apply in_combine_r in Hp. contradiction.
Qed.
End Remap.

(** ** Masks *)
Section Mask.
Context {T : Type}.
Definition kept (xs : list T) (ms : list bool) : list T := map fst (filter snd (combine xs ms)).
Lemma filter_next_spec : forall (xs : list T) (ms : list bool),
  match filter_next xs ms with
  | (Some x, (xs', ms')) => kept xs ms = x :: kept xs' ms' /\ length ms' < length ms
  | (None, _) => kept xs ms = []
  end.
Proof.
  unfold kept. induction xs as [|x xs IH]; intros [|m ms]; simpl; try reflexivity. destruct m; simpl; [split; [reflexivity|lia]|].
  specialize (IH ms). destruct (filter_next xs ms) as [[y|] [xs' ms']]; [|exact IH]. destruct IH as [E L]. split; [exact E|lia].
Qed.
Lemma filter_collect : forall fuel (xs : list T) (ms : list bool), length ms <= fuel -> collect filter_next fuel xs ms = kept xs ms.
Proof.
  induction fuel as [|fuel IH]; intros xs ms H; simpl.
  - destruct ms; simpl in H; [|lia]. destruct xs; reflexivity.
  - pose proof (filter_next_spec xs ms) as S. destruct (filter_next xs ms) as [[y|] [xs' ms']]; [|symmetry; exact S].
    destruct S as [E L]. rewrite E, IH by lia. reflexivity.
Qed.
(** Pure form of the distribution. *)
Fixpoint spread (d : T) (xs : list T) (ms : list bool) : list T :=
  match ms with
  | [] => []
  | true :: ms' => match xs with [] => [] | x :: xs' => x :: spread d xs' ms' end
  | false :: ms' => d :: spread d xs ms'
  end.
Lemma distribute_collect (d : T) : forall fuel (xs : list T) (ms : list bool), length ms <= fuel ->
  collect (distribute_next d) fuel xs ms = spread d xs ms.
Proof.
  induction fuel as [|fuel IH]; intros xs ms H; simpl.
  - destruct ms; simpl in H; [reflexivity|lia].
  - destruct ms as [|[] ms]; simpl in *; [reflexivity| |]; [destruct xs as [|x xs]; [reflexivity|]|]; rewrite IH by lia; reflexivity.
Qed.
Lemma spread_kept (d : T) : forall (ms : list bool) (xs : list T),
  (length ms <= length xs -> length (spread d (kept xs ms) ms) = length ms) /\
  (forall i, i < length (spread d (kept xs ms) ms) ->
     nth i (spread d (kept xs ms) ms) d = if nth i ms false then nth i xs d else d) /\
  length (spread d (kept xs ms) ms) <= length ms.
Proof.
  induction ms as [|m ms IH]; intros xs.
  - simpl. repeat split; try lia.
  - destruct xs as [|x xs].
    + change (kept [] (m :: ms)) with (@nil T). destruct m; simpl.
      * repeat split; try lia.
      * destruct (IH []) as (H1 & H2 & H3). change (kept [] ms) with (@nil T) in *. split; [lia|split; [|lia]].
        intros [|i] Hi; [reflexivity|]. rewrite H2 by (simpl in Hi; lia). destruct i; reflexivity.
    + destruct (IH xs) as (H1 & H2 & H3). destruct m.
      * change (kept (x :: xs) (true :: ms)) with (x :: kept xs ms). simpl. split; [intros; rewrite H1; lia|split; [|lia]].
        intros [|i] Hi; [reflexivity|]. apply H2. simpl in Hi. lia.
      * change (kept (x :: xs) (false :: ms)) with (kept xs ms). simpl. split; [intros; rewrite H1; lia|split; [|lia]].
        intros [|i] Hi; [reflexivity|]. apply H2. simpl in Hi. lia.
Qed.
Lemma kept_spread (d : T) : forall (ms : list bool) (ys : list T), length ys = count_occ Bool.bool_dec ms true ->
  kept (spread d ys ms) ms = ys.
Proof.
  unfold kept. induction ms as [|m ms IH]; intros ys H; simpl in *.
  - destruct ys; [reflexivity|discriminate].
  - destruct m; simpl in *.
    + destruct ys as [|y ys]; [discriminate|]. simpl. f_equal. apply IH. simpl in H; lia.
    + apply IH. exact H.
Qed.
End Mask.
