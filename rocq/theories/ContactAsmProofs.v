(** Lemmas about the assembly of sparse block matrices. *)
From Coq Require Import Reals List Arith Bool Lia Lra Sorting.Sorted Permutation.
From Verif Require Import Vec3 Mat3 RList KernelModel FieldModel FieldProofs NeighborModel NeighborProofs SurfJacModel ContactMapModel ContactMapSpec ContactMapProofs
  AssemblyModel AssemblySpec AssemblyProofs ContactAsmModel ContactAsmSpec.
Import ListNotations.

Section Generic.
Variables (A : Type) (add : A -> A -> A) (zero : A).
Hypothesis CM : comm_monoid add zero.
Definition asum (l : list A) : A := fold_right add zero l.
Lemma zero_r x : add x zero = x.
Proof. rewrite (cm_comm _ _ CM). apply (cm_zero _ _ CM). Qed.
Lemma asum_app l m : asum (l ++ m) = add (asum l) (asum m).
Proof. induction l as [|a l IH]; cbn [app asum fold_right]; [symmetry; apply (cm_zero _ _ CM)|]. fold (asum (l ++ m)). fold (asum l). rewrite IH. apply (cm_assoc _ _ CM). Qed.
Lemma asum_perm l m : Permutation l m -> asum l = asum m.
Proof.
  induction 1 as [|a l m _ IH|a b l|l m n _ IH1 _ IH2]; cbn [asum fold_right] in *; [reflexivity| | |].
  - f_equal. exact IH.
  - rewrite !(cm_assoc _ _ CM). f_equal. apply (cm_comm _ _ CM).
  - unfold asum in *. congruence.
Qed.
Lemma asum_ext {I} (f g : I -> A) l : (forall i, In i l -> f i = g i) -> asum (map f l) = asum (map g l).
Proof. intros H. f_equal. apply map_ext_in. exact H. Qed.
Lemma asum_filter {I} (p : I -> bool) (f : I -> A) l : (forall i, In i l -> p i = false -> f i = zero) -> asum (map f (filter p l)) = asum (map f l).
Proof.
  induction l as [|a l IH]; intros H; [reflexivity|]. cbn [filter]. assert (IH' := IH (fun i Hi => H i (or_intror Hi))). destruct (p a) eqn:E; cbn [map asum fold_right].
  - fold (asum (map f (filter p l))). rewrite IH'. reflexivity.
  - rewrite IH'. rewrite (H a (or_introl eq_refl) E). symmetry. apply (cm_zero _ _ CM).
Qed.
Definition part (d : nat) (p : option nat * A) : A := match fst p with Some e => if Nat.eqb e d then snd p else zero | None => zero end.
Lemma put_length s d x : length (put add zero s d x) = length s.
Proof. apply set_nth_length. Qed.
Lemma nth_put s e d x : e < length s -> nth d (put add zero s e x) zero = add (nth d s zero) (if Nat.eqb e d then x else zero).
Proof.
  intros H. unfold put. destruct (Nat.eqb_spec e d) as [->|N].
  - rewrite nth_set_same by exact H. reflexivity.
  - rewrite nth_set_other by exact N. symmetry. apply zero_r.
Qed.
Lemma accumulate_fold (l : list (option nat * A)) : forall s, length (fold_left (fun s p => match fst p with Some d => put add zero s d (snd p) | None => s end) l s) = length s.
Proof. induction l as [|[[e|] x] l IH]; intros s; cbn [fold_left fst snd]; [reflexivity| |apply IH]. rewrite IH. apply put_length. Qed.
Lemma accumulate_length n l : length (accumulate add zero n l) = n.
Proof. unfold accumulate. rewrite accumulate_fold. apply repeat_length. Qed.
Lemma accumulate_value (l : list (option nat * A)) : forall s d, (forall e x, In (Some e, x) l -> e < length s) ->
  nth d (fold_left (fun s p => match fst p with Some d => put add zero s d (snd p) | None => s end) l s) zero = add (nth d s zero) (asum (map (part d) l)).
Proof.
  induction l as [|[[e|] x] l IH]; intros s d H; cbn [fold_left map fst snd asum fold_right]; try match goal with l0 : list (option nat * A) |- _ => fold (asum (map (part d) l0)) end.
  - symmetry. apply zero_r.
  - rewrite IH; [|intros e' x' Hin; rewrite put_length; eapply H; right; exact Hin]. rewrite nth_put by (eapply H; left; reflexivity). unfold part at 2. cbn [fst snd].
    symmetry. apply (cm_assoc _ _ CM).
  - rewrite IH by (intros e' x' Hin; eapply H; right; exact Hin). unfold part at 2. cbn [fst snd]. rewrite (cm_zero _ _ CM). reflexivity.
Qed.
Lemma nth_repeat_zero n d : nth d (repeat zero n) zero = zero.
Proof. revert d. induction n as [|n IH]; intros [|d]; simpl; auto. Qed.
Lemma accumulate_nth n l d : (forall e x, In (Some e, x) l -> e < n) -> nth d (accumulate add zero n l) zero = asum (map (part d) l).
Proof. intros H. unfold accumulate. rewrite accumulate_value by (intros e x Hin; rewrite repeat_length; eapply H; exact Hin). rewrite nth_repeat_zero. apply (cm_zero _ _ CM). Qed.
Lemma list_ext (l m : list A) : length l = length m -> (forall d, d < length l -> nth d l zero = nth d m zero) -> l = m.
Proof. intros H1 H2. apply (nth_ext l m zero zero H1 H2). Qed.

(** A place of the list of triplets. *)
Lemma place_index (T : list (pos * A)) p : at_place add zero T p =
  asum (map (fun i => if pos_eqb (nth i (map fst T) (0, 0)) p then nth i (map snd T) zero else zero) (seq 0 (length T))).
Proof.
  unfold at_place. fold (asum (map snd (filter (fun e : pos * A => (fst (fst e) =? fst p) && (snd (fst e) =? snd p)) T))).
  rewrite <- (map_length fst T). induction T as [|[k b] T IH]; [reflexivity|]. cbn [filter fst snd map length seq]. rewrite <- seq_shift, map_map. cbn [nth asum fold_right].
  match goal with |- _ = add _ ?y => match type of IH with _ = ?z => change y with z end end. rewrite <- IH. unfold pos_eqb.
  destruct ((fst k =? fst p) && (snd k =? snd p)); cbn [map asum fold_right snd]; [reflexivity|]. rewrite (cm_zero _ _ CM). reflexivity.
Qed.

Section Build.
Variables (keep : pos -> bool) (T : list (pos * A)).
Let key := fun i => nth i (map fst T) (0, 0).
Let blk := fun i => nth i (map snd T) zero.
Let ok := fun i => keep (key i).
Let entries := filter ok (sort_entries key (seq 0 (length T))).
Lemma entries_mem (k : nat) : In k entries <-> k < length T /\ ok k = true.
Proof.
  unfold entries. rewrite filter_In. split; intros [H1 H2]; (split; [|exact H2]).
  - apply (Permutation_in _ (Permutation_sym (sort_perm key _))) in H1. apply in_seq in H1. lia.
  - apply (Permutation_in _ (sort_perm key _)). apply in_seq. lia.
Qed.
Lemma entries_once : NoDup entries.
Proof. apply NoDup_filter. apply (Permutation_NoDup (sort_perm key _)). apply seq_NoDup. Qed.
Definition built (m : mapped A) : Prop :=
  length (mp_mapping m) = length T /\ StronglySorted pos_lt (mp_pattern m) /\
  (forall p, In p (mp_pattern m) <-> keep p = true /\ In p (map fst T)) /\
  (forall k, k < length T -> keep (key k) = false -> nth k (mp_mapping m) None = None) /\
  (forall k, k < length T -> keep (key k) = true -> exists d, d < length (mp_pattern m) /\ nth k (mp_mapping m) None = Some d /\ nth d (mp_pattern m) (0, 0) = key k) /\
  length (mp_blocks m) = length (mp_pattern m) /\
  (forall d, d < length (mp_pattern m) -> nth d (mp_blocks m) zero = at_place add zero T (nth d (mp_pattern m) (0, 0))).
Lemma build_correct : built (from_triplets add zero keep T).
Proof.
  unfold from_triplets. cbv zeta. fold key. fold blk. change (fun i : nat => keep (nth i (map fst T) (0, 0))) with ok. fold entries.
  assert (Hs : StronglySorted pos_le (map key entries)) by (apply filter_sorted, sort_sorted).
  pose proof (compress_spec _ Hs) as C. destruct (compress (map key entries)) as [pattern dst]. destruct C as (Ld & Sp & Ip & Np).
  rewrite map_length in Ld, Np. unfold built. cbn [mp_mapping mp_pattern mp_blocks].
  fold (map_all (combine entries dst) (repeat None (length T))).
  assert (F : map fst (combine entries dst) = entries) by (apply map_fst_combine'; exact Ld).
  assert (KE : forall s, s < length entries -> nth (nth s dst 0) pattern (0, 0) = key (nth s entries 0)).
  { intros s Hs'. destruct (Np s Hs') as [_ Hp]. rewrite Hp. rewrite nth_indep with (d' := key 0) by (rewrite map_length; exact Hs'). apply map_nth. }
  assert (MS : forall k, k < length T -> ok k = true -> exists d, d < length pattern /\ nth k (map_all (combine entries dst) (repeat None (length T))) None = Some d /\ nth d pattern (0, 0) = key k).
  { intros k Hk Ht. assert (Hin : In k entries) by (apply entries_mem; auto).
    destruct (In_nth entries k 0 Hin) as (s & Hsl & Es). destruct (Np s Hsl) as [Hd Hp].
    exists (nth s dst 0). split; [exact Hd|]. split; [|rewrite KE, Es by exact Hsl; reflexivity]. apply map_all_in.
    - rewrite F. exact entries_once.
    - rewrite <- Es, <- (combine_nth entries dst s 0 0 (eq_sym Ld)). apply nth_In. rewrite combine_length. lia.
    - rewrite repeat_length. exact Hk. }
  refine (conj _ (conj Sp (conj _ (conj _ (conj MS (conj _ _)))))).
  - rewrite map_all_length. apply repeat_length.
  - intros p. split.
    + intros H. apply Ip in H. apply in_map_iff in H. destruct H as (k & <- & Hk). apply entries_mem in Hk. destruct Hk as [Hk Ho]. split; [exact Ho|].
      unfold key. apply nth_In. rewrite map_length. exact Hk.
    + intros [Hk Hin]. destruct (In_nth _ _ (0, 0) Hin) as (k & Hl & E). rewrite map_length in Hl. assert (E' : key k = p) by exact E. destruct (MS k Hl) as (d & Hd & _ & Pd); [unfold ok; rewrite E'; exact Hk|].
      rewrite E' in Pd. rewrite <- Pd. apply nth_In. exact Hd.
  - intros k Hk Hf. rewrite map_all_other.
    + assert (G : forall m j, nth j (repeat (@None nat) m) None = None) by (induction m as [|m IH]; intros [|j]; simpl; auto). apply G.
    + rewrite F. intros Hin. apply entries_mem in Hin. destruct Hin as [_ Hin]. unfold ok in Hin. congruence.
  - apply accumulate_length.
  - intros d Hd. rewrite accumulate_nth.
    2:{ intros e x Hin. apply in_combine_l in Hin. apply in_map_iff in Hin. destruct Hin as (e' & E & Hin). injection E as ->. destruct (In_nth _ _ 0 Hin) as (s & Hsl & Es).
        rewrite Ld in Hsl. destruct (Np s Hsl) as [B _]. rewrite Es in B. exact B. }
    assert (ND : NoDup pattern) by (apply pos_lt_NoDup; exact Sp).
    rewrite place_index. fold key. fold blk.
    transitivity (asum (map (fun i => if pos_eqb (key i) (nth d pattern (0, 0)) then blk i else zero) entries)).
    + assert (G : forall (es ds : list nat), length ds = length es -> (forall s, s < length es -> nth s ds 0 < length pattern /\ nth (nth s ds 0) pattern (0, 0) = key (nth s es 0)) ->
        map (part d) (combine (map Some ds) (map blk es)) = map (fun i => if pos_eqb (key i) (nth d pattern (0, 0)) then blk i else zero) es).
      { induction es as [|e es IH]; intros [|x ds] L N; simpl in L; try lia; [reflexivity|]. cbn [map combine]. f_equal.
        - destruct (N 0 ltac:(simpl; lia)) as [N1 N2]. cbn [nth] in N1, N2. unfold part. cbn [fst snd]. destruct (Nat.eqb_spec x d) as [->|NE].
          + rewrite N2. destruct (pos_eqb_spec (key e) (key e)); [reflexivity|congruence].
          + destruct (pos_eqb_spec (key e) (nth d pattern (0, 0))) as [Q|Q]; [|reflexivity]. exfalso. apply NE. apply (proj1 (NoDup_nth pattern (0, 0)) ND x d N1 Hd). congruence.
        - apply IH; [lia|]. intros s Hs'. exact (N (S s) ltac:(simpl; lia)). }
      f_equal. apply G; [exact Ld|]. intros s Hs'. split; [apply (Np s Hs')|apply KE; exact Hs'].
    + unfold entries. rewrite asum_filter.
      * apply asum_perm. apply Permutation_map. apply Permutation_sym, sort_perm.
      * intros i _ Hf. destruct (pos_eqb_spec (key i) (nth d pattern (0, 0))) as [Q|Q]; [|reflexivity]. exfalso.
        assert (Hin : In (nth d pattern (0, 0)) pattern) by (apply nth_In; exact Hd). apply Ip in Hin. apply in_map_iff in Hin. destruct Hin as (k & E & Hk). apply entries_mem in Hk.
        destruct Hk as [_ Hk]. unfold ok in Hf, Hk. rewrite E, <- Q in Hk. congruence.
Qed.
End Build.

Lemma from_triplets_shape keep T T' : map fst T' = map fst T -> mp_pattern (from_triplets add zero keep T') = mp_pattern (from_triplets add zero keep T) /\
  mp_mapping (from_triplets add zero keep T') = mp_mapping (from_triplets add zero keep T).
Proof.
  intros E. unfold from_triplets. rewrite E. assert (L : length T' = length T) by (rewrite <- (map_length fst T'), E; apply map_length). rewrite L.
  match goal with |- context [compress ?x] => destruct (compress x) as [pattern dst] end. split; reflexivity.
Qed.
Lemma mapping_range keep T k d : nth k (mp_mapping (from_triplets add zero keep T)) None = Some d -> d < length (mp_blocks (from_triplets add zero keep T)).
Proof.
  intros H. pose proof (build_correct keep T) as (LM & _ & _ & MN & MS & LB & _). rewrite LB. destruct (Nat.lt_ge_cases k (length T)) as [Hk|Hk].
  - destruct (keep (nth k (map fst T) (0, 0))) eqn:E.
    + destruct (MS k Hk E) as (d' & Hd & M & _). rewrite H in M. injection M as <-. exact Hd.
    + rewrite (MN k Hk E) in H. discriminate.
  - rewrite nth_overflow in H by lia. discriminate.
Qed.
Lemma update_defined keep T bs : exists bl, update_values add zero (from_triplets add zero keep T) bs =
  Some (Mapped (mp_pattern (from_triplets add zero keep T)) bl (mp_mapping (from_triplets add zero keep T))) /\
  bl = accumulate add zero (length (mp_blocks (from_triplets add zero keep T))) (combine (mp_mapping (from_triplets add zero keep T)) bs).
Proof.
  unfold update_values. match goal with |- context [if ?c then _ else _] => assert (E : c = true) end.
  - apply forallb_forall. intros [[d|] x] Hin; [|reflexivity]. cbn [fst]. apply Nat.ltb_lt. apply in_combine_l in Hin. destruct (In_nth _ _ None Hin) as (k & _ & E). exact (mapping_range _ _ _ _ E).
  - rewrite E. eexists. split; reflexivity.
Qed.
Lemma asum_combine (f : option nat * A -> A) (m : list (option nat)) : forall bs, length m = length bs ->
  asum (map f (combine m bs)) = asum (map (fun k => f (nth k m None, nth k bs zero)) (seq 0 (length m))).
Proof.
  induction m as [|a m IH]; intros [|b bs] H; simpl in H; try lia; [reflexivity|]. cbn [combine map length seq asum fold_right nth]. fold (asum (map f (combine m bs))). rewrite IH by lia. f_equal.
  rewrite <- seq_shift, map_map. reflexivity.
Qed.
Lemma refresh_is_rebuild keep T T' : map fst T' = map fst T -> update_values add zero (from_triplets add zero keep T) (map snd T') = Some (from_triplets add zero keep T').
Proof.
  intros E. destruct (update_defined keep T (map snd T')) as (bl & U & EB). rewrite U. f_equal. destruct (from_triplets_shape keep T T' E) as [EP EM].
  pose proof (build_correct keep T) as (LM & SP & IP & MN & MS & LB & _). pose proof (build_correct keep T') as (_ & _ & _ & _ & _ & LB' & BV').
  assert (LT : length T' = length T) by (rewrite <- (map_length fst T'), E; apply map_length).
  assert (ND : NoDup (mp_pattern (from_triplets add zero keep T))) by (apply pos_lt_NoDup; exact SP).
  destruct (from_triplets add zero keep T') as [p' b' m'] eqn:Q'. cbn [mp_pattern mp_blocks mp_mapping] in *. subst p' m'. f_equal. subst bl.
  apply list_ext; [rewrite accumulate_length; congruence|]. intros d Hd. rewrite accumulate_length, LB in Hd. rewrite BV' by exact Hd. rewrite accumulate_nth.
  2:{ intros e x Hin. apply in_combine_l in Hin. destruct (In_nth _ _ None Hin) as (k & _ & K). exact (mapping_range _ _ _ _ K). }
  rewrite asum_combine by (rewrite map_length; lia). rewrite place_index, E, LM, LT. apply asum_ext. intros k Hk. apply in_seq in Hk. unfold part. cbn [fst snd].
  destruct (keep (nth k (map fst T) (0, 0))) eqn:K.
  - destruct (MS k ltac:(lia) K) as (e & He & Me & Pe). rewrite Me. destruct (Nat.eqb_spec e d) as [->|NE].
    + rewrite Pe. destruct (pos_eqb_spec (nth k (map fst T) (0, 0)) (nth k (map fst T) (0, 0))); [reflexivity|congruence].
    + destruct (pos_eqb_spec (nth k (map fst T) (0, 0)) (nth d (mp_pattern (from_triplets add zero keep T)) (0, 0))) as [Q|Q]; [|reflexivity].
      exfalso. apply NE. apply (proj1 (NoDup_nth _ (0, 0)) ND e d He Hd). exact (eq_trans Pe Q).
  - rewrite (MN k ltac:(lia) K). destruct (pos_eqb_spec (nth k (map fst T) (0, 0)) (nth d (mp_pattern (from_triplets add zero keep T)) (0, 0))) as [Q|Q]; [|reflexivity].
    exfalso. assert (Hin : In (nth d (mp_pattern (from_triplets add zero keep T)) (0, 0)) (mp_pattern (from_triplets add zero keep T))) by (apply nth_In; exact Hd).
    apply IP in Hin. rewrite <- Q in Hin. destruct Hin as [Hin _]. change (keep (nth k (map fst T) (0, 0)) = true) in Hin. rewrite K in Hin. discriminate.
Qed.
End Generic.

Ltac dv v := let a := fresh "c" in let b := fresh "c" in let d := fresh "c" in destruct v as [a b d].
Ltac dm B := let a := fresh "c" in let b := fresh "c" in let d := fresh "c" in destruct B as [a b d]; dv a; dv b; dv d.
(** ** The reverse map *)
Lemma reverse_fold (l : list nat) : forall s m, fold_left (fun m p => set_nth m (snd p) (Some (fst p))) (combine (seq s (length l)) l) m = map_all (combine l (seq s (length l))) m.
Proof. induction l as [|a l IH]; intros s m; cbn [length seq combine fold_left]; [reflexivity|]. rewrite IH. reflexivity. Qed.
Lemma reverse_map_spec n active : NoDup active -> (forall a, In a active -> a < n) -> exists inv, reverse_map n active = Some inv /\ length inv = n /\
  (forall r k, nth r inv None = Some k <-> nth_error active k = Some r).
Proof.
  intros ND R. unfold reverse_map. match goal with |- context [if ?c then _ else _] => assert (E : c = true) end.
  { apply forallb_forall. intros a I. apply Nat.ltb_lt, R, I. }
  rewrite E. eexists. split; [reflexivity|]. unfold enumerate. rewrite reverse_fold. split; [rewrite map_all_length; apply repeat_length|].
  assert (F : map fst (combine active (seq 0 (length active))) = active) by (apply map_fst_combine'; apply seq_length).
  assert (IN : forall r k, nth_error active k = Some r -> nth r (map_all (combine active (seq 0 (length active))) (repeat None n)) None = Some k).
  { intros r k H. assert (K : k < length active) by (apply nth_error_Some; congruence). apply map_all_in.
    - rewrite F. exact ND.
    - assert (Q : nth k (combine active (seq 0 (length active))) (0, 0) = (r, k)) by (rewrite combine_nth by (rewrite seq_length; reflexivity); rewrite (nth_error_nth _ _ 0 H), seq_nth by exact K; reflexivity).
      rewrite <- Q. apply nth_In. rewrite combine_length, seq_length. lia.
    - rewrite repeat_length. apply R. eapply nth_error_In, H. }
  intros r k. split; [|apply IN]. intros H. destruct (in_dec Nat.eq_dec r active) as [I|I].
  - destruct (In_nth_error _ _ I) as [k' K]. assert (J := IN r k' K). rewrite J in H. injection H as <-. exact K.
  - exfalso. rewrite map_all_other in H by (rewrite F; exact I). assert (G : forall m j, nth j (repeat (@None nat) m) None = None) by (induction m as [|m IHm]; intros [|j]; simpl; auto). rewrite G in H. discriminate.
Qed.

(** ** Selections *)
Local Open Scope R_scope.
Definition chosen (inv : list (option nat)) (f : nat -> nat) (e : nat * nat * m3) : list (nat * nat * m3) :=
  let '(row, col, B) := e in match nth row inv None with Some i => [(i, f col, B)] | None => [] end.
Lemma chosen_product inv f x active : (forall r k, nth r inv None = Some k <-> nth_error active k = Some r) -> forall k L, (k < length active)%nat ->
  block_product (flat_map (chosen inv f) L) x k = block_product L (fun c => x (f c)) (nth k active 0%nat).
Proof.
  intros IN k L K. assert (AK : nth_error active k = Some (nth k active 0%nat)) by (apply nth_error_nth'; exact K).
  induction L as [|[[row col] B] L IH]; [reflexivity|]. cbn [flat_map]. rewrite block_app, IH. unfold block_product at 3. cbn [map]. rewrite vsum_cons. fold (block_product L (fun c => x (f c)) (nth k active 0%nat)). f_equal. unfold chosen.
  destruct (nth row inv None) as [i|] eqn:E.
  - unfold block_product. cbn [map vsum fold_right]. apply IN in E. destruct (Nat.eqb_spec i k) as [->|N]; destruct (Nat.eqb_spec row (nth k active 0%nat)) as [Q|Q].
    + apply v3_eq; cbv [v3_add v3_0 vx vy vz]; ring.
    + exfalso. apply Q. congruence.
    + exfalso. apply N. assert (J := proj2 (IN _ _) AK). rewrite <- Q in J. assert (J' := proj2 (IN _ _) E). congruence.
    + apply v3_eq; cbv [v3_add v3_0 vx vy vz]; ring.
  - unfold block_product. cbn [map vsum fold_right]. destruct (Nat.eqb_spec row (nth k active 0%nat)) as [Q|Q]; [|reflexivity]. exfalso. apply IN in AK. rewrite <- Q in AK. congruence.
Qed.
Lemma all_some_flat {X Y} (f : X -> option (list Y)) (g : X -> list Y) l : (forall a, In a l -> f a = Some (g a)) -> option_map (@concat Y) (all_some (map f l)) = Some (flat_map g l).
Proof. intros H. rewrite (all_some_each f g l H). cbn [option_map]. rewrite flat_map_concat_map. reflexivity. Qed.
Lemma collider_product x (f : nat -> nat) k : forall active s, (s <= k)%nat -> (k < s + length active)%nat ->
  block_product (map (fun p => (fst p, f (snd p), m3_scale (-1) m3_I)) (combine (seq s (length active)) active)) x k = v3_scale (-1) (x (f (nth (k - s) active 0%nat))).
Proof.
  induction active as [|a active IH]; intros s LE LT; cbn [length] in LT; [lia|]. cbn [length seq combine map fst snd]. unfold block_product. cbn [map]. rewrite vsum_cons.
  destruct (Nat.eqb_spec s k) as [->|N].
  - fold (block_product (map (fun p : nat * nat => (fst p, f (snd p), m3_scale (-1) m3_I)) (combine (seq (S k) (length active)) active)) x k). rewrite block_other.
    + rewrite Nat.sub_diag. cbn [nth]. rewrite mulv_scale, mulv_I. apply v3_eq; cbv [v3_add v3_0 vx vy vz]; ring.
    + intros e I. apply in_map_iff in I. destruct I as ([i b] & <- & I). cbn [fst]. apply in_combine_l, in_seq in I. lia.
  - fold (block_product (map (fun p : nat * nat => (fst p, f (snd p), m3_scale (-1) m3_I)) (combine (seq (S s) (length active)) active)) x k). rewrite IH by lia.
    replace (k - s)%nat with (S (k - S s)) by lia. cbn [nth]. apply v3_eq; cbv [v3_add v3_0 vx vy vz]; ring.
Qed.
Lemma product_filter (p : nat * nat * m3 -> bool) x r L : (forall e, In e L -> p e = false -> fst (fst e) <> r \/ x (snd (fst e)) = v3_0) -> block_product (filter p L) x r = block_product L x r.
Proof.
  induction L as [|[[i j] B] L IH]; intros H; [reflexivity|]. cbn [filter]. assert (IH' := IH (fun e I => H e (or_intror I))). unfold block_product at 2. cbn [map]. rewrite vsum_cons. fold (block_product L x r). destruct (p (i, j, B)) eqn:E.
  - unfold block_product at 1. cbn [map]. rewrite vsum_cons. fold (block_product (filter p L) x r). rewrite IH'. reflexivity.
  - rewrite IH'. destruct (Nat.eqb_spec i r) as [Q|Q].
    + destruct (H _ (or_introl eq_refl) E) as [F|F]; cbn [fst snd] in F; [congruence|]. rewrite F. assert (Z : m3_mulv B v3_0 = v3_0) by (dm B; apply v3_eq; cbv [m3_mulv v3_dot v3_0 r0 r1 r2 vx vy vz]; ring). rewrite Z. apply v3_eq; cbv [v3_add v3_0 vx vy vz]; ring.
    + apply v3_eq; cbv [v3_add v3_0 vx vy vz]; ring.
Qed.
Lemma filter_all {X} (p : X -> bool) l : (forall a, In a l -> p a = true) -> filter p l = l.
Proof. induction l as [|a l IH]; intros H; cbn; [reflexivity|]. rewrite (H a (or_introl eq_refl)), IH by (intros b I; apply H; right; exact I). reflexivity. Qed.

(** ** Operators *)
Lemma m3_monoid : comm_monoid m3_add m3_zero.
Proof.
  split.
  - intros a b d. dm a. dm b. dm d. apply m3_ext; apply v3_eq; cbv [m3_add v3_add r0 r1 r2 vx vy vz]; ring.
  - intros a b. dm a. dm b. apply m3_ext; apply v3_eq; cbv [m3_add v3_add r0 r1 r2 vx vy vz]; ring.
  - intros a. dm a. apply m3_ext; apply v3_eq; cbv [m3_add m3_zero v3_add v3_0 r0 r1 r2 vx vy vz]; ring.
Qed.
Lemma v3_monoid : comm_monoid v3_add v3_0.
Proof.
  split.
  - intros a b d. dv a. dv b. dv d. apply v3_eq; cbv [v3_add vx vy vz]; ring.
  - intros a b. dv a. dv b. apply v3_eq; cbv [v3_add vx vy vz]; ring.
  - intros a. dv a. apply v3_eq; cbv [v3_add v3_0 vx vy vz]; ring.
Qed.
Section Operator.
Variables (A : Type) (add : A -> A -> A) (zero : A).
Hypothesis CM : comm_monoid add zero.
Variable h : pos -> A -> v3.
Hypothesis h_add : forall p a b, h p (add a b) = v3_add (h p a) (h p b).
Hypothesis h_zero : forall p, h p zero = v3_0.
Lemma vadd_0 v : v3_add v3_0 v = v.
Proof. apply (cm_zero _ _ v3_monoid). Qed.
Lemma vsum_zero {I} (f : I -> v3) l : (forall i, In i l -> f i = v3_0) -> vsum (map f l) = v3_0.
Proof. induction l as [|a l IH]; intros H; [reflexivity|]. cbn [map]. rewrite vsum_cons, (H a (or_introl eq_refl)), IH by (intros i J; apply H; right; exact J). apply vadd_0. Qed.
Lemma vsum_one (k : pos) v (P : list pos) : NoDup P -> In k P -> vsum (map (fun p => if pos_eqb k p then v else v3_0) P) = v.
Proof.
  induction P as [|p P IH]; intros ND I; [destruct I|]. inversion ND as [|? ? NI ND']; subst. cbn [map]. rewrite vsum_cons. destruct (pos_eqb_spec k p) as [->|N].
  - rewrite vsum_zero; [rewrite (cm_comm _ _ v3_monoid); apply vadd_0|]. intros q J. destruct (pos_eqb_spec p q) as [->|]; [contradiction|reflexivity].
  - rewrite vadd_0. apply IH; [exact ND'|]. destruct I as [->|I]; [congruence|exact I].
Qed.
Lemma at_place_cons k b (T : list (pos * A)) p : at_place add zero ((k, b) :: T) p = if pos_eqb k p then add b (at_place add zero T p) else at_place add zero T p.
Proof. unfold at_place. cbn [filter fst snd]. unfold pos_eqb. destruct ((fst k =? fst p)%nat && (snd k =? snd p)%nat); reflexivity. Qed.
Lemma places_total (T : list (pos * A)) (P : list pos) : NoDup P -> (forall k, In k (map fst T) -> In k P) -> vsum (map (fun p => h p (at_place add zero T p)) P) = vsum (map (fun e => h (fst e) (snd e)) T).
Proof.
  intros ND. induction T as [|[k b] T IH]; intros H.
  - cbn [map]. apply vsum_zero. intros p _. apply h_zero.
  - cbn [map]. rewrite vsum_cons. cbn [fst snd]. rewrite <- IH by (intros q J; apply H; right; exact J). rewrite <- (vsum_one k (h k b) P ND (H k (or_introl eq_refl))), <- vsum_plus. apply vsum_ext. intros p _. rewrite at_place_cons.
    destruct (pos_eqb_spec k p) as [->|N]; [apply h_add|symmetry; apply vadd_0].
Qed.
Lemma at_place_filter (keep : pos -> bool) (T : list (pos * A)) p : keep p = true -> at_place add zero (filter (fun e => keep (fst e)) T) p = at_place add zero T p.
Proof.
  intros K. induction T as [|[k b] T IH]; [reflexivity|]. cbn [filter fst]. destruct (keep k) eqn:E; rewrite ?at_place_cons, IH; [reflexivity|]. destruct (pos_eqb_spec k p) as [->|]; [congruence|reflexivity].
Qed.
Lemma operator_built keep T m : built A add zero keep T m -> vsum (map (fun e => h (fst e) (snd e)) (stored m)) = vsum (map (fun e => h (fst e) (snd e)) (filter (fun e => keep (fst e)) T)).
Proof.
  intros (_ & SP & IP & _ & _ & LB & BV). assert (ND : NoDup (mp_pattern m)) by (apply pos_lt_NoDup; exact SP). rewrite <- (places_total (filter (fun e => keep (fst e)) T) (mp_pattern m) ND).
  - assert (E : mp_blocks m = map (at_place add zero T) (mp_pattern m)).
    { apply (nth_ext _ _ zero zero); [rewrite map_length; exact LB|]. intros d D. rewrite LB in D. rewrite BV by exact D. rewrite nth_indep with (d := zero) (d' := at_place add zero T (0, 0)%nat) by (rewrite map_length; exact D). rewrite map_nth. reflexivity. }
    unfold stored. rewrite E. assert (KP : forall p, In p (mp_pattern m) -> keep p = true) by (intros p I; apply IP in I; apply I). revert KP. clear. induction (mp_pattern m) as [|p P IH]; intros KP; [reflexivity|].
    cbn [map combine]. rewrite !vsum_cons. cbn [fst snd]. rewrite IH by (intros q J; apply KP; right; exact J). rewrite at_place_filter by (apply KP; left; reflexivity). reflexivity.
  - intros k I. apply in_map_iff in I. destruct I as ([k' b] & <- & I). apply filter_In in I. apply IP. cbn [fst] in *. split; [apply I|]. apply in_map_iff. exists (k', b). split; [reflexivity|apply I].
Qed.
End Operator.
Lemma product_built T m x r : built m3 m3_add m3_zero (fun _ => true) T m -> block_product (stored m) x r = block_product T x r.
Proof.
  intros B. pose (h := fun (p : pos) (M : m3) => if Nat.eqb (fst p) r then m3_mulv M (x (snd p)) else v3_0).
  assert (F : forall L : list (pos * m3), block_product L x r = vsum (map (fun e => h (fst e) (snd e)) L)) by (intros L; unfold block_product, h; f_equal; apply map_ext; intros [[i j] M]; reflexivity).
  rewrite !F. rewrite (operator_built m3 m3_add m3_zero h) with (keep := fun _ => true) (T := T); [rewrite filter_all by reflexivity; reflexivity| | |exact B].
  - intros p a b. unfold h. destruct (Nat.eqb (fst p) r); [|apply v3_eq; cbv [v3_add v3_0 vx vy vz]; ring]. dm a. dm b. apply v3_eq; cbv [m3_mulv m3_add v3_dot v3_add r0 r1 r2 vx vy vz]; ring.
  - intros p. unfold h. destruct (Nat.eqb (fst p) r); [|reflexivity]. apply v3_eq; cbv [m3_mulv m3_zero v3_dot v3_0 r0 r1 r2 vx vy vz]; ring.
Qed.
(** ** Adjoints *)
Lemma transpose_dot B x y : v3_dot y (m3_mulv B x) = v3_dot (m3_mulv (m3_transpose B) y) x.
Proof. dm B. dv x. dv y. cbv [m3_mulv m3_transpose v3_dot r0 r1 r2 vx vy vz]. ring. Qed.
Lemma pairing_row n y e (z : v3) : (e < n)%nat -> rsum (map (fun i => v3_dot (y i) (if Nat.eqb e i then z else v3_0)) (seq 0 n)) = v3_dot (y e) z.
Proof.
  intros L. rewrite (rsum_ext _ (fun i => if Nat.eqb i e then v3_dot (y i) z else 0)).
  - apply rsum_seq_single. exact L.
  - intros i _. rewrite Nat.eqb_sym. destruct (Nat.eqb_spec i e); [reflexivity|]. dv (y i). cbv [v3_dot v3_0 vx vy vz]. ring.
Qed.
Lemma dot_comm a b : v3_dot a b = v3_dot b a.
Proof. dv a. dv b. cbv [v3_dot vx vy vz]. ring. Qed.
Lemma pairing_adjoint L rows cols x y : (forall e, In e L -> (fst (fst e) < rows)%nat /\ (snd (fst e) < cols)%nat) ->
  pairing rows y (fun r => block_product L x r) = pairing cols (fun c => block_product (gradient_triplets L) y c) x.
Proof.
  unfold pairing. induction L as [|[[i j] B] L IH]; intros R.
  - unfold block_product. cbn [map vsum fold_right gradient_triplets]. transitivity 0; [|symmetry]; apply rsum_zero; intros k _; [dv (y k)|dv (x k)]; cbv [v3_dot v3_0 vx vy vz]; ring.
  - destruct (R _ (or_introl eq_refl)) as [RI RJ]. cbn [fst snd] in RI, RJ. specialize (IH (fun e I => R e (or_intror I))).
    rewrite (rsum_ext _ (fun r => v3_dot (y r) (if Nat.eqb i r then m3_mulv B (x j) else v3_0) + v3_dot (y r) (block_product L x r))).
    2:{ intros r _. unfold block_product. cbn [map]. rewrite vsum_cons. match goal with |- v3_dot ?a (v3_add ?b ?c) = _ => dv a; dv b; dv c end. cbv [v3_dot v3_add vx vy vz]. ring. }
    rewrite rsum_plus, pairing_row, IH by exact RI.
    rewrite (rsum_ext (fun c => v3_dot (block_product (gradient_triplets ((i, j, B) :: L)) y c) (x c)) (fun c => v3_dot (x c) (if Nat.eqb j c then m3_mulv (m3_transpose B) (y i) else v3_0) + v3_dot (block_product (gradient_triplets L) y c) (x c))).
    2:{ intros r _. unfold block_product. cbn [gradient_triplets map]. rewrite vsum_cons. match goal with |- v3_dot (v3_add ?b ?c) ?a = v3_dot _ _ + v3_dot ?d _ => change d with c; dv a; dv b; dv c end. cbv [v3_dot v3_add vx vy vz]. ring. }
    rewrite rsum_plus, pairing_row by exact RJ. rewrite (dot_comm (x j)), <- transpose_dot. reflexivity.
Qed.
