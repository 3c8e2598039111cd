From Coq Require Import Reals ZArith List Arith Bool Lra Lia.
From Verif Require Import RList UtilModel UtilSpec.
Import ListNotations.

(** * Power-of-two rounding *)
Section Rounding.
Local Open Scope Z_scope.
Lemma land_high b m k : 0 <= m -> 0 <= k -> 0 <= b < 2 ^ (k + m) -> Z.land b (Z.shiftl (Z.ones k) m) = b / 2 ^ m * 2 ^ m.
Proof.
  intros Hm Hk Hb. rewrite <- Z.shiftr_div_pow2, <- Z.shiftl_mul_pow2 by assumption. apply Z.bits_inj'. intros n Hn. rewrite Z.land_spec.
  destruct (Z.ltb_spec n m) as [L|L].
  - rewrite !Z.shiftl_spec_low by assumption. apply andb_false_r.
  - rewrite !Z.shiftl_spec by assumption. rewrite Z.shiftr_spec by lia. replace (n - m + m) with n by lia. destruct (Z.ltb_spec (n - m) k) as [L2|L2].
    + rewrite Z.ones_spec_low by lia. apply andb_true_r.
    + rewrite Z.ones_spec_high by lia. rewrite andb_false_r. symmetry. destruct (Z.eq_dec b 0) as [->|Hb0]; [apply Z.bits_0|]. apply Z.bits_above_log2; [lia|]. apply Z.log2_lt_pow2; [lia|].
      apply Z.lt_le_trans with (2 ^ (k + m)); [lia|]. apply Z.pow_le_mono_r; lia.
Qed.
Lemma round64 b : 0 <= b < 2 ^ 64 -> approx_power_of_two64 b = b / 2 ^ 52 * 2 ^ 52.
Proof. intros H. unfold approx_power_of_two64. change 0xfff0000000000000 with (Z.shiftl (Z.ones 12) 52). apply land_high; [lia|lia|exact H]. Qed.
Lemma round32 b : 0 <= b < 2 ^ 32 -> approx_power_of_two32 b = b / 2 ^ 23 * 2 ^ 23.
Proof. intros H. unfold approx_power_of_two32. change 0xff800000 with (Z.shiftl (Z.ones 9) 23). apply land_high; [lia|lia|exact H]. Qed.
Lemma rounded_exponent e m b : 0 <= m -> 0 <= e -> exponent_bits e m (b / 2 ^ m * 2 ^ m) = exponent_bits e m b.
Proof. intros Hm He. unfold exponent_bits. rewrite Z.div_mul by (apply Z.pow_nonzero; lia). reflexivity. Qed.
Lemma rounded_mantissa m b : 0 <= m -> mantissa_bits m (b / 2 ^ m * 2 ^ m) = 0.
Proof. intros Hm. unfold mantissa_bits. apply Z.mod_mul. apply Z.pow_nonzero; lia. Qed.
Lemma rounded_sign e m b : 0 <= m -> 0 <= e -> sign_bit e m (b / 2 ^ m * 2 ^ m) = sign_bit e m b.
Proof. intros Hm He. unfold sign_bit. rewrite <- Z.shiftr_div_pow2, <- Z.shiftl_mul_pow2 by assumption. rewrite Z.shiftl_spec, Z.shiftr_spec by lia. f_equal. lia. Qed.
Lemma mantissa_bound m b : 0 <= m -> 0 <= mantissa_bits m b < 2 ^ m.
Proof. intros Hm. unfold mantissa_bits. apply Z.mod_pos_bound. apply Z.pow_pos_nonneg; lia. Qed.
End Rounding.
Local Open Scope R_scope.
Lemma two_to_nat m : (0 <= m)%Z -> two_to m = IZR (2 ^ m).
Proof. intros H. unfold two_to. rewrite <- (Z2Nat.id m H). rewrite <- pow_powerRZ. rewrite <- pow_IZR. reflexivity. Qed.
Lemma two_to_pos k : 0 < two_to k. Proof. apply powerRZ_lt. lra. Qed.
Lemma normal_bounds e m b : (0 <= m)%Z -> (0 <= e)%Z -> let r := (b / 2 ^ m * 2 ^ m)%Z in
  normal_magnitude e m r = two_to (exponent_bits e m b - bias e) /\ normal_magnitude e m r <= normal_magnitude e m b < 2 * normal_magnitude e m r.
Proof.
  intros Hm He r. assert (E : normal_magnitude e m r = two_to (exponent_bits e m b - bias e)) by (unfold normal_magnitude, r; rewrite rounded_exponent, rounded_mantissa by assumption; unfold Rdiv; ring).
  split; [exact E|]. rewrite E. unfold normal_magnitude. pose proof (two_to_pos (exponent_bits e m b - bias e)) as P. destruct (mantissa_bound m b Hm) as [M0 M1]. pose proof (two_to_pos m) as Q.
  apply IZR_le in M0. apply IZR_lt in M1. rewrite <- two_to_nat in M1 by exact Hm.
  assert (0 <= IZR (mantissa_bits m b) / two_to m) by (apply Rmult_le_pos; [lra|apply Rlt_le, Rinv_0_lt_compat; exact Q]). assert (IZR (mantissa_bits m b) / two_to m < 1) by (apply Rmult_lt_reg_r with (two_to m); [exact Q|]; unfold Rdiv; rewrite Rmult_assoc, Rinv_l by lra; lra).
  nra.
Qed.

(** * Mode *)
Lemma bump_nth bins i x : nth x (bump bins i) 0%nat = (nth x bins 0 + if Nat.eqb x i then 1 else 0)%nat.
Proof.
  revert i x. induction bins as [|b r IH]; intros i.
  - induction i as [|i IHi]; intros x; destruct x as [|x]; simpl; try reflexivity; [destruct x; reflexivity|]. rewrite IHi. destruct x; reflexivity.
  - intros x. destruct i as [|i], x as [|x]; simpl; try lia. apply IH.
Qed.
Lemma bump_length bins i : length (bump bins i) = Nat.max (length bins) (S i).
Proof. revert i. induction bins as [|b r IH]; intros i; [induction i as [|i IHi]; simpl in *; [reflexivity|rewrite IHi; lia]|]. destruct i as [|i]; simpl; [lia|]. rewrite IH. lia. Qed.
Lemma bins_nth data x : forall bins, nth x (fold_left bump data bins) 0%nat = (nth x bins 0 + occurrences x data)%nat.
Proof.
  induction data as [|y data IH]; intros bins; [simpl; unfold occurrences; simpl; lia|]. cbn [fold_left]. rewrite IH, bump_nth. unfold occurrences. simpl.
  destruct (Nat.eq_dec y x) as [->|N]; [rewrite Nat.eqb_refl; lia|]. destruct (Nat.eqb_spec x y); [congruence|lia].
Qed.
Lemma bins_length_grows data : forall bins, (length bins <= length (fold_left bump data bins))%nat.
Proof. induction data as [|y data IH]; intros bins; [reflexivity|]. cbn [fold_left]. etransitivity; [|apply IH]. rewrite bump_length. lia. Qed.
Lemma last_max_spec bins : forall i best, (fst best < i)%nat -> let r := last_max i best bins in
  (r = best /\ (forall k, (k < length bins)%nat -> (nth k bins 0 < snd best)%nat) \/
   exists k, (k < length bins)%nat /\ r = ((i + k)%nat, nth k bins 0%nat) /\ (snd best <= nth k bins 0)%nat /\
     (forall q, (q < length bins)%nat -> (nth q bins 0 <= nth k bins 0)%nat) /\ (forall q, (k < q < length bins)%nat -> (nth q bins 0 < nth k bins 0)%nat)).
Proof.
  induction bins as [|f bins IH]; intros i best Hi r; [left; split; [reflexivity|]; simpl; lia|]. unfold r. cbn [last_max]. destruct (Nat.leb_spec (snd best) f) as [L|L].
  - destruct (IH (S i) (i, f) ltac:(cbn; lia)) as [[E H]|(k & Hk & E & H1 & H2 & H3)]; right.
    + exists 0%nat. rewrite E. cbn [nth length]. rewrite Nat.add_0_r. split; [lia|]. split; [reflexivity|]. split; [exact L|]. split; intros [|q] Hq; simpl; try lia; specialize (H q ltac:(lia)); cbn in H; lia.
    + exists (S k). rewrite E. cbn [nth length]. cbn [snd] in H1. split; [lia|]. split; [f_equal; lia|]. split; [lia|]. split; intros [|q] Hq; simpl; try lia; [specialize (H2 q ltac:(lia))|specialize (H3 q ltac:(lia))]; lia.
  - destruct (IH (S i) best ltac:(lia)) as [[E H]|(k & Hk & E & H1 & H2 & H3)].
    + left. split; [exact E|]. intros [|k] Hk; simpl; [exact L|]. apply H. simpl in Hk. lia.
    + right. exists (S k). rewrite E. cbn [nth length]. split; [lia|]. split; [f_equal; lia|]. split; [exact H1|]. split; intros [|q] Hq; simpl; try lia; [specialize (H2 q ltac:(lia))|specialize (H3 q ltac:(lia))]; lia.
Qed.
Lemma mode_spec data : data <> [] -> let r := mode_u32 data in
  snd r = occurrences (fst r) data /\ (forall x, (occurrences x data <= snd r)%nat) /\ (forall x, (fst r < x)%nat -> (occurrences x data < snd r)%nat).
Proof.
  intros Hne r. unfold r, mode_u32. assert (N : forall x, nth x (fold_left bump data []) 0%nat = occurrences x data) by (intros x; rewrite bins_nth; destruct x; reflexivity).
  assert (P : exists x, (0 < occurrences x data)%nat) by (destruct data as [|y data]; [congruence|]; exists y; unfold occurrences; simpl; destruct (Nat.eq_dec y y); [lia|congruence]). destruct P as [x0 P0].
  destruct (fold_left bump data []) as [|f bins]. { exfalso. rewrite <- N in P0. destruct x0; simpl in P0; lia. }
  destruct (last_max_spec bins 1 (0%nat, f) ltac:(cbn; lia)) as [[E H]|(k & Hk & E & H1 & H2 & H3)]; rewrite E; cbn [fst snd] in *.
  - assert (G : forall x, (0 < x)%nat -> (occurrences x data < f)%nat).
    { intros [|x] Hx; [lia|]. rewrite <- N. simpl. destruct (Nat.lt_ge_cases x (length bins)) as [L|L]; [exact (H x L)|]. rewrite nth_overflow by exact L.
      destruct x0 as [|x0]; [rewrite <- N in P0; exact P0|]. rewrite <- N in P0. simpl in P0. destruct (Nat.lt_ge_cases x0 (length bins)) as [L0|L0]; [specialize (H x0 L0); lia|]. rewrite nth_overflow in P0 by exact L0. lia. }
    split; [rewrite <- N; reflexivity|]. split; [|exact G]. intros [|x]; [rewrite <- N; simpl; lia|]. specialize (G (S x) ltac:(lia)). lia.
  - assert (Pk : (0 < nth k bins 0)%nat).
    { rewrite <- N in P0. destruct x0 as [|x0]; simpl in P0; [lia|]. destruct (Nat.lt_ge_cases x0 (length bins)) as [L0|L0]; [specialize (H2 x0 L0); lia|]. rewrite nth_overflow in P0 by exact L0. lia. }
    split; [rewrite <- N; reflexivity|]. split.
    + intros [|x]; rewrite <- N; simpl; [exact H1|]. destruct (Nat.lt_ge_cases x (length bins)) as [L|L]; [exact (H2 x L)|]. rewrite nth_overflow by exact L. lia.
    + intros [|x] Hx; [lia|]. rewrite <- N. simpl. destruct (Nat.lt_ge_cases x (length bins)) as [L|L]; [apply H3; lia|]. rewrite nth_overflow by exact L. exact Pk.
Qed.

(** * Laplacian *)
Lemma entries_app a b i j : entries_at (a ++ b) i j = entries_at a i j ++ entries_at b i j.
Proof. unfold entries_at. rewrite filter_app, map_app. reflexivity. Qed.
Lemma diag_entries w i j l : entries_at (map (fun k => (k, k, 1 - w)) l) i j = if Nat.eqb i j then repeat (1 - w) (count_occ Nat.eq_dec l i) else [].
Proof.
  induction l as [|k l IH]; [destruct (Nat.eqb i j); reflexivity|]. unfold entries_at in *. cbn [map filter fst snd]. destruct (Nat.eqb_spec i j) as [->|N].
  - simpl. destruct (Nat.eq_dec k j) as [->|N]; [rewrite Nat.eqb_refl; simpl; rewrite IH; reflexivity|]. destruct (Nat.eqb_spec k j); [congruence|]. exact IH.
  - destruct (Nat.eqb_spec k i) as [->|]; [|exact IH]. destruct (Nat.eqb_spec i j); [congruence|]. exact IH.
Qed.
Lemma face_entries size w i j faces : Forall (proper_face size) faces -> i <> j -> entries_at (flat_map (face_triplets w) faces) i j = repeat w (faces_at_edge faces i j).
Proof.
  intros H Hij. induction H as [|f faces Hf H IH]; [reflexivity|]. cbn [flat_map]. rewrite entries_app, IH. unfold faces_at_edge. cbn [filter].
  assert (E : entries_at (face_triplets w f) i j = if has_vertices i j f then [w] else []).
  { destruct f as [[a b] c]. destruct Hf as (_ & _ & _ & A & B & C). unfold entries_at, face_triplets, has_vertices. cbn [filter fst snd].
    destruct (Nat.eqb_spec a i), (Nat.eqb_spec b i), (Nat.eqb_spec c i), (Nat.eqb_spec a j), (Nat.eqb_spec b j), (Nat.eqb_spec c j); subst; try congruence; reflexivity. }
  rewrite E. destruct (has_vertices i j f); reflexivity.
Qed.
Lemma face_entries_diag size w i faces : Forall (proper_face size) faces -> entries_at (flat_map (face_triplets w) faces) i i = [].
Proof.
  intros H. induction H as [|f faces Hf H IH]; [reflexivity|]. cbn [flat_map]. rewrite entries_app, IH, app_nil_r. destruct f as [[a b] c]. destruct Hf as (_ & _ & _ & A & B & C).
  unfold entries_at, face_triplets. cbn [filter fst snd]. destruct (Nat.eqb_spec a i), (Nat.eqb_spec b i), (Nat.eqb_spec c i); subst; try congruence; reflexivity.
Qed.
Lemma count_seq size i : (i < size)%nat -> count_occ Nat.eq_dec (seq 0 size) i = 1%nat.
Proof. intros H. apply NoDup_count_occ'; [apply seq_NoDup|]. apply in_seq. lia. Qed.
Lemma row_entry size w faces i j : Forall (proper_face size) faces -> (i < size)%nat -> w <> 0 -> w <> 1 -> (faces_at_edge faces i j <= 2)%nat ->
  (match merged (entries_at (laplacian_triplets size faces w) i j) with Some v => if Req_EM_T v 0 then [] else [(j, v)] | None => [] end) =
  if Nat.eqb i j then [(j, 1 - w)] else match faces_at_edge faces i j with O => [] | S O => [(j, w)] | _ => [(j, 2 * w)] end.
Proof.
  intros HF Hi H0 H1 H2. unfold laplacian_triplets. rewrite entries_app, diag_entries. destruct (Nat.eqb_spec i j) as [<-|N].
  - rewrite (face_entries_diag size w i faces HF), count_seq by exact Hi. cbn. destruct (Req_EM_T (1 - w) 0); [lra|reflexivity].
  - rewrite (face_entries size w i j faces HF N), app_nil_r. destruct (faces_at_edge faces i j) as [|[|[|k]]]; cbn [repeat merged fold_left]; [reflexivity| | |lia].
    + destruct (Req_EM_T w 0); [lra|reflexivity].
    + unfold merge. replace (w + 0.5 * (w + w)) with (2 * w) by lra. destruct (Req_EM_T (2 * w) 0); [lra|reflexivity].
Qed.
Lemma laplacian_sum size w faces i : Forall (proper_face size) faces -> (i < size)%nat -> w <> 0 -> w <> 1 -> (forall j, i <> j -> (faces_at_edge faces i j <= 2)%nat) ->
  (0 < length (neighbours size faces i))%nat ->
  row_sum (laplacian_row size faces w i) = 1 + w * (INR (length (shared faces i (neighbours size faces i))) / INR (length (neighbours size faces i))).
Proof.
  intros HF Hi H0 H1 H2 Hn. set (g := fun j => if Nat.eqb i j then [(j, 1 - w)] else match faces_at_edge faces i j with O => [] | S O => [(j, w)] | _ => [(j, 2 * w)] end).
  assert (R : pruned_row (laplacian_triplets size faces w) size i = flat_map g (seq 0 size)).
  { unfold pruned_row. apply flat_map_ext. intros j. destruct (Nat.eq_dec i j) as [E|N].
    - assert (Z : entries_at (laplacian_triplets size faces w) i j = [1 - w]).
      { subst j. unfold laplacian_triplets. rewrite entries_app, diag_entries, Nat.eqb_refl, (face_entries_diag size w i faces HF), count_seq by exact Hi. reflexivity. }
      rewrite Z. unfold g. subst j. rewrite Nat.eqb_refl. cbn. destruct (Req_EM_T (1 - w) 0); [lra|reflexivity].
    - apply row_entry; auto. }
  unfold laplacian_row. rewrite R. unfold normalize_row.
  assert (L : length (flat_map g (seq 0 size)) = (count_occ Nat.eq_dec (seq 0 size) i + length (neighbours size faces i))%nat).
  { unfold neighbours. generalize (seq 0 size). induction l as [|j l IH]; [reflexivity|]. cbn [flat_map filter count_occ]. rewrite app_length, IH. unfold g. destruct (Nat.eqb_spec i j) as [<-|N].
    - destruct (Nat.eq_dec i i); [|congruence]. simpl. lia.
    - destruct (Nat.eq_dec j i); [congruence|]. destruct (faces_at_edge faces i j) as [|[|k]]; simpl; lia. }
  rewrite L, count_seq by exact Hi. replace (1 + length (neighbours size faces i) - 1)%nat with (length (neighbours size faces i)) by lia. set (n := INR (length (neighbours size faces i))).
  assert (Hn' : n <> 0) by (apply not_0_INR; lia).
  assert (S : forall l, row_sum (map (fun e => if Nat.eqb i (fst e) then e else (fst e, snd e / n)) (flat_map g l)) =
    INR (count_occ Nat.eq_dec l i) * (1 - w) + w / n * (INR (length (filter (fun j => negb (Nat.eqb i j) && Nat.ltb 0 (faces_at_edge faces i j)) l)) + INR (length (shared faces i (filter (fun j => negb (Nat.eqb i j) && Nat.ltb 0 (faces_at_edge faces i j)) l))))).
  { induction l as [|j l IH]; [unfold row_sum; simpl; rewrite rsum_nil; ring|]. cbn [flat_map]. unfold row_sum in *. rewrite !map_app, rsum_app, IH. clear IH. cbn [filter count_occ].
    unfold g. destruct (Nat.eqb_spec i j) as [<-|N].
    - destruct (Nat.eq_dec i i); [|congruence]. cbn [map fst snd]. rewrite Nat.eqb_refl. cbn [map snd negb andb]. rewrite rsum_cons, rsum_nil, S_INR. ring.
    - destruct (Nat.eq_dec j i); [congruence|]. destruct (faces_at_edge faces i j) as [|[|k]] eqn:E; cbn [map fst snd].
      + cbn [Nat.ltb Nat.leb negb andb]. rewrite rsum_nil. ring.
      + destruct (Nat.eqb_spec i j); [congruence|]. cbn [map snd Nat.ltb Nat.leb negb andb length]. unfold shared. cbn [filter]. rewrite E. cbn [Nat.ltb Nat.leb]. rewrite rsum_cons, rsum_nil, S_INR. unfold Rdiv. ring.
      + destruct (Nat.eqb_spec i j); [congruence|]. cbn [map snd Nat.ltb Nat.leb negb andb length]. unfold shared. cbn [filter]. rewrite E. cbn [Nat.ltb Nat.leb length]. rewrite rsum_cons, rsum_nil, !S_INR. unfold Rdiv. ring. }
  rewrite S, count_seq by exact Hi. fold (neighbours size faces i). change (INR 1) with 1. fold n. field. exact Hn'.
Qed.
Lemma filter_length_le {A} (f : A -> bool) (l : list A) : (length (filter f l) <= length l)%nat.
Proof. induction l as [|x l IH]; simpl; [lia|]. destruct (f x); simpl; lia. Qed.
