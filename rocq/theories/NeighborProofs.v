(** Proofs about neighbourhood caches. *)
From Coq Require Import Reals List ZArith Lra Lia Psatz Bool Permutation Sorted.
From Verif Require Import Vec3 RList KernelModel KernelSpec KernelProofs FieldModel FieldSpec FieldProofs FieldDerivProofs FieldAvgProofs NeighborModel NeighborSpec.
Import ListNotations.
Local Open Scope R_scope.

(** ** Lists *)
Lemma all_some_forall2 {A B} (f : A -> option B) : forall l r, all_some (map f l) = Some r <-> Forall2 (fun a b => f a = Some b) l r.
Proof.
  induction l as [|a l IH]; intros r; simpl.
  - split; [intros E; injection E as <-; constructor|inversion 1; reflexivity].
  - destruct (f a) as [b|] eqn:F.
    + destruct (all_some (map f l)) as [r'|] eqn:A0.
      * split.
        -- intros E. injection E as <-. constructor; [exact F|]. apply IH. reflexivity.
        -- inversion 1 as [|x y l0 r0 H1 H2]; subst. rewrite F in H1. injection H1 as <-. apply IH in H2. injection H2 as <-. reflexivity.
      * split; [discriminate|]. inversion 1 as [|x y l0 r0 H1 H2]; subst. apply IH in H2. discriminate.
    + split; [discriminate|]. inversion 1 as [|x y l0 r0 H1 H2]; subst. congruence.
Qed.
Lemma all_some_total {A B} (f : A -> option B) l : (forall a, In a l -> exists b, f a = Some b) -> exists r, all_some (map f l) = Some r.
Proof.
  induction l as [|a l IH]; intros H; simpl; [eauto|]. destruct (H a (or_introl eq_refl)) as [b ->].
  destruct (IH (fun x Hx => H x (or_intror Hx))) as [r ->]. eauto.
Qed.
Lemma forall2_nth {A B} (R : A -> B -> Prop) l r : Forall2 R l r -> forall k a, nth_error l k = Some a -> exists b, nth_error r k = Some b /\ R a b.
Proof.
  induction 1 as [|x y l r H HF IH]; intros k a E; destruct k; simpl in *; try discriminate.
  - injection E as <-. eauto.
  - eauto.
Qed.
Lemma forall2_length {A B} (R : A -> B -> Prop) l r : Forall2 R l r -> length l = length r.
Proof. induction 1; simpl; congruence. Qed.
Lemma resize_same {A} (d : A) n l : length l = n -> resize d n l = l.
Proof. intros E. unfold resize. rewrite E, Nat.sub_diag. simpl. rewrite app_nil_r. apply firstn_all2. lia. Qed.
Lemma combine_map_l {A B} (f : A -> B) : forall l, combine l (map f l) = map (fun a => (a, f a)) l.
Proof. induction l; simpl; congruence. Qed.

(** ** Sets in ascending order *)
Lemma insert_in x y : forall l, In y (insert x l) <-> y = x \/ In y l.
Proof.
  induction l as [|z l IH]; simpl; [intuition|]. destruct (Nat.ltb_spec x z); simpl; [intuition|].
  destruct (Nat.eqb_spec x z) as [->|N]; simpl; [intuition|]. rewrite IH. intuition.
Qed.
Lemma btree_in y : forall l, In y (btree_set l) <-> In y l.
Proof. induction l as [|x l IH]; simpl; [tauto|]. change (fold_right insert [] l) with (btree_set l). rewrite insert_in, IH. intuition. Qed.
Lemma insert_sorted x : forall l, StronglySorted lt l -> StronglySorted lt (insert x l).
Proof.
  induction l as [|z l IH]; intros H; simpl.
  - repeat constructor.
  - inversion H as [|z0 l0 H1 H2]; subst. destruct (Nat.ltb_spec x z).
    + constructor; [exact H|]. constructor; [exact H0|]. rewrite Forall_forall in *. intros y Hy. specialize (H2 y Hy). lia.
    + destruct (Nat.eqb_spec x z); [exact H|]. constructor; [apply IH; exact H1|]. rewrite Forall_forall in *.
      intros y Hy. apply insert_in in Hy. destruct Hy as [->|Hy]; [lia|apply H2; exact Hy].
Qed.
Lemma btree_sorted l : StronglySorted lt (btree_set l).
Proof. induction l as [|x l IH]; simpl; [constructor|apply insert_sorted, IH]. Qed.

(** ** Norms *)
Lemma cauchy a b : v3_dot a b <= v3_norm a * v3_norm b.
Proof.
  apply Rle_trans with (Rabs (v3_dot a b)); [apply Rle_abs|].
  assert (P : 0 <= v3_norm a * v3_norm b) by (apply Rmult_le_pos; apply norm_nonneg).
  apply Rsqr_incr_0_var; [|exact P]. rewrite <- Rsqr_abs. unfold Rsqr.
  replace (v3_norm a * v3_norm b * (v3_norm a * v3_norm b)) with ((v3_norm a * v3_norm a) * (v3_norm b * v3_norm b)) by ring.
  rewrite !v3_norm_sq. destruct a as [a1 a2 a3], b as [b1 b2 b3]. unfold v3_dot. simpl.
  assert (0 <= (a1 * b2 - a2 * b1) * (a1 * b2 - a2 * b1) + (a1 * b3 - a3 * b1) * (a1 * b3 - a3 * b1) + (a2 * b3 - a3 * b2) * (a2 * b3 - a3 * b2)).
  { pose proof (Rle_0_sqr (a1 * b2 - a2 * b1)). pose proof (Rle_0_sqr (a1 * b3 - a3 * b1)). pose proof (Rle_0_sqr (a2 * b3 - a3 * b2)). unfold Rsqr in *. lra. }
  lra.
Qed.
Lemma norm_add a b : v3_norm (v3_add a b) <= v3_norm a + v3_norm b.
Proof.
  pose proof (norm_nonneg a). pose proof (norm_nonneg b). apply Rsqr_incr_0_var; [|lra]. unfold Rsqr. rewrite v3_norm_sq.
  pose proof (cauchy a b). pose proof (v3_norm_sq a). pose proof (v3_norm_sq b).
  replace (v3_dot (v3_add a b) (v3_add a b)) with (v3_dot a a + 2 * v3_dot a b + v3_dot b b) by (destruct a, b; unfold v3_dot, v3_add; simpl; ring).
  nra.
Qed.
Lemma norm_neg a : v3_norm (v3_neg a) = v3_norm a.
Proof. unfold v3_norm. f_equal. destruct a; unfold v3_dot, v3_neg; simpl; ring. Qed.
Lemma norm_scale s a : 0 <= s -> v3_norm (v3_scale s a) = s * v3_norm a.
Proof. intros H. rewrite v3_norm_scale, Rabs_right; [reflexivity|]. pose proof (norm_nonneg a). nra. Qed.
Lemma gap_dist2 S q i r : 0 <= r -> (dist2 S q i <= r * r <-> gap S q i <= r).
Proof.
  intros H. unfold gap. pose proof (norm_nonneg (away S q i)). pose proof (v3_norm_sq (away S q i)) as E.
  change (dist2 S q i) with (v3_dot (away S q i) (away S q i)). rewrite <- E. split; intros L; [|nra].
  destruct (Rle_dec (v3_norm (away S q i)) r); [assumption|]. exfalso. nra.
Qed.
(** A sample within [r] after moves of at most [ds] and [dq] was within [r + ds + dq] before. *)
Lemma gap_moves S S' q q' i r ds dq : gap S' q' i <= r -> v3_norm (v3_sub (s_pos (smp S' i)) (s_pos (smp S i))) <= ds ->
  v3_norm (v3_sub q' q) <= dq -> gap S q i <= r + ds + dq.
Proof.
  unfold gap, away. intros G D Q.
  replace (v3_sub q (s_pos (smp S i))) with
    (v3_add (v3_add (v3_sub q' (s_pos (smp S' i))) (v3_sub (s_pos (smp S' i)) (s_pos (smp S i)))) (v3_neg (v3_sub q' q))).
  - pose proof (norm_add (v3_add (v3_sub q' (s_pos (smp S' i))) (v3_sub (s_pos (smp S' i)) (s_pos (smp S i)))) (v3_neg (v3_sub q' q))).
    pose proof (norm_add (v3_sub q' (s_pos (smp S' i))) (v3_sub (s_pos (smp S' i)) (s_pos (smp S i)))). rewrite norm_neg in H. lra.
  - destruct q, q', (s_pos (smp S' i)), (s_pos (smp S i)). apply v3_eq; unfold v3_add, v3_sub, v3_neg; simpl; ring.
Qed.

(** ** Linear search is faithful *)
Lemma scan_faithful : faithful scan.
Proof.
  intros S q. unfold scan, build_tree. simpl. split; [|split; [|split]].
  - intros r i Hr. rewrite filter_In, in_seq. destruct (Rle_dec (dist2 S q i) (r * r)) as [L|L].
    + apply gap_dist2 in L; [|exact Hr]. intuition; lia.
    + split; [intuition; discriminate|]. intros [_ G]. exfalso. apply L, gap_dist2; assumption.
  - intros x. apply NoDup_filter, seq_NoDup.
  - intros ->. reflexivity.
  - intros N. destruct (closest_some q S (seq 0 (length S))) as [c C].
    + destruct S; [congruence|discriminate].
    + exists c. split; [exact C|]. apply closest_in in C. destruct C as [I M]. apply in_seq in I. split; [lia|].
      intros j Hj. apply dist2_norm, M, in_seq. lia.
Qed.

(** ** What [reset] computes *)
Section Reset.
Variables (o : tree_ops) (hash : list nat -> Z) (qs : list v3) (s : local_mls) (n : neighborhood).
Let b := lm_base s.
Let rx := lm_radius s + lm_max_step s.
Lemma reset_sets t changed : reset o hash qs (QLocal s n) = Some (t, changed) ->
  exists cl ex, t = QLocal s (Nbh cl (map (fun q => t_locate o (sb_tree b) q (rx * rx)) qs) ex) /\
    Forall2 (fun q c => t_nearest o (sb_tree b) q = Some c) qs cl /\
    Forall2 (fun l e => extend (sb_topo b) (sb_dual b) (sb_type b) l = Some e) (map (fun q => t_locate o (sb_tree b) q (rx * rx)) qs) ex /\
    changed = orb (orb (orb (negb (Nat.eqb (length qs) (length (n_closest n))))
                            (existsb (fun p => negb (Nat.eqb (fst p) (snd p))) (combine (resize 0%nat (length qs) (n_closest n)) cl)))
                       (lists_changed hash (n_trivial n) (map (fun q => t_locate o (sb_tree b) q (rx * rx)) qs)))
                  (lists_changed hash (n_extended n) ex).
Proof.
  unfold reset. fold b. fold rx. unfold compute_neighborhoods, compute_closest_set, compute_trivial_set, compute_extended_set. intros H.
  destruct (all_some (map (t_nearest o (sb_tree b)) qs)) as [cl|] eqn:C; [|discriminate]. apply all_some_forall2 in C.
  rewrite map_length, Nat.eqb_refl in H. cbn [negb] in H.
  destruct (all_some (map _ (map _ qs))) as [ex|] eqn:E; [|discriminate]. apply all_some_forall2 in E.
  injection H as <- <-. exists cl, ex. auto.
Qed.
End Reset.

Lemma in_ring topo dual pts l : ring topo dual pts = Some l -> forall v, In v l <->
  exists i t tr, In i pts /\ In t (nth i dual []) /\ nth_error topo t = Some tr /\ In v (tri_verts tr).
Proof.
  unfold ring. destruct (all_some _) as [ls|] eqn:E; [|discriminate]. intros H. injection H as <-. apply all_some_forall2 in E.
  intros v. induction E as [|i l1 pts ls H E IH]; simpl.
  - split; [tauto|]. intros (i & t & tr & [] & _).
  - rewrite in_app_iff, IH. destruct (nth_error dual i) as [tris|] eqn:D; [|discriminate].
    assert (DN : nth i dual [] = tris) by (apply nth_error_nth; exact D).
    assert (HH : In v l1 <-> exists t tr, In t tris /\ nth_error topo t = Some tr /\ In v (tri_verts tr)).
    { destruct (all_some (map _ tris)) as [cs|] eqn:A; [|discriminate]. simpl in H. injection H as <-. apply all_some_forall2 in A.
      clear D DN IH E. induction A as [|t c tris cs HA A IH]; simpl.
      - split; [tauto|]. intros (t & tr & [] & _).
      - rewrite in_app_iff, IH. destruct (nth_error topo t) as [tr|] eqn:T; [|discriminate]. simpl in HA. injection HA as <-. split.
        + intros [V|(t' & tr' & A1 & A2 & A3)]; [exists t, tr; auto|exists t', tr'; auto].
        + intros (t' & tr' & [<-|A1] & A2 & A3); [left; congruence|right; eauto]. }
    rewrite HH. split.
    + intros [(t & tr & A1 & A2 & A3)|(i' & t & tr & A1 & A2 & A3 & A4)].
      * exists i, t, tr. rewrite DN. auto.
      * exists i', t, tr. auto.
    + intros (i' & t & tr & [<-|A1] & A2 & A3 & A4).
      * left. exists t, tr. rewrite DN in A2. auto.
      * right. eauto 8.
Qed.
(** Corners of triangles found through the vertex rings are exactly the adjacent vertices. *)
Lemma dual_full b : well_formed b -> sb_type b = SVertex -> sb_dual b <> [] -> length (sb_dual b) = length (sb_verts b).
Proof. intros [_ W] T D. rewrite T in W. destruct W as (_ & [E|E] & _); [contradiction|exact E]. Qed.
Lemma extend_exact b pts e : well_formed b -> extend (sb_topo b) (sb_dual b) (sb_type b) pts = Some e ->
  StronglySorted lt e /\ forall v, In v e <-> In v pts \/ (sb_type b = SVertex /\ sb_dual b <> [] /\ adjacent b pts v).
Proof.
  intros WF H. pose proof (dual_full b WF) as DF. destruct WF as [WT W]. unfold extend in H. destruct (sb_type b) eqn:T.
  - destruct (is_nil (sb_dual b)) eqn:D.
    + simpl in H. injection H as <-. split; [apply btree_sorted|]. intros v. rewrite btree_in. destruct (sb_dual b); [intuition congruence|discriminate].
    + assert (DN : sb_dual b <> []) by (intros E; rewrite E in D; discriminate).
      cbn [is_vertex negb andb] in H. destruct (ring _ _ _) as [l|] eqn:R; [|discriminate]. simpl in H. injection H as <-.
      split; [apply btree_sorted|]. intros v. rewrite btree_in, in_app_iff, (in_ring _ _ _ _ R). destruct W as (_ & _ & W).
      split; intros [A|A]; auto; right.
      * destruct A as (i & t & tr & A1 & A2 & A3 & A4). split; [reflexivity|]. split; [exact DN|].
        apply W in A2. destruct A2 as (B1 & B2 & B3). exists i, tr. rewrite (nth_error_nth _ _ _ A3) in B3.
        split; [exact A1|]. split; [eapply nth_error_In; exact A3|]. auto.
      * destruct A as (_ & _ & i & tr & A1 & A2 & A3 & A4). apply In_nth_error in A2. destruct A2 as [t A2].
        exists i, t, tr. split; [exact A1|]. split; [|auto]. apply W. split; [|split].
        -- rewrite (DF eq_refl DN). exact (WT tr i (nth_error_In _ _ A2) A3).
        -- apply nth_error_Some. congruence.
        -- rewrite (nth_error_nth _ _ _ A2). exact A3.
  - simpl in H. injection H as <-. split; [apply btree_sorted|]. intros v. rewrite btree_in. intuition congruence.
Qed.
Lemma extend_total b pts : well_formed b -> (forall i, In i pts -> (i < length (sb_samples b))%nat) ->
  exists e, extend (sb_topo b) (sb_dual b) (sb_type b) pts = Some e.
Proof.
  intros WF R. pose proof (dual_full b WF) as DF. destruct WF as [WT W]. unfold extend. destruct (sb_type b) eqn:T; [|simpl; eauto].
  destruct (is_nil (sb_dual b)) eqn:D; [simpl; eauto|].
  assert (DN : sb_dual b <> []) by (intros E; rewrite E in D; discriminate).
  cbn [is_vertex negb andb]. unfold ring. destruct W as (WS & _ & W). match goal with |- context [all_some (map ?f pts)] => destruct (all_some_total f pts) as [l ->] end; [|simpl; eauto].
  intros i Hi. specialize (R i Hi). destruct (nth_error (sb_dual b) i) as [tris|] eqn:E.
  - destruct (all_some_total (fun t => option_map tri_verts (nth_error (sb_topo b) t)) tris) as [cs ->]; [|simpl; eauto].
    intros t Ht. assert (L : (t < length (sb_topo b))%nat). { apply (W i t). rewrite (nth_error_nth _ _ _ E). exact Ht. }
    apply nth_error_Some in L. destruct (nth_error (sb_topo b) t); [simpl; eauto|congruence].
  - apply nth_error_None in E. rewrite (DF eq_refl DN), <- WS in E. lia.
Qed.

(** ** Exactness of [reset] *)
Lemma forall2_nth_default {A B} (R : A -> B -> Prop) l r da db k : Forall2 R l r -> (k < length l)%nat -> R (nth k l da) (nth k r db).
Proof.
  intros H. revert k. induction H as [|x y l r H HF IH]; intros k L; simpl in L; [lia|]. destruct k; simpl; [exact H|apply IH; lia].
Qed.
Lemma nth_map_d {A B} (f : A -> B) l da db k : (k < length l)%nat -> nth k (map f l) db = f (nth k l da).
Proof. intros H. rewrite (nth_indep _ db (f da)) by (rewrite map_length; exact H). apply map_nth. Qed.
Lemma reset_exact o hash qs s n : faithful o -> well_formed (lm_base s) -> current (lm_base s) -> 0 <= lm_radius s + lm_max_step s ->
  (qs <> [] -> sb_samples (lm_base s) <> []) ->
  exists n' changed, reset o hash qs (QLocal s n) = Some (QLocal s n', changed) /\
    length (n_closest n') = length qs /\ length (n_trivial n') = length qs /\ length (n_extended n') = length qs /\
    forall k, (k < length qs)%nat -> exact_at s (nth k qs v3_0) (nth k (n_closest n') 0%nat) (nth k (n_trivial n') []) (nth k (n_extended n') []).
Proof.
  intros F WF CU RP NE.
  assert (TOT : exists p, reset o hash qs (QLocal s n) = Some p).
  { unfold reset, compute_neighborhoods, compute_closest_set, compute_trivial_set, compute_extended_set.
    destruct (all_some_total (t_nearest o (sb_tree (lm_base s))) qs) as [cl ->].
    { intros q Hq. rewrite CU. destruct (F (sb_samples (lm_base s)) q) as (_ & _ & _ & F4). destruct F4 as (c & C & _); [apply NE; intros ->; destruct Hq|eauto]. }
    rewrite map_length, Nat.eqb_refl. cbn [negb].
    match goal with |- context [all_some (map ?f ?l)] => destruct (all_some_total f l) as [ex ->] end; [|eauto].
    intros l Hl. apply in_map_iff in Hl. destruct Hl as (q & <- & Hq). apply extend_total; [exact WF|]. intros i Hi.
    rewrite CU in Hi. apply (F (sb_samples (lm_base s)) q) in Hi; [tauto|exact RP]. }
  destruct TOT as [[t changed] E]. destruct (reset_sets _ _ _ _ _ _ _ E) as (cl & ex & -> & A & B & _).
  exists (Nbh cl (map (fun q => t_locate o (sb_tree (lm_base s)) q ((lm_radius s + lm_max_step s) * (lm_radius s + lm_max_step s))) qs) ex), changed.
  split; [exact E|]. cbn [n_closest n_trivial n_extended]. split; [symmetry; eapply forall2_length; exact A|]. split; [apply map_length|].
  split; [rewrite <- (forall2_length _ _ _ B); apply map_length|].
  intros k Hk. unfold exact_at. cbv zeta.
  pose proof (forall2_nth_default _ _ _ v3_0 0%nat k A Hk) as C.
  assert (Hk' : (k < length (map (fun q => t_locate o (sb_tree (lm_base s)) q ((lm_radius s + lm_max_step s) * (lm_radius s + lm_max_step s))) qs))%nat) by (rewrite map_length; exact Hk).
  pose proof (forall2_nth_default _ _ _ [] [] k B Hk') as D. cbv beta in C, D.
  destruct (F (sb_samples (lm_base s)) (nth k qs v3_0)) as (F1 & F2 & _ & F4).
  split; [|split; [|exact (extend_exact _ _ _ WF D)]].
  - rewrite CU in C. destruct F4 as (c & C1 & C2 & C3); [apply NE; intros ->; simpl in Hk; lia|]. rewrite C1 in C. injection C as <-. auto.
  - rewrite (nth_map_d _ qs v3_0) by exact Hk. rewrite CU. split; [apply F2|]. intros i. apply F1. exact RP.
Qed.

(** ** Moving surfaces *)
Lemma zip_update_length {A B} (f : A -> B -> A) : forall l m, length (zip_update f l m) = length l.
Proof. induction l as [|a l IH]; intros [|b m]; simpl; auto. Qed.
Lemma zip_update_nth {A B} (f : A -> B -> A) : forall l m i da db, (i < length l)%nat -> (i < length m)%nat ->
  nth i (zip_update f l m) da = f (nth i l da) (nth i m db).
Proof. induction l as [|a l IH]; intros [|b m] i da db L M; simpl in *; try lia. destruct i; [reflexivity|]. apply IH; lia. Qed.
Lemma zip_update_all {A B} (f : A -> B -> A) (g : B -> A) : (forall a b, f a b = g b) -> forall l m, length l = length m -> zip_update f l m = map g m.
Proof. intros E. induction l as [|a l IH]; intros [|b m] L; simpl in *; try discriminate; [reflexivity|]. rewrite E, IH by lia. reflexivity. Qed.
Lemma update_verts b new rebuild : length new = length (sb_verts b) -> sb_verts (fst (update_base b new rebuild)) = new.
Proof. intros L. unfold update_base. simpl. rewrite (zip_update_all _ (fun p => p)); [apply map_id|reflexivity|symmetry; exact L]. Qed.
Lemma zip_positions : forall (S : list sample) (V : list v3), length S = length V -> map s_pos (zip_update set_pos S V) = V.
Proof. induction S as [|s S IH]; intros [|v V] L; simpl in *; try discriminate; [reflexivity|]. rewrite IH by lia. reflexivity. Qed.
Lemma zip_nml_positions (f : nat -> v3) : forall (S : list sample) (m : list nat), map s_pos (zip_update (fun s i => set_nml s (f i)) S m) = map s_pos S.
Proof. induction S as [|s S IH]; intros [|v V]; simpl in *; [reflexivity..|]. rewrite IH by lia. reflexivity. Qed.
Lemma zip_centroids V : forall (S : list sample) (T : list triangle), length S = length T ->
  map s_pos (zip_update (fun s t => Sample (tri_centroid V t) (tri_normal V t) (tri_tangent V t) (s_value s)) S T) = map (tri_centroid V) T.
Proof. induction S as [|s S IH]; intros [|v T] L; simpl in *; try discriminate; [reflexivity|]. rewrite IH by lia. reflexivity. Qed.
(** Updating keeps the surface well formed and puts the samples where they belong. *)
Lemma update_keeps b new rebuild : well_formed b -> length new = length (sb_verts b) ->
  well_formed (fst (update_base b new rebuild)) /\ sampled (fst (update_base b new rebuild)) /\
  length (sb_samples (fst (update_base b new rebuild))) = length (sb_samples b) /\
  (rebuild = true -> current (fst (update_base b new rebuild))).
Proof.
  intros [WT W] L. pose proof (update_verts b new rebuild L) as UV. unfold update_base in *. cbn [fst sb_verts] in UV. rewrite UV. cbn [fst].
  assert (LS : length (update_samples (Base (sb_bg b) (sb_topo b) new (sb_samples b) (sb_dual b) (sb_type b) (sb_tree b))) = length (sb_samples b)).
  { unfold update_samples. cbn [sb_type]. destruct (sb_type b); cbv zeta; cbn [sb_samples sb_verts]; rewrite !zip_update_length; reflexivity. }
  split; [|split; [|split]].
  - split; cbn [sb_topo sb_verts sb_type sb_samples sb_dual]; [rewrite L; exact WT|]. rewrite LS, L. exact W.
  - unfold sampled. cbn [sb_topo sb_verts sb_type sb_samples]. unfold update_samples. cbn [sb_topo sb_verts sb_type sb_samples].
    destruct (sb_type b); cbv zeta.
    + rewrite zip_nml_positions. apply zip_positions. rewrite L. apply W.
    + apply zip_centroids. exact W.
  - exact LS.
  - intros ->. reflexivity.
Qed.
Lemma sub_centroid a b c a' b' c' : v3_sub (centroid a' b' c') (centroid a b c) =
  v3_scale (1 / 3) (v3_add (v3_add (v3_sub a' a) (v3_sub b' b)) (v3_sub c' c)).
Proof. destruct a, b, c, a', b', c'. apply v3_eq; unfold centroid, v3_sub, v3_add, v3_scale; simpl; field. Qed.
Lemma centroid_moves d a b c a' b' c' : v3_norm (v3_sub a' a) <= d -> v3_norm (v3_sub b' b) <= d -> v3_norm (v3_sub c' c) <= d ->
  v3_norm (v3_sub (centroid a' b' c') (centroid a b c)) <= d.
Proof.
  intros A B C. rewrite sub_centroid, norm_scale by lra.
  pose proof (norm_add (v3_add (v3_sub a' a) (v3_sub b' b)) (v3_sub c' c)). pose proof (norm_add (v3_sub a' a) (v3_sub b' b)). lra.
Qed.
Lemma smp_pos S i : (i < length S)%nat -> s_pos (smp S i) = nth i (map s_pos S) v3_0.
Proof. intros H. symmetry. apply (nth_map_d s_pos S sample0 v3_0 i H). Qed.
(** Samples move no further than the vertices. *)
Lemma samples_move b b' d i : well_formed b -> sampled b -> sampled b' -> sb_type b' = sb_type b -> sb_topo b' = sb_topo b ->
  length (sb_samples b') = length (sb_samples b) -> moved_at_most d (sb_verts b) (sb_verts b') -> (i < length (sb_samples b))%nat ->
  v3_norm (v3_sub (s_pos (smp (sb_samples b') i)) (s_pos (smp (sb_samples b) i))) <= d.
Proof.
  intros [WT W] SB SB' TY TO LS [ML M] Hi. rewrite !smp_pos by (try rewrite LS; exact Hi). rewrite SB, SB', TY, TO. destruct (sb_type b).
  - apply M. destruct W as [W _]. rewrite <- W. exact Hi.
  - rewrite W in Hi. rewrite !(nth_map_d _ (sb_topo b) (0, 0, 0)%nat) by exact Hi.
    pose proof (nth_In (sb_topo b) (0, 0, 0)%nat Hi) as IN. destruct (nth i (sb_topo b) (0, 0, 0)%nat) as [[u v] w]. cbn [tri_centroid].
    apply centroid_moves; apply M; apply (WT _ _ IN); simpl; auto.
Qed.

(** ** Caches answer as if every sample were looked at *)
Lemma rsum_filter_zero (p : nat -> bool) (f : nat -> R) l : (forall i, In i l -> p i = false -> f i = 0) -> rsum (map f l) = rsum (map f (filter p l)).
Proof.
  induction l as [|a l IH]; intros H; [reflexivity|]. simpl. rewrite rsum_cons, IH by (intros i Hi; apply H; right; exact Hi).
  destruct (p a) eqn:P; simpl; [rewrite rsum_cons; reflexivity|]. rewrite (H a (or_introl eq_refl) P). ring.
Qed.
Lemma rsum_view (f : nat -> R) view N : NoDup view -> (forall i, In i view -> (i < N)%nat) -> (forall i, (i < N)%nat -> ~ In i view -> f i = 0) ->
  rsum (map f (seq 0 N)) = rsum (map f view).
Proof.
  intros ND R Z. rewrite (rsum_filter_zero (fun i => if in_dec Nat.eq_dec i view then true else false)).
  - apply rsum_perm, Permutation_map, NoDup_Permutation; [apply NoDup_filter, seq_NoDup|exact ND|].
    intros i. rewrite filter_In, in_seq. destruct (in_dec Nat.eq_dec i view) as [I|I]; [specialize (R i I); intuition; lia|intuition; discriminate].
  - intros i Hi. apply in_seq in Hi. destruct (in_dec Nat.eq_dec i view); [discriminate|]. intros _. apply Z; [lia|assumption].
Qed.
Lemma view_irrelevant k P v q S view r : k_radius k = Some r -> NoDup view -> (forall i, In i view -> (i < length S)%nat) ->
  (forall i, within S q r i -> In i view) -> (exists i, within S q r i) ->
  p_weighted P = false \/ p_type P <> FDistance \/ unique_nearest S q ->
  potential_at q S view k P v = potential_at q S (seq 0 (length S)) k P v.
Proof.
  intros KR ND RG COV [i0 [I0 G0]] CASES.
  assert (V0 : In i0 view) by (apply COV; split; assumption).
  destruct (closest_some q S view) as [c C]; [intros ->; destruct V0|].
  destruct (closest_some q S (seq 0 (length S))) as [c' C']; [destruct S; [simpl in I0; lia|discriminate]|].
  destruct (closest_in _ _ _ _ C) as [CI CM]. destruct (closest_in _ _ _ _ C') as [CI' CM']. apply in_seq in CI'.
  assert (GM : forall j, In j view -> gap S q c <= gap S q j) by (intros j Hj; apply dist2_norm, CM, Hj).
  assert (GM' : forall j, (j < length S)%nat -> gap S q c' <= gap S q j) by (intros j Hj; apply dist2_norm, CM', in_seq; lia).
  assert (W' : within S q r c') by (split; [lia|]; pose proof (GM' i0 I0); lra).
  assert (EQ : gap S q c = gap S q c'). { apply Rle_antisym; [apply GM, COV, W'|apply GM', RG, CI]. }
  rewrite (potential_form _ _ _ _ _ _ _ C), (potential_form _ _ _ _ _ _ _ C'). unfold form. cbv zeta. fold (gap S q c) (gap S q c'). rewrite <- EQ.
  assert (Z : forall i, (i < length S)%nat -> ~ In i view -> k_f (with_closest k (gap S q c)) (v3_norm (away S q i)) = 0).
  { intros i Hi NI. apply (kernel_support (with_closest k (gap S q c)) r); [rewrite <- k_radius_support, with_closest_radius; exact KR|].
    destruct (Rlt_dec r (v3_norm (away S q i))) as [L|L]; [exact L|]. exfalso. apply NI, COV. split; [exact Hi|]. unfold gap. lra. }
  rewrite (rsum_view (fun i => k_f (with_closest k (gap S q c)) (v3_norm (away S q i))) view) by assumption.
  rewrite (rsum_view (fun i => k_f (with_closest k (gap S q c)) (v3_norm (away S q i)) * plane_value S q i) view)
    by (try assumption; intros i Hi NI; rewrite Z by assumption; ring).
  assert (FB : fval P v (gap S q c) (v3_dot (s_nml (smp S c)) (away S q c)) * bgw k (p_weighted P) (gap S q c) =
               fval P v (gap S q c) (v3_dot (s_nml (smp S c')) (away S q c')) * bgw k (p_weighted P) (gap S q c)).
  { destruct CASES as [U|[N|(u & U1 & U2)]].
    - assert (B : bgw k (p_weighted P) (gap S q c) = 0). { unfold bgw. rewrite KR, U. destruct (Rlt_dec r (gap S q c)) as [L|L]; [|reflexivity]. exfalso. destruct W' as [_ W']. lra. }
      rewrite B. ring.
    - f_equal. unfold fval. destruct (p_type P); [reflexivity|reflexivity|congruence].
    - assert (c = u) as ->. { destruct (Nat.eq_dec c u) as [E|E]; [exact E|]. exfalso. pose proof (U2 c (RG c CI) E). pose proof (GM' u U1). lra. }
      assert (c' = u) as ->. { destruct (Nat.eq_dec c' u) as [E|E]; [exact E|]. exfalso. pose proof (U2 c' ltac:(lia) E). pose proof (GM' u U1). lra. }
      reflexivity. }
  rewrite FB. reflexivity.
Qed.

(** ** Change flags *)
Lemma lists_changed_false hash old new : lists_changed hash old new = false -> length old = length new /\ map hash old = map hash new.
Proof.
  unfold lists_changed. intros H. apply orb_false_iff in H. destruct H as [L E]. apply negb_false_iff, Nat.eqb_eq in L.
  split; [congruence|]. rewrite resize_same in E by congruence. symmetry in L. revert new L E. induction old as [|a old IH]; intros [|b new] L E; simpl in *; try discriminate; [reflexivity|].
  apply orb_false_iff in E. destruct E as [E1 E2]. apply negb_false_iff, Z.eqb_eq in E1. rewrite E1. f_equal. apply IH; [lia|exact E2].
Qed.
Lemma lists_changed_same hash l : lists_changed hash l l = false.
Proof.
  unfold lists_changed. rewrite Nat.eqb_refl, resize_same by reflexivity. simpl. induction l as [|a l IH]; simpl; [reflexivity|]. rewrite Z.eqb_refl. exact IH.
Qed.
Lemma closest_changed_false n old new : length new = n ->
  orb (negb (Nat.eqb n (length old))) (existsb (fun p => negb (Nat.eqb (fst p) (snd p))) (combine (resize 0%nat n old) new)) = false -> old = new.
Proof.
  intros LN H. apply orb_false_iff in H. destruct H as [L E]. apply negb_false_iff, Nat.eqb_eq in L. rewrite resize_same in E by congruence.
  rewrite L in LN. clear L. revert new LN E. induction old as [|a old IH]; intros [|b new] L E; simpl in *; try discriminate; [reflexivity|].
  apply orb_false_iff in E. destruct E as [E1 E2]. apply negb_false_iff, Nat.eqb_eq in E1. rewrite E1. f_equal. apply IH; [lia|exact E2].
Qed.
Lemma closest_changed_same (l : list nat) : existsb (fun p => negb (Nat.eqb (fst p) (snd p))) (combine l l) = false.
Proof. induction l as [|a l IH]; simpl; [reflexivity|]. rewrite Nat.eqb_refl. exact IH. Qed.
Lemma reset_flag o hash qs s n n' changed : reset o hash qs (QLocal s n) = Some (QLocal s n', changed) ->
  (changed = true -> n' <> n) /\
  (changed = false -> n_closest n' = n_closest n /\ map hash (n_trivial n') = map hash (n_trivial n) /\ map hash (n_extended n') = map hash (n_extended n)).
Proof.
  intros H. destruct (reset_sets _ _ _ _ _ _ _ H) as (cl & ex & E & A & B & C). injection E as ->. cbn [n_closest n_trivial n_extended].
  pose proof (forall2_length _ _ _ A) as LA. pose proof (forall2_length _ _ _ B) as LB. rewrite map_length in LB. split.
  - intros T EQ. subst n. cbn [n_closest n_trivial n_extended] in C. rewrite !lists_changed_same, <- LA, Nat.eqb_refl, resize_same in C by congruence.
    rewrite closest_changed_same in C. simpl in C. congruence.
  - intros F. rewrite F in C. symmetry in C. apply orb_false_iff in C. destruct C as [C C3]. apply orb_false_iff in C. destruct C as [C1 C2].
    apply closest_changed_false in C1; [|congruence]. apply lists_changed_false in C2, C3. destruct C2 as [_ C2], C3 as [_ C3]. auto.
Qed.

(** ** Index lists *)
Lemma enumerate_nth {A} (l : list A) k a : In (k, a) (enumerate l) <-> nth_error l k = Some a.
Proof.
  unfold enumerate. assert (G : forall (l : list A) m k a, In (k, a) (combine (seq m (length l)) l) <-> (m <= k)%nat /\ nth_error l (k - m) = Some a).
  { clear. induction l as [|x l IH]; intros m k a; simpl.
    - split; [tauto|]. intros [_ E]. destruct (k - m)%nat; discriminate.
    - rewrite IH. split.
      + intros [E|[L E]].
        * injection E as -> ->. rewrite Nat.sub_diag. split; [lia|reflexivity].
        * split; [lia|]. replace (k - m)%nat with (S (k - S m)) by lia. exact E.
      + intros [L E]. destruct (Nat.eq_dec m k) as [->|N].
        * left. rewrite Nat.sub_diag in E. simpl in E. congruence.
        * right. split; [lia|]. replace (k - m)%nat with (S (k - S m)) in E by lia. exact E. }
  rewrite G. rewrite Nat.sub_0_r. intuition lia.
Qed.
Lemma nonempty_in l k x : In (k, x) (nonempty l) <-> nth_error l k = Some x /\ x <> [].
Proof. unfold nonempty. rewrite filter_In, enumerate_nth. simpl. destruct x; simpl; intuition (discriminate || congruence). Qed.
Lemma nonempty_length l : length (nonempty l) = length (filter (fun x => negb (is_nil x)) l).
Proof.
  unfold nonempty, enumerate. generalize 0%nat. induction l as [|a l IH]; intros m; simpl; [reflexivity|]. destruct a; simpl; rewrite IH; reflexivity.
Qed.
Lemma scalar_length l : length (scalar_indices l) = (length l * 3)%nat.
Proof. unfold scalar_indices. induction l as [|a l IH]; simpl in *; [reflexivity|]. rewrite IH. reflexivity. Qed.
Lemma scalar_in l r c : In (r, c) (scalar_indices l) <-> exists v j, In (r, v) l /\ (j < 3)%nat /\ c = (3 * v + j)%nat.
Proof.
  unfold scalar_indices. rewrite in_flat_map. split.
  - intros ([r' v] & I & H). apply in_map_iff in H. destruct H as (j & E & J). cbn [fst snd] in E. injection E as -> <-. exists v, j. split; [exact I|]. split; [|reflexivity].
    simpl in J. destruct J as [<-|[<-|[<-|[]]]]; lia.
  - intros (v & j & I & J & ->). exists (r, v). split; [exact I|]. apply in_map_iff. exists j. split; [reflexivity|]. simpl. lia.
Qed.
Lemma matrix_length l : length (matrix_indices l) = (length l * 9)%nat.
Proof. unfold matrix_indices. induction l as [|a l IH]; simpl in *; [reflexivity|]. rewrite IH. reflexivity. Qed.
Lemma matrix_in l r c : In (r, c) (matrix_indices l) <-> exists k v i j, In (k, v) l /\ (i < 3)%nat /\ (j < 3)%nat /\ r = (3 * k + j)%nat /\ c = (3 * v + i)%nat.
Proof.
  unfold matrix_indices. rewrite in_flat_map. split.
  - intros ([k v] & I & H). apply in_flat_map in H. destruct H as (j & J & H). apply in_map_iff in H. destruct H as (i & E & II). cbn [fst snd] in E. injection E as <- <-.
    exists k, v, i, j. split; [exact I|]. simpl in J, II. repeat split; destruct II as [<-|[<-|[<-|[]]]]; destruct J as [<-|[<-|[<-|[]]]]; lia.
  - intros (k & v & i & j & I & Hi & J & -> & ->). exists (k, v). split; [exact I|]. apply in_flat_map. exists j. split; [simpl; lia|].
    apply in_map_iff. exists i. split; [reflexivity|]. simpl. lia.
Qed.
Lemma columns_spec b i cols : columns b i = Some cols -> length cols = per_sample (sb_type b) /\ forall v, In v cols <-> depends_on b i v.
Proof.
  unfold columns, depends_on. destruct (sb_type b).
  - intros E. injection E as <-. split; [reflexivity|]. intros v. simpl. intuition.
  - destruct (nth_error (sb_topo b) i) as [[[x y] z]|]; [|discriminate]. intros E. injection E as <-. split; [reflexivity|].
    intros v. split; [intros H; exists (x, y, z); auto|]. intros (tr & E & H). injection E as <-. exact H.
Qed.
Lemma columns_total b i : well_formed b -> (i < length (sb_samples b))%nat -> exists cols, columns b i = Some cols.
Proof.
  intros [_ W] L. unfold columns. destruct (sb_type b); [eauto|]. rewrite W in L. apply nth_error_Some in L. destruct (nth_error _ i); [simpl; eauto|congruence].
Qed.
Lemma concat_length_const {A} n (ls : list (list A)) : (forall l, In l ls -> length l = n) -> length (concat ls) = (length ls * n)%nat.
Proof. induction ls as [|l ls IH]; intros H; simpl; [reflexivity|]. rewrite app_length, IH by (intros; apply H; right; assumption). rewrite (H l (or_introl eq_refl)). reflexivity. Qed.
Lemma forall2_in_r {A B} (R : A -> B -> Prop) l r : Forall2 R l r -> forall b, In b r -> exists a, In a l /\ R a b.
Proof. induction 1 as [|x y l r H HF IH]; intros b Hb; [destruct Hb|]. destruct Hb as [<-|Hb]; [exists x; simpl; auto|]. destruct (IH b Hb) as (a & A1 & A2). exists a. simpl. auto. Qed.
Lemma forall2_in_l {A B} (R : A -> B -> Prop) l r : Forall2 R l r -> forall a, In a l -> exists b, In b r /\ R a b.
Proof. induction 1 as [|x y l r H HF IH]; intros b Hb; [destruct Hb|]. destruct Hb as [<-|Hb]; [exists y; simpl; auto|]. destruct (IH b Hb) as (a & A1 & A2). exists a. simpl. auto. Qed.
Lemma rows_spec b l r : rows_of (columns b) l = Some r ->
  length r = (total_size (map snd l) * per_sample (sb_type b))%nat /\
  forall k v, In (k, v) r <-> exists pts i, In (k, pts) l /\ In i pts /\ depends_on b i v.
Proof.
  unfold rows_of. destruct (all_some _) as [rs|] eqn:E; [|discriminate]. intros H. injection H as <-. apply all_some_forall2 in E.
  induction E as [|[k0 pts] r0 l rs H E IH]; cbn [concat map snd].
  - split; [reflexivity|]. intros k v. split; [intros []|intros (p & i & [] & _)].
  - destruct IH as [IL IS]. cbn [snd] in H. destruct (all_some (map (columns b) pts)) as [cs|] eqn:C; [|discriminate]. cbn [option_map fst] in H. injection H as <-.
    apply all_some_forall2 in C. split.
    + rewrite app_length, IL, map_length. rewrite (concat_length_const (per_sample (sb_type b))).
      * rewrite <- (forall2_length _ _ _ C). unfold total_size. simpl. ring.
      * intros c Hc. destruct (forall2_in_r _ _ _ C c Hc) as (i & _ & CI). apply columns_spec in CI. apply CI.
    + intros k v. rewrite in_app_iff, IS. assert (HH : In v (concat cs) <-> exists i, In i pts /\ depends_on b i v).
      { rewrite in_concat. split.
        - intros (c & Hc & Hv). destruct (forall2_in_r _ _ _ C c Hc) as (i & Hi & CI). exists i. split; [exact Hi|]. apply (proj2 (columns_spec _ _ _ CI)). exact Hv.
        - intros (i & Hi & D). destruct (forall2_in_l _ _ _ C i Hi) as (c & Hc & CI). exists c. split; [exact Hc|]. apply (proj2 (columns_spec _ _ _ CI)). exact D. }
      split.
      * intros [M|(p & i & A1 & A2 & A3)].
        -- apply in_map_iff in M. destruct M as (v' & EV & IV). injection EV as <- <-. apply HH in IV. destruct IV as (i & I1 & I2). exists pts, i. split; [left; reflexivity|]. auto.
        -- exists p, i. split; [right; exact A1|]. auto.
      * intros (p & i & [A1|A1] & A2 & A3).
        -- injection A1 as <- <-. left. apply in_map_iff. exists v. split; [reflexivity|]. apply HH. eauto.
        -- right. eauto 6.
Qed.
Lemma rows_total b l : well_formed b -> (forall p i, In p l -> In i (snd p) -> (i < length (sb_samples b))%nat) -> exists r, rows_of (columns b) l = Some r.
Proof.
  intros WF H. unfold rows_of. match goal with |- context [all_some (map ?f l)] => destruct (all_some_total f l) as [r ->] end; [|simpl; eauto].
  intros p Hp. destruct (all_some_total (columns b) (snd p)) as [cs ->]; [|simpl; eauto]. intros i Hi. apply columns_total; eauto.
Qed.
Lemma total_nonempty l : total_size (map snd (nonempty l)) = total_size l.
Proof.
  unfold nonempty, enumerate, total_size. generalize 0%nat. induction l as [|a l IH]; intros m; simpl; [reflexivity|]. destruct a; simpl; rewrite IH; reflexivity.
Qed.
Lemma depends_in_range b i v : well_formed b -> (i < length (sb_samples b))%nat -> depends_on b i v -> (v < length (sb_verts b))%nat.
Proof.
  intros [WT W] L D. unfold depends_on in D. destruct (sb_type b); [subst; destruct W; lia|]. destruct D as (tr & E & I). apply (WT tr v); [eapply nth_error_In; exact E|exact I].
Qed.
Lemma nth_of_error {A} (l : list A) k x d : nth_error l k = Some x -> nth k l d = x.
Proof. apply nth_error_nth. Qed.
Lemma row_lists (l : list (list nat)) k : (exists pts i, In (k, pts) (nonempty l) /\ In i pts) <-> nth k l [] <> [].
Proof.
  split.
  - intros (pts & i & N & I). apply nonempty_in in N. destruct N as [N1 N2]. rewrite (nth_error_nth _ _ _ N1). exact N2.
  - intros N. destruct (nth k l []) as [|i r] eqn:E; [congruence|]. exists (nth k l []), i. rewrite E. split; [|left; reflexivity]. apply nonempty_in. split; [|discriminate].
    rewrite <- E. apply nth_error_nth'. destruct (Nat.lt_ge_cases k (length l)) as [L|L]; [exact L|]. rewrite nth_overflow in E by exact L. discriminate.
Qed.
Lemma in_row (l : list (list nat)) k pts : In (k, pts) (nonempty l) <-> nth k l [] = pts /\ pts <> [].
Proof.
  rewrite nonempty_in. split; intros [A B]; split; auto.
  - apply nth_error_nth. exact A.
  - subst. apply nth_error_nth'. destruct (Nat.lt_ge_cases k (length l)) as [L|L]; [exact L|]. rewrite nth_overflow in B by exact L. congruence.
Qed.

(** ** Chunks of work *)
Lemma skipn_combine {A B} : forall n (l : list A) (m : list B), skipn n (combine l m) = combine (skipn n l) (skipn n m).
Proof. induction n as [|n IH]; intros [|a l] [|b m]; simpl; auto. destruct (skipn n l); reflexivity. Qed.
Lemma chunks_combine {A B} n : (0 < n)%nat -> forall f (l : list A) (m : list B), length l = length m -> (length l <= f)%nat ->
  map (fun p => combine (fst p) (snd p)) (combine (chunks_fuel f n l) (chunks_fuel f n m)) = chunks_fuel f n (combine l m).
Proof.
  intros N. induction f as [|f IH]; intros [|a l] [|b m] L F; simpl in *; try discriminate; try lia; try reflexivity.
  f_equal.
  - destruct n; [lia|]. simpl. rewrite combine_firstn. reflexivity.
  - destruct n as [|n]; [lia|]. cbn [skipn]. rewrite IH; [rewrite skipn_combine; reflexivity| |]; rewrite ?skipn_length; lia.
Qed.
Lemma chunks_same_length {A B} n : forall f (l : list A) (m : list B), length l = length m -> length (chunks_fuel f n l) = length (chunks_fuel f n m).
Proof.
  induction f as [|f IH]; intros [|a l] [|b m] L; simpl in *; try discriminate; try reflexivity. f_equal. apply IH. destruct n; simpl; rewrite ?skipn_length; simpl; lia.
Qed.
Lemma chunks_count {A} n : (0 < n)%nat -> forall f w (l : list A), (length l <= w * n)%nat -> (length (chunks_fuel f n l) <= w)%nat.
Proof.
  intros N. induction f as [|f IH]; intros w [|a l] L; simpl in *; try lia. destruct w as [|w]; [simpl in L; lia|].
  apply le_n_S, IH. destruct n as [|n]; [lia|]. cbn [skipn]. rewrite skipn_length. simpl in L. nia.
Qed.
Lemma seq_shift_combine {A} (a : nat) (l : list A) : forall m, combine (seq (a + m) (length l)) l = map (fun x => (a + fst x, snd x)%nat) (combine (seq m (length l)) l).
Proof. induction l as [|x l IH]; intros m; simpl; [reflexivity|]. rewrite <- IH. replace (S (a + m)) with (a + S m)%nat by lia. reflexivity. Qed.
Lemma filter_map_snd {A B C} (g : A -> C) (p : B -> bool) (l : list (A * B)) :
  filter (fun x => p (snd x)) (map (fun x => (g (fst x), snd x)) l) = map (fun x => (g (fst x), snd x)) (filter (fun x => p (snd x)) l).
Proof. induction l as [|[a b] l IH]; simpl; [reflexivity|]. destruct (p b); simpl; rewrite IH; reflexivity. Qed.
Lemma combine_app' {A B} (a b : list A) (c d : list B) : length a = length c -> combine (a ++ b) (c ++ d) = combine a c ++ combine b d.
Proof. revert c. induction a as [|x a IH]; intros [|y c] H; simpl in *; try discriminate; [reflexivity|]. rewrite IH by lia. reflexivity. Qed.
Lemma chunked_rows {A} n (p : A -> bool) : (0 < n)%nat -> forall f (l : list A) a, (length l <= f)%nat ->
  concat (map (fun c => map (fun x => (fst c * n + fst x, snd x)%nat) (filter (fun x => p (snd x)) (enumerate (snd c))))
            (combine (seq a (length (chunks_fuel f n l))) (chunks_fuel f n l))) =
  filter (fun x => p (snd x)) (combine (seq (a * n) (length l)) l).
Proof.
  intros N. induction f as [|f IH]; intros [|x l] a F; try (simpl in F; lia); [reflexivity..|].
  cbn [chunks_fuel length seq combine map concat fst snd]. rewrite IH by (destruct n; [lia|]; cbn [skipn]; rewrite skipn_length; simpl in F; lia).
  transitivity (filter (fun y => p (snd y)) (combine (seq (a * n) (S (length l))) (firstn n (x :: l) ++ skipn n (x :: l)))); [|rewrite firstn_skipn; reflexivity].
  assert (E : seq (a * n) (S (length l)) = seq (a * n) (length (firstn n (x :: l))) ++ seq (a * n + length (firstn n (x :: l))) (length (skipn n (x :: l)))).
  { rewrite <- seq_app. f_equal. rewrite <- app_length, firstn_skipn. reflexivity. }
  rewrite E. rewrite combine_app' by (rewrite seq_length; reflexivity). rewrite filter_app. f_equal.
  - unfold enumerate. rewrite <- (filter_map_snd (fun i => (a * n + i)%nat)). rewrite <- seq_shift_combine. rewrite Nat.add_0_r. reflexivity.
  - destruct (skipn n (x :: l)) as [|y r] eqn:SK; [rewrite !combine_nil; reflexivity|]. rewrite firstn_length, Nat.min_l.
    + replace (S a * n)%nat with (a * n + n)%nat by (simpl; lia). reflexivity.
    + assert (L : length (skipn n (x :: l)) = S (length r)) by (rewrite SK; reflexivity). rewrite skipn_length in L. lia.
Qed.

Lemma chunk_size_pos len ws : (0 < len)%nat -> (0 < ws)%nat -> (0 < chunk_size len ws)%nat.
Proof. intros L W. unfold chunk_size. apply Nat.div_str_pos. lia. Qed.
Lemma chunk_size_covers len ws : (0 < ws)%nat -> (len <= ws * chunk_size len ws)%nat.
Proof.
  intros W. unfold chunk_size. pose proof (Nat.div_mod (len + ws - 1) ws ltac:(lia)). pose proof (Nat.mod_upper_bound (len + ws - 1) ws ltac:(lia)). lia.
Qed.
Lemma chunk_rows_spec {A} (qs : list A) ns ws : length ns = length qs -> qs <> [] -> (0 < ws)%nat ->
  exists cs, chunk_rows (chunk_size (length qs) ws) ws qs ns = Some cs /\ (length cs <= ws)%nat /\
    concat cs = filter (fun x => negb (is_nil (snd (snd x)))) (enumerate (combine qs ns)).
Proof.
  intros L NE W. assert (P : (0 < length qs)%nat) by (destruct qs; [congruence|simpl; lia]).
  pose proof (chunk_size_pos _ _ P W) as C. pose proof (chunk_size_covers (length qs) ws W) as V. set (n := chunk_size (length qs) ws) in *. clearbody n.
  unfold chunk_rows, chunks. destruct n as [|n]; [lia|].
  assert (LC : length (combine (chunks_fuel (length qs) (S n) qs) (chunks_fuel (length ns) (S n) ns)) = length (chunks_fuel (length qs) (S n) qs)).
  { rewrite combine_length, L, (chunks_same_length (S n) (length qs) ns qs L). lia. }
  assert (CNT : (length (chunks_fuel (length qs) (S n) qs) <= ws)%nat) by (apply chunks_count; lia).
  eexists. split; [reflexivity|]. split; [rewrite map_length, firstn_length; lia|].
  rewrite firstn_all2 by (unfold enumerate; rewrite combine_length, seq_length; lia).
  transitivity (concat (map (fun c => map (fun x => (fst c * S n + fst x, snd x)%nat) (filter (fun x => (fun y : A * list nat => negb (is_nil (snd y))) (snd x)) (enumerate (snd c))))
            (combine (seq 0 (length (chunks_fuel (length qs) (S n) (combine qs ns)))) (chunks_fuel (length qs) (S n) (combine qs ns))))).
  - f_equal. rewrite <- (chunks_combine (S n) ltac:(lia) (length qs) qs ns ltac:(lia) ltac:(lia)). rewrite map_length, L.
    set (l := combine (chunks_fuel (length qs) (S n) qs) (chunks_fuel (length qs) (S n) ns)).
    change (enumerate l) with (combine (seq 0 (length l)) l). generalize 0%nat. induction l as [|x l IH]; intros m; [reflexivity|]. cbn [length seq combine map fst snd]. rewrite IH. reflexivity.
  - rewrite (chunked_rows (S n) (fun y : A * list nat => negb (is_nil (snd y)))) by (rewrite ?combine_length; lia). reflexivity.
Qed.
(** Ranges. *)
Lemma split_uniform start chunk : forall u m, concat (map (fun i => seq (i * chunk + start) ((i + 1) * chunk + start - (i * chunk + start))) (seq m u)) = seq (m * chunk + start) (u * chunk).
Proof.
  induction u as [|u IH]; intros m; [reflexivity|]. cbn [seq map concat]. rewrite IH.
  replace ((m + 1) * chunk + start - (m * chunk + start))%nat with chunk by lia. replace (S m * chunk + start)%nat with (m * chunk + start + chunk)%nat by lia.
  rewrite <- seq_app. f_equal.
Qed.
Lemma split_range_spec start fin chunk : (0 < chunk)%nat -> (start <= fin)%nat -> exists rs, split_range_into_chunks start fin chunk = Some rs /\
  concat (map (fun r => seq (fst r) (snd r - fst r)) rs) = seq start (fin - start) /\
  (forall r, In r rs -> (fst r < snd r <= fst r + chunk)%nat).
Proof.
  intros C L. unfold split_range_into_chunks. destruct chunk as [|n] eqn:E; [lia|]. rewrite <- E in *. clear n E. eexists. split; [reflexivity|]. rewrite map_length, seq_length.
  pose proof (Nat.div_mod (fin - start) chunk ltac:(lia)) as D. pose proof (Nat.mod_upper_bound (fin - start) chunk ltac:(lia)) as M.
  set (u := Nat.div (fin - start) chunk) in *. clearbody u. split.
  - destruct (Nat.ltb_spec (u * chunk) (fin - start)) as [LT|GE].
    + rewrite map_app, concat_app, map_map. cbn [fst snd]. rewrite split_uniform. cbn [map concat fst snd]. rewrite app_nil_r.
      replace (0 * chunk + start)%nat with start by lia. replace (u * chunk + start)%nat with (start + u * chunk)%nat by lia. rewrite <- seq_app. f_equal. lia.
    + rewrite map_map. cbn [fst snd]. rewrite split_uniform. f_equal; lia.
  - intros r H. assert (H' : In r (map (fun i => (i * chunk + start, (i + 1) * chunk + start)%nat) (seq 0 u)) \/ (r = (u * chunk + start, fin)%nat /\ (u * chunk < fin - start)%nat)).
    { destruct (Nat.ltb_spec (u * chunk) (fin - start)); [|left; exact H]. apply in_app_or in H. destruct H as [H|[H|[]]]; auto. }
    destruct H' as [H'|[-> LT]]; [|cbn [fst snd]; lia]. apply in_map_iff in H'. destruct H' as (i & <- & _). cbn [fst snd]. lia.
Qed.

(** ** Colliding hashes *)
Lemma dup_or_not (l : list Z) : NoDup l \/ exists i j z, (i < j)%nat /\ nth_error l i = Some z /\ nth_error l j = Some z.
Proof.
  induction l as [|a l [IH|(i & j & z & L & A & B)]].
  - left. constructor.
  - destruct (in_dec Z.eq_dec a l) as [I|I].
    + right. apply In_nth_error in I. destruct I as [j J]. exists 0%nat, (S j), a. split; [lia|]. split; [reflexivity|exact J].
    + left. constructor; assumption.
  - right. exists (S i), (S j), z. split; [lia|]. split; assumption.
Qed.
Lemma collision (f : nat -> Z) (B : Z) : (forall i, (0 <= f i < B)%Z) -> exists i j, (0 < i < j)%nat /\ f i = f j.
Proof.
  intros H. set (l := seq 1 (S (Z.to_nat B))). destruct (dup_or_not (map f l)) as [ND|ND].
  - exfalso. assert (I : incl (map f l) (map Z.of_nat (seq 0 (Z.to_nat B)))).
    { intros z Hz. apply in_map_iff in Hz. destruct Hz as (i & <- & _). specialize (H i). apply in_map_iff. exists (Z.to_nat (f i)). split; [lia|apply in_seq; lia]. }
    pose proof (NoDup_incl_length ND I) as LE. unfold l in LE. rewrite !map_length, !seq_length in LE. lia.
  - destruct ND as (i & j & z & IJ & N1 & N2).
    assert (G : forall k, nth_error (map f l) k = Some z -> f (k + 1)%nat = z).
    { intros k Hk. assert (K : (k < length l)%nat). { assert (X : nth_error (map f l) k <> None) by congruence. apply nth_error_Some in X. rewrite map_length in X. exact X. }
      rewrite nth_error_map in Hk. rewrite (nth_error_nth' l 0%nat K) in Hk. cbn [option_map] in Hk. assert (E : f (nth k l 0%nat) = z) by congruence. rewrite <- E. unfold l in K |- *. rewrite seq_length in K. rewrite seq_nth by exact K. f_equal. lia. }
    exists (i + 1)%nat, (j + 1)%nat. split; [lia|]. rewrite (G _ N1), (G _ N2). reflexivity.
Qed.
Lemma sorted_unique (l m : list nat) : StronglySorted lt l -> StronglySorted lt m -> (forall x, In x l <-> In x m) -> l = m.
Proof.
  revert m. induction l as [|a l IH]; intros [|b m] SL SM E.
  - reflexivity.
  - exfalso. apply (proj2 (E b)). left. reflexivity.
  - exfalso. apply (proj1 (E a)). left. reflexivity.
  - inversion SL as [|? ? SL1 SL2]; inversion SM as [|? ? SM1 SM2]; subst. rewrite Forall_forall in SL2, SM2.
    assert (a = b) as <-. { destruct (proj1 (E a) (or_introl eq_refl)) as [H|H]; [auto|]. destruct (proj2 (E b) (or_introl eq_refl)) as [H'|H']; [auto|]. specialize (SL2 _ H'). specialize (SM2 _ H). lia. }
    f_equal. apply IH; auto. intros x. split; intros H.
    + destruct (proj1 (E x) (or_intror H)) as [<-|H']; [specialize (SL2 _ H); lia|exact H'].
    + destruct (proj2 (E x) (or_intror H)) as [<-|H']; [specialize (SM2 _ H); lia|exact H'].
Qed.
Lemma sorted_filter (p : nat -> bool) l : StronglySorted lt l -> StronglySorted lt (filter p l).
Proof.
  induction 1 as [|a l H IH F]; simpl; [constructor|]. destruct (p a); [|exact IH]. constructor; [exact IH|]. rewrite Forall_forall in *. intros x Hx. apply filter_In in Hx. apply F, Hx.
Qed.
Lemma sorted_seq n : forall m, StronglySorted lt (seq m n).
Proof. induction n as [|n IH]; intros m; simpl; constructor; [apply IH|]. rewrite Forall_forall. intros x Hx. apply in_seq in Hx. lia. Qed.

(** ** Concrete surfaces for the examples: a cloud of unconnected vertex samples *)
Definition cloud_samples (ps : list v3) : list sample := map (fun p => Sample p (V3 0 0 1) v3_0 0) ps.
Definition cloud (P : bg_params) (ps : list v3) : base :=
  Base P [] ps (cloud_samples ps) (repeat [] (length ps)) SVertex (build_tree (cloud_samples ps)).
Definition cloud_mls (P : bg_params) (r step : R) (ps : list v3) : local_mls := LocalMls (LCubic 1) r step (cloud P ps).
Lemma nth_repeat_nil (i n : nat) : nth i (repeat (@nil nat) n) [] = [].
Proof. revert i. induction n as [|n IH]; intros [|i]; simpl; auto. Qed.
Lemma cloud_ok P ps : well_formed (cloud P ps) /\ current (cloud P ps) /\ sampled (cloud P ps).
Proof.
  split; [|split; [reflexivity|]].
  - split; [intros t v []|]. cbn [sb_type cloud sb_samples sb_verts sb_dual sb_topo]. split; [apply map_length|]. split; [right; apply repeat_length|].
    intros i t. rewrite nth_repeat_nil. simpl. intuition lia.
  - unfold sampled, cloud, cloud_samples. cbn [sb_samples sb_type sb_verts]. rewrite map_map. apply map_id.
Qed.
Lemma cloud_gap P ps q i r : (i < length ps)%nat -> 0 <= r -> (gap (sb_samples (cloud P ps)) q i <= r <-> norm2 (v3_sub q (nth i ps v3_0)) <= r * r).
Proof.
  intros L H. rewrite <- gap_dist2 by exact H. unfold dist2, smp. cbn [sb_samples cloud]. unfold cloud_samples.
  rewrite (nth_map_d _ ps v3_0) by exact L. reflexivity.
Qed.
Lemma potentials_nth k P S : forall qs ns out, length ns = length qs -> length out = length qs -> length (potentials k P S qs ns out) = length out /\
  forall i, (i < length qs)%nat -> nth i (potentials k P S qs ns out) 0 = potential_at (nth i qs v3_0) S (nth i ns []) k P (nth i out 0).
Proof.
  induction qs as [|q qs IH]; intros [|n ns] [|v out] L1 L2; simpl in *; try discriminate; [split; [reflexivity|lia]|].
  destruct (IH ns out ltac:(lia) ltac:(lia)) as [A B]. split; [congruence|]. intros [|i] H; [reflexivity|]. apply B. lia.
Qed.
Lemma spherical_radius k r : k_radius (as_spherical k r) = Some (r * radius_multiplier k).
Proof. destruct k; reflexivity. Qed.
(** A cached list after moves: within range, without repetition, and covering. *)
Lemma covers o hash s n qs t changed new rebuild qs' ds dq : faithful o -> well_formed (lm_base s) -> current (lm_base s) -> sampled (lm_base s) ->
  reset o hash qs (QLocal s n) = Some (t, changed) ->
  moved_at_most ds (sb_verts (lm_base s)) new -> moved_at_most dq qs qs' -> ds + dq <= lm_max_step s ->
  forall k, (k < length qs')%nat -> (exists i, within (sb_samples (q_base (fst (update_surface t new rebuild)))) (nth k qs' v3_0) (lm_radius s) i) ->
  NoDup (nth k (trivial_neighborhood (fst (update_surface t new rebuild))) []) /\
  (forall i, In i (nth k (trivial_neighborhood (fst (update_surface t new rebuild))) []) -> (i < length (sb_samples (q_base (fst (update_surface t new rebuild)))))%nat) /\
  forall i, within (sb_samples (q_base (fst (update_surface t new rebuild)))) (nth k qs' v3_0) (lm_radius s) i ->
    In i (nth k (trivial_neighborhood (fst (update_surface t new rebuild))) []).
Proof.
  intros F WF CU SA RS MV MQ ST k Hk [i0 W0].
  destruct (reset_sets _ _ _ _ _ _ _ RS) as (cl & ex & T & _). destruct MQ as [LQ MQ]. destruct MV as [LV MV0].
  assert (ET : exists b', fst (update_surface t new rebuild) = QLocal (LocalMls (lm_kernel s) (lm_base_radius s) (lm_max_step s) b') (Nbh cl (map (fun q => t_locate o (sb_tree (lm_base s)) q ((lm_radius s + lm_max_step s) * (lm_radius s + lm_max_step s))) qs) ex)
    /\ b' = fst (update_base (lm_base s) new rebuild)).
  { rewrite T. unfold update_surface. destruct (update_base (lm_base s) new rebuild) as [b' c]. eexists. split; reflexivity. }
  destruct ET as (b' & ET & EB). rewrite ET in *. cbn [trivial_neighborhood q_base lm_base n_trivial] in *. clear ET.
  destruct (update_keeps (lm_base s) new rebuild WF LV) as (_ & SA' & LS & _). rewrite <- EB in SA', LS.
  assert (UV : sb_verts b' = new) by (rewrite EB; apply update_verts; exact LV).
  assert (TY : sb_type b' = sb_type (lm_base s) /\ sb_topo b' = sb_topo (lm_base s)) by (rewrite EB; split; reflexivity). destruct TY as [TY TO].
  assert (SM : forall i, (i < length (sb_samples (lm_base s)))%nat -> v3_norm (v3_sub (s_pos (smp (sb_samples b') i)) (s_pos (smp (sb_samples (lm_base s)) i))) <= ds).
  { intros i Hi. apply samples_move; auto. rewrite UV. split; assumption. }
  rewrite LQ in Hk. pose proof (MQ k Hk) as MK. unfold pt in MK.
  assert (IM : forall i, within (sb_samples b') (nth k qs' v3_0) (lm_radius s) i -> (i < length (sb_samples (lm_base s)))%nat /\ gap (sb_samples (lm_base s)) (nth k qs v3_0) i <= lm_radius s + lm_max_step s).
  { intros i [I1 I2]. rewrite LS in I1. split; [exact I1|]. pose proof (gap_moves _ _ _ _ i _ _ _ I2 (SM i I1) MK). lra. }
  assert (RP : 0 <= lm_radius s + lm_max_step s) by (destruct (IM i0 W0) as [_ G]; pose proof (norm_nonneg (away (sb_samples (lm_base s)) (nth k qs v3_0) i0)); unfold gap in G; lra).
  rewrite (nth_map_d _ qs v3_0) by exact Hk. rewrite CU. destruct (F (sb_samples (lm_base s)) (nth k qs v3_0)) as (F1 & F2 & _).
  split; [apply F2|]. split.
  - intros i Hi. apply F1 in Hi; [|exact RP]. rewrite LS. apply Hi.
  - intros i Hi. apply F1; [exact RP|]. apply IM. exact Hi.
Qed.
(** What [reset] on a cloud gives when the neighbours are two given samples, 0 being the nearest. *)
Lemma cloud_reset hash P r ps q a m : (0 < a < length ps)%nat -> 0 < r -> 
  (forall i, (i < length ps)%nat -> (norm2 (v3_sub q (nth i ps v3_0)) <= r * r <-> i = 0%nat \/ i = a)) ->
  (forall i, (0 < i < length ps)%nat -> norm2 (v3_sub q (nth 0 ps v3_0)) < norm2 (v3_sub q (nth i ps v3_0))) ->
  exists changed, reset scan hash [q] (QLocal (cloud_mls P r 0 ps) m) = Some (QLocal (cloud_mls P r 0 ps) (Nbh [0]%nat [[0; a]]%nat [[0; a]]%nat), changed).
Proof.
  intros A R N C. destruct (cloud_ok P ps) as (WF & CU & _).
  assert (RR : lm_radius (cloud_mls P r 0 ps) + lm_max_step (cloud_mls P r 0 ps) = r) by (unfold lm_radius, cloud_mls; simpl; ring).
  destruct (reset_exact scan hash [q] (cloud_mls P r 0 ps) m scan_faithful WF CU) as (n' & changed & E & _ & _ & _ & X).
  { rewrite RR. lra. }
  { intros _. cbn [lm_base cloud_mls cloud sb_samples]. destruct ps; [simpl in A; lia|discriminate]. }
  destruct (reset_sets _ _ _ _ _ _ _ E) as (cl & ex & EN & A2 & A3 & _).
  match type of EN with QLocal _ ?a = QLocal _ ?b => assert (EN' : a = b) by congruence end. clear EN. subst n'. cbn [map] in *.
  specialize (X 0%nat ltac:(simpl; lia)). unfold exact_at in X. cbv zeta in X. cbn [n_closest n_trivial n_extended nth] in X. rewrite RR in *.
  destruct X as ((C1 & C2) & (_ & T2) & (E1 & E2)). inversion A2 as [|? c ? cl0 _ A2']; subst. inversion A2'; subst. inversion A3 as [|? e ? ex0 _ A3']; subst. inversion A3'; subst. cbn [nth] in *. clear A2 A2' A3 A3'.
  set (tr := t_locate scan (sb_tree (lm_base (cloud_mls P r 0 ps))) q (r * r)) in *.
  assert (LS : length (sb_samples (lm_base (cloud_mls P r 0 ps))) = length ps) by apply map_length.
  assert (MEM : forall i, In i tr <-> In i [0; a]%nat).
  { intros i. rewrite T2. unfold within. rewrite LS. split.
    - intros [I1 I2]. apply (cloud_gap P) in I2; [|exact I1|lra]. apply N in I2; [|exact I1]. simpl. intuition.
    - intros I. assert (I' : i = 0%nat \/ i = a) by (simpl in I; intuition). assert (L : (i < length ps)%nat) by (destruct I'; lia). split; [exact L|].
      apply (cloud_gap P); [exact L|lra|]. apply N; assumption. }
  assert (SO : StronglySorted lt [0; a]%nat) by (repeat constructor; lia).
  assert (TR : tr = [0; a]%nat).
  { apply sorted_unique; [|exact SO|exact MEM]. apply sorted_filter, sorted_seq. }
  assert (EX : e = [0; a]%nat).
  { apply sorted_unique; [exact E1|exact SO|]. intros v. rewrite E2, MEM. split; [|auto]. intros [H|(_ & _ & i & t & _ & T & _)]; [exact H|destruct T]. }
  assert (CZ : c = 0%nat).
  { destruct c as [|c]; [reflexivity|]. exfalso. rewrite LS in *. specialize (C (S c) ltac:(lia)). specialize (C2 0%nat ltac:(lia)).
    set (g := gap (sb_samples (cloud P ps)) q 0) in *. assert (G : 0 <= g) by apply norm_nonneg.
    assert (X1 : norm2 (v3_sub q (nth (S c) ps v3_0)) <= g * g) by (apply (cloud_gap P ps q (S c) g C1 G); exact C2).
    assert (X2 : g * g = norm2 (v3_sub q (nth 0 ps v3_0))).
    { unfold g, gap. rewrite v3_norm_sq. unfold norm2, away, smp. cbn [sb_samples cloud]. unfold cloud_samples. rewrite (nth_map_d _ ps v3_0) by lia. reflexivity. }
    lra. }
  subst c e. rewrite TR in E. eauto.
Qed.
