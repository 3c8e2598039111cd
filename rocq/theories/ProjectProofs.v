From Coq Require Import Reals List Bool Lra Lia.
From Verif Require Import Vec3 RList KernelModel FieldModel NeighborModel ProjectModel ProjectSpec.
Import ListNotations.
Local Open Scope R_scope.

Lemma mapi_nth {A B} (f : nat -> A -> B) l i : nth_error (mapi f l) i = option_map (f i) (nth_error l i).
Proof.
  unfold mapi, enumerate. assert (G : forall l k i, nth_error (map (fun p => f (fst p) (snd p)) (combine (seq k (length l)) l)) i = option_map (f (k + i)%nat) (nth_error l i)).
  { clear. induction l as [|a l IH]; intros k [|i]; cbn [length seq combine map nth_error option_map fst snd]; try reflexivity.
    - rewrite Nat.add_0_r. reflexivity.
    - rewrite IH. replace (S k + i)%nat with (k + S i)%nat by lia. reflexivity. }
  apply (G l 0%nat i).
Qed.
Lemma mapi_length {A B} (f : nat -> A -> B) l : length (mapi f l) = length l.
Proof. unfold mapi, enumerate. rewrite map_length, combine_length, seq_length. lia. Qed.

Lemma violating_true iso w : violating iso w = true <-> w_pot w < iso /\ w_nml w <> 0.
Proof. unfold violating. destruct (Rlt_dec (w_pot w) iso), (Req_EM_T (w_nml w) 0); split; intros H; try discriminate; try tauto. Qed.
Lemma overshoots_true iso eps w : overshoots iso eps w = true <-> w_pot w < iso /\ iso + eps < w_cpot w /\ w_nml w <> 0.
Proof. unfold overshoots. destruct (Rlt_dec (w_pot w) iso), (Rlt_dec (iso + eps) (w_cpot w)), (Req_EM_T (w_nml w) 0); split; intros H; try discriminate; try tauto. Qed.

(** The number in a buffer does not matter. *)
Definition buf (F : field) (i : nat) (v : R) : Prop := (forall q u, f_pot F i q u = f_pot F i q 0) \/ (v = 0 /\ forall q u, f_pot F i q u = u).
Lemma buf_reads F i v q : buf F i v -> f_pot F i q v = level F i q.
Proof. intros [H|[-> H]]; [apply H|reflexivity]. Qed.
Lemma buf_next F i v q m : buf F i v -> buf F i (f_pot F i q v * m).
Proof. intros [H|[-> H]]; [left; exact H|right; split; [rewrite H; ring|exact H]]. Qed.
Lemma buf_zero F i : steady F i -> buf F i 0.
Proof. intros [H|H]; [left; exact H|right; split; [reflexivity|exact H]]. Qed.

Lemma existsb_none {A} (p : A -> bool) l i a : existsb p l = false -> nth_error l i = Some a -> p a = false.
Proof.
  intros E N. apply nth_error_In in N. destruct (p a) eqn:T; [|reflexivity]. rewrite <- E. symmetry. apply existsb_exists. eauto.
Qed.

Lemma v3_scale_scale a b v : v3_scale a (v3_scale b v) = v3_scale (a * b) v.
Proof. destruct v. unfold v3_scale. cbn. f_equal; ring. Qed.
Lemma v3_scale_1 v : v3_scale 1 v = v.
Proof. destruct v. unfold v3_scale. cbn. f_equal; ring. Qed.
Lemma norm_zero_iff v : v3_norm v = 0 <-> v = v3_0.
Proof.
  split; [|intros ->; unfold v3_norm, v3_dot; cbn; rewrite ?Rmult_0_l, ?Rplus_0_l; apply sqrt_0].
  destruct v as [x y z]. unfold v3_norm, v3_dot. cbn. intros H. apply sqrt_eq_0 in H; [|nra].
  unfold v3_0. f_equal; nra.
Qed.

Section Search.
Context (F : field) (mult iso eps : R).

(** One point before and after the search. *)
Definition searched (n : nat) (i : nat) (w w' : walker) (ok : bool) : Prop :=
  w_q w' = w_q w /\ w_pot w' = w_pot w /\ w_nml w' = w_nml w /\ (buf F i (w_cpot w) -> buf F i (w_cpot w')) /\
  (violating iso w = false -> w_cand w' = w_cand w) /\
  (violating iso w = true -> exists k, (k < n)%nat /\ w_cand w' = v3_add (w_q w) (v3_scale (/ 2 ^ k) (w_step w)) /\
     (ok = true -> buf F i (w_cpot w) -> level F i (w_cand w') * mult <= iso + eps)).

Lemma violating_ext w w' : w_pot w' = w_pot w -> w_nml w' = w_nml w -> violating iso w' = violating iso w.
Proof. unfold violating. intros -> ->. reflexivity. Qed.

Lemma search_spec n : forall ws ws' ok, (0 < n)%nat -> search F mult iso eps n ws = (ws', ok) ->
  forall i w, nth_error ws i = Some w -> exists w', nth_error ws' i = Some w' /\ searched n i w w' ok.
Proof.
  induction n as [|m IH]; intros ws ws' ok L E i w N; [lia|]. cbn [search] in E.
  assert (T : nth_error (mapi (try_step F mult iso) ws) i = Some (try_step F mult iso i w)) by (rewrite mapi_nth, N; reflexivity).
  set (t := try_step F mult iso i w) in *.
  assert (TQ : w_q t = w_q w /\ w_pot t = w_pot w /\ w_nml t = w_nml w /\ w_step t = w_step w) by (repeat split).
  destruct TQ as (Q1 & Q2 & Q3 & Q4).
  assert (TC : w_cpot t = f_pot F i (w_cand t) (w_cpot w) * mult) by reflexivity.
  assert (TB : buf F i (w_cpot w) -> buf F i (w_cpot t)) by (intros B; rewrite TC; apply buf_next, B).
  assert (TV : violating iso w = true -> w_cand t = v3_add (w_q w) (w_step w)) by (intros V; unfold t, try_step; rewrite V; reflexivity).
  assert (TN : violating iso w = false -> w_cand t = w_cand w) by (intros V; unfold t, try_step; rewrite V; reflexivity).
  destruct (existsb (overshoots iso eps) (mapi (try_step F mult iso) ws)) eqn:OV.
  - set (h := halve iso eps t).
    assert (HN : nth_error (map (halve iso eps) (mapi (try_step F mult iso) ws)) i = Some h) by (rewrite nth_error_map, T; reflexivity).
    assert (HQ : w_q h = w_q w /\ w_pot h = w_pot w /\ w_nml h = w_nml w /\ w_cand h = w_cand t /\ w_cpot h = w_cpot t).
    { unfold h, halve. destruct (overshoots iso eps t); cbn [w_q w_cand w_pot w_cpot w_step w_nml]; rewrite ?Q1, ?Q2, ?Q3; repeat split. }
    destruct HQ as (H1 & H2 & H3 & H4 & H5).
    assert (HS : exists j, (j <= 1)%nat /\ w_step h = v3_scale (/ 2 ^ j) (w_step w)).
    { unfold h, halve. destruct (overshoots iso eps t); cbn [w_step]; rewrite Q4.
      - exists 1%nat. split; [lia|]. f_equal. cbn. field.
      - exists 0%nat. split; [lia|]. cbn [pow]. rewrite Rinv_1, v3_scale_1. reflexivity. }
    destruct (Nat.eqb m 0) eqn:M.
    + injection E as <- <-. exists h. split; [exact HN|]. unfold searched. rewrite H1, H2, H3, H4, H5.
      split; [reflexivity|]. split; [reflexivity|]. split; [reflexivity|]. split; [exact TB|]. split; [exact TN|].
      intros V. exists 0%nat. split; [lia|]. split; [|discriminate]. cbn [pow]. rewrite Rinv_1, v3_scale_1. apply TV, V.
    + apply Nat.eqb_neq in M. destruct (IH _ _ _ ltac:(lia) E _ _ HN) as (w' & N' & S1 & S2 & S3 & S4 & S5 & S6).
      assert (VH : violating iso h = violating iso w) by (apply violating_ext; assumption).
      exists w'. split; [exact N'|]. unfold searched. rewrite S1, S2, S3, H1, H2, H3.
      split; [reflexivity|]. split; [reflexivity|]. split; [reflexivity|].
      split; [intros B; apply S4; rewrite H5; apply TB, B|]. split.
      * intros V. rewrite S5 by (rewrite VH; exact V). rewrite H4. apply TN, V.
      * intros V. rewrite VH in S6. destruct (S6 V) as (k & K & C & G). destruct HS as (j & J & HS).
        exists (k + j)%nat. split; [|split].
        -- lia.
        -- rewrite C, H1, HS, v3_scale_scale. f_equal. f_equal. rewrite pow_add, Rinv_mult. reflexivity.
        -- intros OK B. apply G; [exact OK|]. rewrite H5. apply TB, B.
  - injection E as <- <-. exists t. split; [exact T|]. unfold searched. rewrite Q1, Q2, Q3.
    split; [reflexivity|]. split; [reflexivity|]. split; [reflexivity|]. split; [exact TB|]. split; [exact TN|].
    intros V. exists 0%nat. split; [lia|]. split; [cbn [pow]; rewrite Rinv_1, v3_scale_1; apply TV, V|].
    intros _ B. pose proof (existsb_none _ _ _ _ OV T) as O. apply violating_true in V. destruct V as [V1 V2].
    destruct (Rle_dec (w_cpot t) (iso + eps)) as [Le|Gt].
    + rewrite TC in Le. rewrite buf_reads in Le by exact B. exact Le.
    + exfalso. assert (overshoots iso eps t = true); [|congruence]. apply overshoots_true. rewrite Q2, Q3. split; [exact V1|]. split; [lra|exact V2].
Qed.
Lemma search_length n : forall ws, length (fst (search F mult iso eps n ws)) = length ws.
Proof.
  induction n as [|m IH]; intros ws; cbn [search]; [reflexivity|].
  destruct (existsb _ _); [|cbn [fst]; apply mapi_length]. destruct (Nat.eqb m 0); cbn [fst]; [|rewrite IH]; rewrite map_length, mapi_length; reflexivity.
Qed.
Lemma walk_length n : forall c ws, length (fst (walk F mult iso eps n c ws)) = length ws.
Proof.
  induction n as [|m IH]; intros c ws; cbn [walk]; [reflexivity|].
  destruct (existsb _ _); [|cbn [fst]; apply mapi_length].
  destruct (search F mult iso eps 10 _) as [found ok] eqn:E. rewrite IH, map_length.
  pose proof (search_length 10 (map (aim mult iso eps) (mapi (evaluate F mult) ws))) as L. rewrite E in L. cbn [fst] in L. rewrite L, map_length, mapi_length. reflexivity.
Qed.
(** The flag never becomes true again. *)
Lemma walk_sticky n : forall ws, snd (walk F mult iso eps n false ws) = false.
Proof.
  induction n as [|m IH]; intros ws; cbn [walk]; [reflexivity|]. destruct (existsb _ _); [|reflexivity].
  destruct (search F mult iso eps 10 _). apply IH.
Qed.
End Search.

Section Walk.
Context (F : field) (s : side) (iso eps : R).
Let mult := multiplier s.
Let lvl := iso * mult.

Lemma below_level x : x * mult < lvl <-> ~ on_side s iso x.
Proof. unfold mult, lvl, on_side. destruct s; cbn; lra. Qed.
Lemma near_level_iff x : x * mult <= lvl + eps <-> near_level s iso eps x.
Proof. unfold mult, lvl, near_level. destruct s; cbn; lra. Qed.
Lemma short_level x : lvl - x * mult = short s iso x.
Proof. unfold mult, lvl, short. destruct s; cbn; ring. Qed.
Lemma toward_level g c : v3_scale (mult * c) g = v3_scale c (toward s g).
Proof. unfold mult, toward. destruct s, g; unfold v3_scale, v3_neg; cbn; f_equal; ring. Qed.

(** State of a point between the outer iterations. *)
Definition resting (i : nat) (w : walker) : Prop := w_cand w = w_q w /\ buf F i (w_pot w) /\ buf F i (w_cpot w).
Lemma walk_spec n : forall c ws ws' c', walk F mult lvl eps n c ws = (ws', c') -> (n = 0%nat -> c = false) ->
  forall i w, nth_error ws i = Some w -> resting i w ->
  exists w' k, nth_error ws' i = Some w' /\ (k <= n)%nat /\ path F s iso eps i k (w_q w) (w_q w') /\
    (c' = true -> (on_side s iso (level F i (w_q w')) \/ f_jac F i (w_q w') = v3_0) /\ (w_q w' = w_q w \/ near_level s iso eps (level F i (w_q w')))).
Proof.
  induction n as [|m IH]; intros c ws ws' c' E Z i w N (RC & RP & RV).
  - cbn [walk] in E. injection E as <- <-. exists w, 0%nat. split; [exact N|]. split; [lia|]. split; [constructor|]. rewrite Z by reflexivity. discriminate.
  - cbn [walk] in E. set (e := evaluate F mult i w).
    assert (EN : nth_error (mapi (evaluate F mult) ws) i = Some e) by (rewrite mapi_nth, N; reflexivity).
    assert (EP : w_pot e = level F i (w_q w) * mult) by (unfold e, evaluate; cbn [w_pot]; rewrite buf_reads by exact RP; reflexivity).
    assert (EB : buf F i (w_pot e)) by (unfold e, evaluate; cbn [w_pot]; apply buf_next, RP).
    assert (EJ : w_nml e = v3_norm (f_jac F i (w_q w))) by reflexivity.
    assert (EV : violating lvl e = true <-> ~ on_side s iso (level F i (w_q w)) /\ f_jac F i (w_q w) <> v3_0).
    { rewrite violating_true, EP, EJ, below_level, norm_zero_iff. reflexivity. }
    destruct (existsb (violating lvl) (mapi (evaluate F mult) ws)) eqn:V.
    + destruct (search F mult lvl eps 10 (map (aim mult lvl eps) (mapi (evaluate F mult) ws))) as [found ok] eqn:SE.
      set (a := aim mult lvl eps e).
      assert (AN : nth_error (map (aim mult lvl eps) (mapi (evaluate F mult) ws)) i = Some a) by (rewrite nth_error_map, EN; reflexivity).
      assert (AQ : w_q a = w_q w /\ w_cand a = w_q w /\ w_pot a = w_pot e /\ w_nml a = w_nml e /\ w_cpot a = w_cpot w).
      { unfold a, aim. destruct (violating lvl e); cbn [w_q w_cand w_pot w_nml w_cpot]; (split; [reflexivity|]; split; [exact RC|]); repeat split. }
      destruct AQ as (A1 & A2 & A3 & A4 & A5).
      assert (AV : violating lvl a = violating lvl e) by (apply violating_ext; assumption).
      destruct (search_spec F mult lvl eps 10 _ _ _ ltac:(lia) SE _ _ AN) as (f & FN & F1 & F2 & F3 & F4 & F5 & F6).
      assert (GN : nth_error (map accept found) i = Some (accept f)) by (rewrite nth_error_map, FN; reflexivity).
      assert (GR : resting i (accept f)).
      { split; [reflexivity|]. split; [|]; unfold accept; cbn [w_pot w_cpot]; [rewrite F2, A3; exact EB|apply F4; rewrite A5; exact RV]. }
      assert (GZ : m = 0%nat -> c && ok && negb (Nat.eqb m 0) = false) by (intros ->; cbn; apply andb_false_r).
      destruct (IH _ _ _ _ E GZ _ _ GN GR) as (w' & k & WN & K & PA & D).
      assert (FLAG : c' = true -> c = true /\ ok = true).
      { intros ->. destruct c, ok; try (split; reflexivity); cbn [andb] in E; pose proof (walk_sticky F mult lvl eps m (map accept found)) as SK; rewrite E in SK; discriminate. }
      exists w'. destruct (violating lvl e) eqn:VE.
      * destruct (F6 AV) as (j & J & C & G).
        assert (MV : one_move F s iso eps i (w_q w) (w_q (accept f))).
        { destruct (proj1 EV eq_refl) as [O1 O2]. split; [exact O1|]. split; [exact O2|]. exists j. split; [lia|].
          unfold accept. cbn [w_q]. rewrite C, A1. f_equal. unfold a, aim. rewrite VE. cbn [w_step]. rewrite v3_scale_scale.
          change (w_step e) with (f_jac F i (w_q w)). rewrite EJ, EP, short_level.
          rewrite <- toward_level. f_equal. field. split; [apply pow_nonzero; lra|rewrite norm_zero_iff; exact O2]. }
        exists (S k). split; [exact WN|]. split; [lia|]. split; [exact (path_move _ _ _ _ _ _ _ _ _ MV PA)|].
        intros CT. destruct (FLAG CT) as [_ OK]. destruct (D CT) as [D1 D2]. split; [exact D1|]. right.
        destruct D2 as [D2|D2]; [|exact D2]. rewrite D2. apply near_level_iff. apply G; [exact OK|rewrite A5; exact RV].
      * assert (Q : w_q (accept f) = w_q w) by (unfold accept; cbn [w_q]; rewrite F5, A2 by (rewrite AV; reflexivity); reflexivity).
        exists k. split; [exact WN|]. split; [lia|]. rewrite Q in PA, D. split; [exact PA|exact D].
    + injection E as <- <-. exists e, 0%nat. split; [exact EN|]. split; [lia|]. split; [constructor|]. intros _. split; [|left; reflexivity].
      pose proof (existsb_none _ _ _ _ V EN) as NV. change (w_q e) with (w_q w).
      destruct (Rlt_dec (level F i (w_q w) * mult) lvl) as [L|L].
      * right. destruct (Req_EM_T (v3_norm (f_jac F i (w_q w))) 0) as [T|T]; [apply norm_zero_iff, T|]. exfalso.
        assert (violating lvl e = true); [|congruence]. apply violating_true. rewrite EP, EJ. split; assumption.
      * left. rewrite below_level in L. unfold on_side in *. destruct s; lra.
Qed.
End Walk.

Theorem project_spec F s iso eps qs qs' c : project_field F s iso eps qs = (qs', c) -> length qs' = length qs /\
  forall i q, nth_error qs i = Some q -> steady F i -> exists q' k, nth_error qs' i = Some q' /\ (k <= 20)%nat /\ path F s iso eps i k q q' /\
    (c = true -> (on_side s iso (level F i q') \/ f_jac F i q' = v3_0) /\ (q' = q \/ near_level s iso eps (level F i q'))).
Proof.
  unfold project_field. intros E. destruct (walk F (multiplier s) (iso * multiplier s) eps 20 true (map walker_new qs)) as [ws c0] eqn:W.
  injection E as <- <-. split.
  - rewrite map_length. pose proof (walk_length F (multiplier s) (iso * multiplier s) eps 20 true (map walker_new qs)) as L. rewrite W in L. cbn [fst] in L. rewrite L, map_length. reflexivity.
  - intros i q N ST. assert (N' : nth_error (map walker_new qs) i = Some (walker_new q)) by (rewrite nth_error_map, N; reflexivity).
    destruct (walk_spec F s iso eps 20 _ _ _ _ W ltac:(discriminate) _ _ N') as (w' & k & WN & K & PA & D).
    { split; [reflexivity|]. split; apply buf_zero, ST. }
    exists (w_q w'), k. split; [rewrite nth_error_map, WN; reflexivity|]. split; [exact K|]. split; [exact PA|exact D].
Qed.
