(** Lemmas about contact penalty, maximum step and line-search assistance. *)
From Coq Require Import Reals List Lra Psatz Lia Permutation.
From Coquelicot Require Import Coquelicot.
From Verif Require Import Calc Vec3 RList ContactModel ContactSpec.
Import ListNotations.
Local Open Scope R_scope.

(** ** Penalty *)
Lemma penalty_zero (delta x : R) : delta <= x -> penalty_b delta x = 0 /\ penalty_db delta x = 0 /\ penalty_ddb delta x = 0.
Proof. intros H. unfold penalty_b, penalty_db, penalty_ddb. destruct (Rlt_dec 0 (delta - x)); [lra|auto]. Qed.

Lemma penalty_in (delta x : R) : x < delta ->
  penalty_b delta x = (delta - x) * (delta - x) * (delta - x) / delta /\
  penalty_db delta x = - 3 * (delta - x) * (delta - x) / delta /\
  penalty_ddb delta x = 6 * (delta - x) / delta.
Proof. intros H. unfold penalty_b, penalty_db, penalty_ddb. destruct (Rlt_dec 0 (delta - x)); [auto|lra]. Qed.

Lemma penalty_pos (delta x : R) : 0 < delta -> x < delta -> 0 < penalty_b delta x.
Proof.
  intros Hd Hx. rewrite (proj1 (penalty_in delta x Hx)).
  apply Rdiv_lt_0_compat; [|exact Hd]. repeat apply Rmult_lt_0_compat; lra.
Qed.
Lemma penalty_decr (delta x y : R) : 0 < delta -> x < y -> x < delta -> penalty_b delta y < penalty_b delta x.
Proof.
  intros Hd Hxy Hx. destruct (Rle_lt_dec delta y) as [H|H].
  - rewrite (proj1 (penalty_zero delta y H)). apply penalty_pos; assumption.
  - rewrite (proj1 (penalty_in delta x Hx)), (proj1 (penalty_in delta y H)).
    unfold Rdiv. apply Rmult_lt_compat_r; [apply Rinv_0_lt_compat; exact Hd|].
    set (a := delta - x). set (b := delta - y). assert (0 < b < a) by (unfold a, b; lra).
    assert (b * b < a * a) by nra. nra.
Qed.
Lemma penalty_derive (delta x : R) : 0 < delta ->
  is_derive (penalty_b delta) x (penalty_db delta x) /\ is_derive (penalty_db delta) x (penalty_ddb delta x).
Proof.
  intros Hd.
  assert (Hb : forall y, y <= delta -> penalty_b delta y = (delta - y) * (delta - y) * (delta - y) / delta).
  { intros y [Hy|Hy]; [apply (penalty_in delta y Hy)|]. subst y. rewrite (proj1 (penalty_zero delta delta ltac:(lra))). field. lra. }
  assert (Hdb : forall y, y <= delta -> penalty_db delta y = - 3 * (delta - y) * (delta - y) / delta).
  { intros y [Hy|Hy]; [apply (penalty_in delta y Hy)|]. subst y.
    rewrite (proj1 (proj2 (penalty_zero delta delta ltac:(lra)))). field. lra. }
  destruct (Rtotal_order x delta) as [H|[H|H]].
  - destruct (penalty_in delta x H) as (_ & E1 & E2). rewrite E1, E2. split.
    + eapply is_derive_left; [exact H|exact Hb|]. auto_derive; [exact I|field; lra].
    + eapply is_derive_left; [exact H|exact Hdb|]. auto_derive; [exact I|field; lra].
  - subst x. destruct (penalty_zero delta delta ltac:(lra)) as (_ & E1 & E2). rewrite E1, E2. split.
    + eapply is_derive_glue with (g2 := fun _ => 0); [exact Hb| | | |apply @is_derive_const].
      * intros y Hy. apply (penalty_zero delta y). lra.
      * simpl. field. lra.
      * simpl. auto_derive; [exact I|field; lra].
    + eapply is_derive_glue with (g2 := fun _ => 0); [exact Hdb| | | |apply @is_derive_const].
      * intros y Hy. apply (penalty_zero delta y). lra.
      * simpl. field. lra.
      * simpl. auto_derive; [exact I|field; lra].
  - destruct (penalty_zero delta x ltac:(lra)) as (_ & E1 & E2). rewrite E1, E2. split.
    + apply is_derive_right with delta; [exact H|]. intros y Hy. apply (penalty_zero delta y). lra.
    + apply is_derive_right with delta; [exact H|]. intros y Hy. apply (penalty_zero delta y). lra.
Qed.

(** ** Multipliers *)
Lemma multiplier_one (delta kappa d : R) : 0 < delta -> 0 <= kappa ->
  0 <= - kappa * penalty_db delta d /\ (delta <= d -> - kappa * penalty_db delta d = 0).
Proof.
  intros Hd Hk. destruct (Rlt_le_dec d delta) as [H|H].
  - rewrite (proj1 (proj2 (penalty_in delta d H))).
    assert (0 < / delta) by (apply Rinv_0_lt_compat; lra).
    assert (0 <= (delta - d) * (delta - d) * / delta) by (apply Rmult_le_pos; [nra|lra]).
    split; [|lra]. unfold Rdiv.
    replace (- kappa * (- 3 * (delta - d) * (delta - d) * / delta)) with (3 * (kappa * ((delta - d) * (delta - d) * / delta))) by ring.
    assert (0 <= kappa * ((delta - d) * (delta - d) * / delta)) by (apply Rmult_le_pos; lra). lra.
  - rewrite (proj1 (proj2 (penalty_zero delta d H))). split; intros; lra.
Qed.
Lemma multiplier_mono (delta kappa d e : R) : 0 < delta -> 0 < kappa -> e < d -> e < delta ->
  - kappa * penalty_db delta d < - kappa * penalty_db delta e.
Proof.
  intros Hd Hk Hde He. rewrite (proj1 (proj2 (penalty_in delta e He))).
  assert (Hi : 0 < / delta) by (apply Rinv_0_lt_compat; lra).
  destruct (Rlt_le_dec d delta) as [H|H].
  - rewrite (proj1 (proj2 (penalty_in delta d H))). unfold Rdiv.
    assert (Hsq : (delta - d) * (delta - d) < (delta - e) * (delta - e)) by nra.
    replace (- kappa * (- 3 * (delta - d) * (delta - d) * / delta)) with ((3 * kappa * / delta) * ((delta - d) * (delta - d))) by ring.
    replace (- kappa * (- 3 * (delta - e) * (delta - e) * / delta)) with ((3 * kappa * / delta) * ((delta - e) * (delta - e))) by ring.
    apply Rmult_lt_compat_l; [|exact Hsq]. repeat apply Rmult_lt_0_compat; lra.
  - rewrite (proj1 (proj2 (penalty_zero delta d H))). unfold Rdiv.
    replace (- kappa * (- 3 * (delta - e) * (delta - e) * / delta)) with ((3 * kappa * / delta) * ((delta - e) * (delta - e))) by ring.
    rewrite Rmult_0_r. repeat apply Rmult_lt_0_compat; lra.
Qed.
Lemma multipliers_nth (delta kappa : R) (dist : list R) (i : nat) :
  nth_error (multipliers delta kappa dist) i = option_map (fun d => - kappa * penalty_db delta d) (nth_error dist i).
Proof. unfold multipliers. apply nth_error_map. Qed.
Lemma multipliers_spec (delta kappa : R) (dist : list R) : 0 < delta -> 0 < kappa ->
  length (multipliers delta kappa dist) = length dist /\
  (forall i l, nth_error (multipliers delta kappa dist) i = Some l -> 0 <= l) /\
  (forall i d l, nth_error dist i = Some d -> nth_error (multipliers delta kappa dist) i = Some l -> delta <= d -> l = 0) /\
  (forall i j d e l m, nth_error dist i = Some d -> nth_error dist j = Some e ->
     nth_error (multipliers delta kappa dist) i = Some l -> nth_error (multipliers delta kappa dist) j = Some m ->
     e < d -> e < delta -> l < m).
Proof.
  intros Hd Hk. split; [apply map_length|]. split; [|split].
  - intros i l H. rewrite multipliers_nth in H. destruct (nth_error dist i) as [d|]; inversion H.
    apply multiplier_one; lra.
  - intros i d l Hi Hl Hge. rewrite multipliers_nth, Hi in Hl. inversion Hl. apply multiplier_one; lra.
  - intros i j d e l m Hi Hj Hl Hm Hlt He. rewrite multipliers_nth, Hi in Hl. rewrite multipliers_nth, Hj in Hm.
    inversion Hl. inversion Hm. apply multiplier_mono; lra.
Qed.

(** ** Force is the gradient of the contact energy *)
Lemma modify_at_dot (i : nat) (g : v3) (f f' u : list v3) :
  modify_at i (fun fv => v3_sub fv g) f = Some f' -> length u = length f ->
  length f' = length f /\ power f' u = power f u - v3_dot g (nth i u v3_0).
Proof.
  revert i f' u. induction f as [|a f IH]; intros i f' u H Hl; [destruct i; discriminate|].
  destruct u as [|b u]; [discriminate|]. simpl in Hl. injection Hl as Hl.
  destruct i as [|i]; simpl in H.
  - inversion H; subst. simpl. split; [reflexivity|]. rewrite !power_cons. unfold v3_dot, v3_sub; simpl. ring.
  - destruct (modify_at i (fun fv => v3_sub fv g) f) as [f1|] eqn:E; [|discriminate]. simpl in H. inversion H; subst.
    destruct (IH i f1 u E Hl) as [L P]. simpl. rewrite L, !power_cons, P. split; [reflexivity|]. simpl. ring.
Qed.

Lemma subtract_force_dot (lambda : list R) (blocks : list (nat * nat * v3)) (u : list v3) :
  forall f f', subtract_force lambda blocks f = Some f' -> length u = length f ->
  (forall row col j, In (row, col, j) blocks -> (row < length lambda)%nat) /\
  power f' u = power f u
    - rsum (map (fun b => nth (fst (fst b)) lambda 0 * v3_dot (snd b) (nth (snd (fst b)) u v3_0)) blocks).
Proof.
  induction blocks as [|[[row col] j] rest IH]; intros f f' H Hl; simpl in H.
  - inversion H; subst. simpl. rewrite rsum_nil. split; [intros ? ? ? []|lra].
  - destruct (nth_error lambda row) as [l|] eqn:El; [|discriminate].
    destruct (modify_at col (fun fv => v3_sub fv (v3_scale l j)) f) as [f1|] eqn:Em; [|discriminate].
    destruct (modify_at_dot _ _ _ _ u Em Hl) as [L1 P1].
    destruct (IH f1 f' H ltac:(lia)) as [R1 P2].
    split.
    + intros r c k [E|Hin]; [inversion E; subst; apply nth_error_Some; congruence|apply (R1 _ _ _ Hin)].
    + simpl. rewrite rsum_cons, P2, P1. simpl.
      rewrite (nth_error_nth lambda row 0 El). unfold v3_dot, v3_scale; simpl. ring.
Qed.

Lemma energy_derive (delta kappa : R) (ds : list (R -> R)) (rates : list R) : 0 < delta ->
  Forall2 (fun d l => is_derive d 0 l) ds rates ->
  is_derive (fun s => contact_energy delta kappa (map (fun d => d s) ds)) 0
    (rsum (map (fun dr => kappa * penalty_db delta (fst dr 0) * snd dr) (combine ds rates))).
Proof.
  intros Hd HF. unfold contact_energy. induction HF as [|d l ds rates Hdl HF IH].
  - simpl. rewrite rsum_nil. apply (is_derive_ext (fun _ => 0)); [reflexivity|]. apply @is_derive_const.
  - simpl. rewrite rsum_cons.
    eapply is_derive_ext; [intros s; symmetry; apply rsum_cons|].
    apply @is_derive_plus; [|exact IH]. simpl.
    replace (kappa * penalty_db delta (d 0) * l) with (kappa * (l * penalty_db delta (d 0))) by ring.
    apply @is_derive_scal. apply (is_derive_comp (penalty_b delta) d); [apply penalty_derive; exact Hd|exact Hdl].
Qed.

Lemma force_is_gradient (delta kappa : R) (ds : list (R -> R)) (blocks : list (nat * nat * v3)) (u f : list v3) :
  0 < delta ->
  (forall i d, nth_error ds i = Some d -> is_derive d 0 (distance_rate blocks u i)) ->
  subtract_force (multipliers delta kappa (map (fun d => d 0) ds)) blocks (repeat v3_0 (length u)) = Some f ->
  is_derive (fun s => contact_energy delta kappa (map (fun d => d s) ds)) 0 (power f u).
Proof.
  intros Hd HJ HS.
  pose proof (subtract_force_dot _ blocks u _ f HS ltac:(rewrite repeat_length; reflexivity)) as [Hrow HP].
  assert (P0 : forall n (w : list v3), power (repeat v3_0 n) w = 0).
  { induction n as [|n IHn]; intros w; [reflexivity|]. destruct w as [|b w]; [reflexivity|]. simpl repeat. rewrite power_cons, IHn.
    unfold v3_dot, v3_0; simpl. ring. }
  rewrite P0 in HP.
  set (rates := map (distance_rate blocks u) (seq 0 (length ds))).
  assert (HF : Forall2 (fun d l => is_derive d 0 l) ds rates).
  { unfold rates. clear -HJ.
    assert (G : forall l off, (forall i d, nth_error l i = Some d -> is_derive d 0 (distance_rate blocks u (off + i))) ->
       Forall2 (fun d l => is_derive d 0 l) l (map (distance_rate blocks u) (seq off (length l)))).
    { induction l as [|d l IH]; intros off H; simpl; constructor.
      - specialize (H O d eq_refl). rewrite Nat.add_0_r in H. exact H.
      - apply IH. intros i e Hi. specialize (H (S i) e Hi). rewrite Nat.add_succ_r in H. exact H. }
    apply G. exact HJ. }
  pose proof (energy_derive delta kappa ds rates Hd HF) as D.
  replace (power f u) with (rsum (map (fun dr => kappa * penalty_db delta (fst dr 0) * snd dr) (combine ds rates))); [exact D|].
  rewrite HP.
  set (lam := multipliers delta kappa (map (fun d => d 0) ds)) in *.
  assert (Hlen : length lam = length ds) by (unfold lam, multipliers; rewrite !map_length; reflexivity).
  transitivity (- rsum (map (fun i => nth i lam 0 * distance_rate blocks u i) (seq 0 (length ds)))).
  - unfold rates, lam, multipliers. clear.
    assert (G : forall l off,
      rsum (map (fun dr => kappa * penalty_db delta (fst dr 0) * snd dr)
         (combine l (map (distance_rate blocks u) (seq off (length l))))) =
      - rsum (map (fun i => nth (i - off) (map (fun d => - kappa * penalty_db delta d) (map (fun d => d 0) l)) 0 * distance_rate blocks u i) (seq off (length l)))).
    { induction l as [|d l IH]; intros off; simpl; [rewrite rsum_nil; lra|].
      rewrite !rsum_cons, IH. rewrite Nat.sub_diag. simpl.
      match goal with |- _ + - rsum (map ?f ?l) = - (_ + rsum (map ?g ?l)) => replace (map g l) with (map f l); [lra|] end.
      apply map_ext_in. intros i Hi. apply in_seq in Hi. replace (i - off)%nat with (S (i - S off)) by lia. reflexivity. }
    specialize (G ds O). rewrite G. f_equal. f_equal. apply map_ext. intros i. rewrite Nat.sub_0_r. reflexivity.
  - replace (0 - rsum _) with (- rsum (map (fun b => nth (fst (fst b)) lam 0 * v3_dot (snd b) (nth (snd (fst b)) u v3_0)) blocks)) by lra.
    f_equal. unfold distance_rate.
    transitivity (rsum (map (fun i => rsum (map (fun b =>
      nth i lam 0 * (if Nat.eqb (fst (fst b)) i then v3_dot (snd b) (nth (snd (fst b)) u v3_0) else 0)) blocks)) (seq 0 (length ds)))).
    { f_equal. apply map_ext. intros i. rewrite rsum_scale. reflexivity. }
    rewrite rsum_swap. apply rsum_ext. intros [[row col] j] Hin. simpl.
    rewrite <- (rsum_seq_single (fun i => nth i lam 0 * v3_dot j (nth col u v3_0)) (length ds) row).
    + f_equal. apply map_ext. intros i. rewrite (Nat.eqb_sym row i). destruct (Nat.eqb i row); ring.
    + rewrite <- Hlen. apply (Hrow row col j Hin).
Qed.

(** ** Maximum step *)
Lemma max_step_ok (vn : option (list R)) (dt radius : R) : 0 <= radius ->
  max_step_violated vn dt radius (compute_max_step vn dt radius) = false /\ 0 <= compute_max_step vn dt radius.
Proof.
  intros Hr. destruct vn as [l|]; simpl; [|split; [reflexivity|lra]].
  set (m := max_or_zero l * dt).
  pose proof (Rmax_l 0 (1001 / 1000 * m - radius)). pose proof (Rmax_r 0 (1001 / 1000 * m - radius)).
  split; [|lra]. destruct (Rlt_dec _ m) as [H1|H1]; [exfalso|reflexivity]. lra.
Qed.
Lemma fold_max_ge (l : list R) : forall a, a <= fold_left Rmax l a /\ (forall x, In x l -> x <= fold_left Rmax l a).
Proof.
  induction l as [|b l IH]; intros a; simpl; [split; [lra|intros ? []]|].
  destruct (IH (Rmax a b)) as [H1 H2]. pose proof (Rmax_l a b). pose proof (Rmax_r a b). split; [lra|].
  intros x [E|Hx]; [subst; lra|apply H2; exact Hx].
Qed.
Lemma fold_max_in (l : list R) : forall a, fold_left Rmax l a = a \/ In (fold_left Rmax l a) l.
Proof.
  induction l as [|b l IH]; intros a; simpl; [left; reflexivity|].
  destruct (IH (Rmax a b)) as [H|H]; [|right; right; exact H].
  rewrite H. unfold Rmax. destruct (Rle_dec a b); [right; left; reflexivity|left; reflexivity].
Qed.
Lemma max_step_meaning (l : list R) (dt radius ms : R) : 0 < dt -> 0 <= ms + radius ->
  (max_step_violated (Some l) dt radius ms = true <-> exists v, In v l /\ ms + radius < v * dt).
Proof.
  intros Hdt Hm. simpl. destruct (Rlt_dec (ms + radius) (max_or_zero l * dt)) as [H|H].
  - split; [intros _|reflexivity]. destruct l as [|a l]; simpl in *; [exfalso; lra|].
    destruct (fold_max_in l a) as [E|E].
    + exists a. rewrite E in H. split; [left; reflexivity|exact H].
    + exists (fold_left Rmax l a). split; [right; exact E|exact H].
  - split; [discriminate|]. intros [v [Hin Hv]]. exfalso. apply H. destruct l as [|a l]; [destruct Hin|]. simpl.
    destruct (fold_max_ge l a) as [H1 H2].
    assert (v <= fold_left Rmax l a) by (destruct Hin as [E|Hin]; [subst; exact H1|apply H2; exact Hin]). nra.
Qed.

(** ** Contact assist *)
Lemma assist_step_le (delta a : R) (c : contact_sample) : assist_contact_step delta a c <= a.
Proof.
  unfold assist_contact_step. repeat match goal with |- context [if ?d then _ else _] => destruct d end; try lra. apply Rmin_l.
Qed.
Lemma assist_le (delta : R) (cs : list contact_sample) : forall a, assist_contact delta a cs <= a.
Proof.
  unfold assist_contact. induction cs as [|c cs IH]; intros a; simpl; [lra|].
  eapply Rle_trans; [apply IH|apply assist_step_le].
Qed.
Lemma assist_step_pos (delta a : R) (c : contact_sample) : 0 <= delta -> 0 < a -> 0 < assist_contact_step delta a c.
Proof.
  intros Hd Ha. unfold assist_contact_step. repeat match goal with |- context [if ?d then _ else _] => destruct d end; try lra.
  apply Rmin_pos; [exact Ha|]. apply Rdiv_lt_0_compat; lra.
Qed.
Lemma assist_pos (delta : R) (cs : list contact_sample) : forall a, 0 <= delta -> 0 < a -> 0 < assist_contact delta a cs.
Proof.
  unfold assist_contact. induction cs as [|c cs IH]; intros a Hd Ha; simpl; [exact Ha|].
  apply IH; [exact Hd|apply assist_step_pos; assumption].
Qed.
Lemma assist_step_comm (delta a : R) (c d : contact_sample) :
  assist_contact_step delta (assist_contact_step delta a c) d = assist_contact_step delta (assist_contact_step delta a d) c.
Proof.
  unfold assist_contact_step. repeat match goal with |- context [if ?d then _ else _] => destruct d end; try reflexivity.
  rewrite <- !Rmin_assoc. f_equal. apply Rmin_comm.
Qed.
Lemma assist_perm (delta : R) (cs ds : list contact_sample) : Permutation cs ds ->
  forall a, assist_contact delta a cs = assist_contact delta a ds.
Proof.
  unfold assist_contact. induction 1; intros a; simpl; auto.
  - rewrite assist_step_comm. reflexivity.
  - rewrite IHPermutation1. apply IHPermutation2.
Qed.
Lemma assist_keeps_separation (delta : R) (cs : list contact_sample) (c : contact_sample) : forall a, 0 <= delta -> 0 < a ->
  In c cs -> delta < cs_d1 c -> cs_d2 c <= 0 -> cs_f1 c < cs_f2 c ->
  delta / 2 <= cs_d1 c + assist_contact delta a cs * (cs_d2 c - cs_d1 c).
Proof.
  intros a Hd Ha Hin H1 H2 H3.
  assert (Hle : assist_contact delta a cs <= (cs_d1 c - 1 / 2 * delta) / (cs_d1 c - cs_d2 c)).
  { revert a Ha Hin. unfold assist_contact. induction cs as [|e cs IH]; intros a Ha Hin; [destruct Hin|]. simpl.
    destruct Hin as [E|Hin].
    - subst e. eapply Rle_trans; [apply (assist_le delta cs)|]. unfold assist_contact_step.
      destruct (Rlt_dec delta (cs_d1 c)); [|contradiction]. destruct (Rle_dec (cs_d2 c) 0); [|contradiction].
      destruct (Rlt_dec (cs_f1 c) (cs_f2 c)); [|contradiction]. apply Rmin_r.
    - apply IH; [apply assist_step_pos; assumption|exact Hin]. }
  set (r := assist_contact delta a cs) in *.
  assert (Hden : 0 < cs_d1 c - cs_d2 c) by lra.
  apply Rmult_le_compat_r with (r := cs_d1 c - cs_d2 c) in Hle; [|lra].
  replace ((cs_d1 c - 1 / 2 * delta) / (cs_d1 c - cs_d2 c) * (cs_d1 c - cs_d2 c)) with (cs_d1 c - 1 / 2 * delta) in Hle by (field; lra).
  nra.
Qed.
Lemma assist_all_bounds (l : list (R * list contact_sample)) : forall a, List.Forall (fun c : R * list contact_sample => 0 <= fst c) l -> 0 < a ->
  0 < assist_contact_all a l <= a.
Proof.
  unfold assist_contact_all. induction l as [|[d cs] l IH]; intros a HF Ha; simpl; [lra|].
  inversion HF; subst. simpl in *.
  pose proof (assist_pos d cs a ltac:(assumption) Ha). pose proof (assist_le d cs a).
  assert (E : Rmin a (assist_contact d a cs) = assist_contact d a cs) by (apply Rmin_right; lra).
  rewrite E. specialize (IH (assist_contact d a cs) ltac:(assumption) ltac:(assumption)). lra.
Qed.

(** ** Friction assist *)
Definition frac_ok (alpha : R) (acc : R * nat) : Prop :=
  INR (snd acc) * (1 / 10 ^ 10) <= fst acc <= INR (snd acc) * alpha /\
  (snd acc <> O -> INR (snd acc) * (1 / 10 ^ 10) < fst acc < INR (snd acc) * alpha).
Lemma frac_zero (alpha : R) : frac_ok alpha (0, O).
Proof. unfold frac_ok; simpl. split; [lra|intros H; congruence]. Qed.
Lemma frac_plus (alpha : R) (a b : R * nat) : frac_ok alpha a -> frac_ok alpha b ->
  frac_ok alpha (fst a + fst b, (snd a + snd b)%nat).
Proof.
  unfold frac_ok. cbn [fst snd]. rewrite plus_INR. intros [H1 H2] [H3 H4]. split; [lra|].
  intros Hn. destruct (snd a) as [|n]; [destruct (snd b) as [|m]; [exfalso; auto|]|].
  - specialize (H4 ltac:(discriminate)). change (INR 0) with 0 in *. lra.
  - specialize (H2 ltac:(discriminate)). lra.
Qed.
Lemma assist_friction_step_ok (delta alpha : R) (acc : R * nat) (c : friction_sample) :
  frac_ok alpha acc -> frac_ok alpha (assist_friction_step delta alpha acc c).
Proof.
  intros H. unfold assist_friction_step. cbv zeta.
  repeat match goal with |- context [if ?d then _ else _] => destruct d end; auto.
  set (q := - dot2 (fs_v c) (fs_v c) / (alpha * dot2 (fs_p c) (fs_v c))) in *.
  replace (S (snd acc)) with (snd acc + 1)%nat by lia.
  apply (frac_plus alpha acc (q, 1%nat)); [exact H|].
  unfold frac_ok; cbn [fst snd]. change (INR 1) with 1. split; [lra|]. intros _. lra.
Qed.
Lemma assist_friction_ok (delta alpha : R) (cs : list friction_sample) : frac_ok alpha (assist_friction delta alpha cs).
Proof.
  unfold assist_friction. assert (G : forall acc, frac_ok alpha acc -> frac_ok alpha (fold_left (assist_friction_step delta alpha) cs acc)).
  { induction cs as [|c cs IH]; intros acc H; simpl; [exact H|]. apply IH. apply assist_friction_step_ok. exact H. }
  apply G. apply frac_zero.
Qed.
Lemma assist_friction_all_bounds (alpha : R) (l : list (R * list friction_sample)) : 0 < alpha ->
  0 < assist_friction_all alpha l <= alpha.
Proof.
  intros Ha. unfold assist_friction_all.
  assert (G : forall acc, frac_ok alpha acc -> frac_ok alpha (fold_left (fun acc c =>
      let r := assist_friction (fst c) alpha (snd c) in (fst acc + fst r, (snd acc + snd r)%nat)) l acc)).
  { induction l as [|c l IH]; intros acc H; simpl; [exact H|]. apply IH.
    apply frac_plus; [exact H|apply assist_friction_ok]. }
  specialize (G (0, O) (frac_zero alpha)). cbv zeta in *.
  destruct (fold_left _ l (0, O)) as [s n]. destruct G as [_ G]. cbn [fst snd] in *.
  destruct n as [|n]; [lra|]. specialize (G ltac:(discriminate)).
  assert (Hn : 0 < INR (S n)) by (apply lt_0_INR; lia).
  assert (0 < 1 / 10 ^ 10) by (apply Rdiv_lt_0_compat; [lra|apply pow_lt; lra]).
  assert (Hi : 0 < / INR (S n)) by (apply Rinv_0_lt_compat; exact Hn).
  assert (Hni : INR (S n) * / INR (S n) = 1) by (field; lra).
  unfold Rdiv at 1 2. split; [apply Rmult_lt_0_compat; [nra|lra]|]. nra.
Qed.
(** With scale one, a counted contact's candidate is the point where the sliding velocity turns. *)
Lemma friction_candidate_turns (delta : R) (c : friction_sample) (s : R) (n : nat) :
  assist_friction_step delta 1 (0, O) c = (s, S n) ->
  dot2 (fst (fs_v c) + s * fst (fs_p c), snd (fs_v c) + s * snd (fs_p c)) (fs_v c) = 0.
Proof.
  unfold assist_friction_step. cbv zeta. intros H.
  repeat match goal with H : context [if ?d then _ else _] |- _ => destruct d end; try discriminate.
  cbn [fst snd] in H. inversion H as [[E1 E2]]. clear H. rewrite Rplus_0_l, !Rmult_1_l in *.
  set (vv := dot2 (fs_v c) (fs_v c)) in *. set (pv := dot2 (fs_p c) (fs_v c)) in *.
  assert (Hvv : 0 <= vv) by (unfold vv, dot2; nra).
  assert (Hp : 0 < 1 / 10 ^ 10) by (apply Rdiv_lt_0_compat; [lra|apply pow_lt; lra]).
  assert (Hpv : pv <> 0). { intros E. rewrite E in *. unfold Rdiv in *. rewrite Rinv_0 in *. lra. }
  replace (dot2 _ (fs_v c)) with (vv + - vv / pv * pv) by (unfold vv, pv, dot2; simpl; ring).
  field. exact Hpv.
Qed.
