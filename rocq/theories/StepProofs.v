From Coq Require Import Reals List Arith ZArith Bool Lra Lia.
From Verif Require Import NewtonModel StepModel StepSpec.
Import ListNotations.
Local Open Scope R_scope.

Lemma scale_at_ext l i f : scale_at l i f = None \/ exists m, scale_at l i f = Some m /\ length m = length l /\
  forall j, nth j m 0 = (if Nat.eqb j i then nth j l 0 * f else nth j l 0).
Proof.
  revert i. induction l as [|a l IH]; intros i; [left; reflexivity|]. destruct i as [|i].
  - right. exists (a * f :: l). split; [reflexivity|]. split; [reflexivity|]. intros [|j]; reflexivity.
  - simpl. destruct (IH i) as [H|(m & H & Hl & Hn)]; rewrite H; [left; reflexivity|]. right. exists (a :: m). split; [reflexivity|].
    split; [simpl; lia|]. intros [|j]; [reflexivity|]. simpl. apply Hn.
Qed.

Lemma relax_same tol k l : exists m, relax tol k l l = (m, m) /\ length m = length l /\
  forall j, (j < length l)%nat -> nth j m 0 = (if Rlt_dec (100 / tol (k + j)%nat) (nth j l 0) then nth j l 0 / 2 else nth j l 0).
Proof.
  revert k. induction l as [|a l IH]; intros k; [exists []; split; [reflexivity|]; split; [reflexivity|]; intros j Hj; simpl in Hj; lia|].
  simpl. destruct (IH (S k)) as (m & H & Hl & Hn). rewrite H.
  assert (G : forall j, (j < length l)%nat -> nth j m 0 = (if Rlt_dec (100 / tol (k + S j)%nat) (nth j l 0) then nth j l 0 / 2 else nth j l 0)).
  { intros j Hj. rewrite (Hn j Hj). replace (k + S j)%nat with (S k + j)%nat by lia. reflexivity. }
  destruct (Rlt_dec (100 / tol k) a) as [Hr|Hr].
  - exists (a / 2 :: m). split; [reflexivity|]. split; [simpl; lia|]. intros [|j] Hj; simpl.
    + rewrite Nat.add_0_r. destruct (Rlt_dec (100 / tol k) a); [reflexivity|contradiction].
    + apply G. simpl in Hj. lia.
  - exists (a :: m). split; [reflexivity|]. split; [simpl; lia|]. intros [|j] Hj; simpl.
    + rewrite Nat.add_0_r. destruct (Rlt_dec (100 / tol k) a); [contradiction|reflexivity].
    + apply G. simpl in Hj. lia.
Qed.

(** * One stage *)
(** Invariant connecting the state before a stage loop with any later state of it. *)
Definition stage_inv (tol : nat -> R) (s s' : sim) : Prop :=
  time_step s' = time_step s /\ (exists n, starts s' = starts s ++ repeat (initial_point s) n) /\
  (stiffness s = stiffness_ad s -> stiffness s' = stiffness_ad s' /\ length (stiffness s') = length (stiffness s) /\
    ((forall j, (j < length (stiffness s))%nat -> 0 < nth j (stiffness s) 0 /\ 0 < tol j) ->
     forall j, (j < length (stiffness s))%nat -> Rmin (nth j (stiffness s) 0) (50 / tol j) <= nth j (stiffness s') 0)).

Definition outcome_state (o : stage_outcome) : sim := match o with StageDone _ s | StageError s | StagePanic s | StageFuel s => s end.

Lemma stage_inv_refl_more tol s st st_ad n ip cs : (stiffness s = stiffness_ad s -> st = st_ad /\ length st = length (stiffness s) /\
    ((forall j, (j < length (stiffness s))%nat -> 0 < nth j (stiffness s) 0 /\ 0 < tol j) ->
     forall j, (j < length (stiffness s))%nat -> Rmin (nth j (stiffness s) 0) (50 / tol j) <= nth j st 0)) ->
  stage_inv tol s (Sim (time_step s) ip st st_ad (starts s ++ repeat (initial_point s) n) cs).
Proof. intros H. split; [reflexivity|]. split; [exists n; reflexivity|]. exact H. Qed.

Lemma keep_stiffness tol s : stiffness s = stiffness_ad s -> stiffness s = stiffness_ad s /\ length (stiffness s) = length (stiffness s) /\
    ((forall j, (j < length (stiffness s))%nat -> 0 < nth j (stiffness s) 0 /\ 0 < tol j) ->
     forall j, (j < length (stiffness s))%nat -> Rmin (nth j (stiffness s) 0) (50 / tol j) <= nth j (stiffness s) 0).
Proof. intros H. split; [exact H|]. split; [reflexivity|]. intros _ j _. apply Rmin_l. Qed.

Lemma stage_inv_trans tol s s1 s2 : initial_point s1 = initial_point s -> stage_inv tol s s1 -> stage_inv tol s1 s2 -> stage_inv tol s s2.
Proof.
  intros Hi (H1 & (n & H2) & H3) (H4 & (m & H5) & H6). split; [congruence|]. split.
  - exists (n + m)%nat. rewrite H5, H2, Hi, repeat_app, app_assoc. reflexivity.
  - intros Hs. destruct (H3 Hs) as (E1 & L1 & B1). destruct (H6 E1) as (E2 & L2 & B2). split; [exact E2|]. split; [congruence|].
    intros Hp j Hj. specialize (B1 Hp).
    assert (Hp1 : forall j, (j < length (stiffness s1))%nat -> 0 < nth j (stiffness s1) 0 /\ 0 < tol j).
    { intros i Hji. rewrite L1 in Hji. destruct (Hp i Hji) as [Ha Ht]. split; [|exact Ht]. specialize (B1 i Hji).
      assert (0 < 50 / tol i) by (apply Rdiv_lt_0_compat; lra). assert (0 < Rmin (nth i (stiffness s) 0) (50 / tol i)) by (apply Rmin_glb_lt; assumption). lra. }
    rewrite L1 in B2. specialize (B2 ltac:(rewrite <- L1; exact Hp1) j Hj). specialize (B1 j Hj).
    apply Rle_trans with (2 := B2). apply Rmin_glb; [exact B1|apply Rmin_r].
Qed.

Lemma stage_loop_spec e : forall fuel budget s, (S (Z.to_nat budget) <= fuel)%nat ->
  let o := stage_loop fuel e budget s in
  stage_inv (s_tolerance e) s (outcome_state o) /\
  match o with
  | StageDone b s' => (Z.of_nat (length (starts s')) + Z.max b 0 <= Z.of_nat (length (starts s)) + Z.max budget 0 + 1)%Z /\
      exists c, commits s' = commits s ++ [c] /\ initial_point s' = c_x c /\ (c_exceeded c = true \/ c_depth c <= 0)
  | StageFuel s' => (exists k h st x, fst (s_solve e k h st x) = NoFuel) /\ commits s' = commits s /\ initial_point s' = initial_point s /\
      (Z.of_nat (length (starts s')) <= Z.of_nat (length (starts s)) + Z.max budget 0 + 1)%Z
  | StageError s' | StagePanic s' => commits s' = commits s /\ initial_point s' = initial_point s /\
      (Z.of_nat (length (starts s')) <= Z.of_nat (length (starts s)) + Z.max budget 0 + 1)%Z
  end.
Proof.
  induction fuel as [|fuel IH]; intros budget s Hf; [lia|]. cbv zeta. cbn [stage_loop].
  destruct (s_solve e (length (starts s)) (time_step s) (stiffness s) (initial_point s)) as [en x] eqn:Es.
  set (s1 := Sim (time_step s) (initial_point s) (stiffness s) (stiffness_ad s) (starts s ++ [initial_point s]) (commits s)).
  assert (I1 : stage_inv (s_tolerance e) s s1).
  { apply (stage_inv_refl_more (s_tolerance e) s (stiffness s) (stiffness_ad s) 1 (initial_point s) (commits s)). apply keep_stiffness. }
  assert (Hlen : length (starts s1) = S (length (starts s))) by (cbn [starts s1]; rewrite app_length; simpl; lia).
  assert (Herr : forall o, (o = StageError s1 \/ o = StagePanic s1) -> stage_inv (s_tolerance e) s (outcome_state o) /\
     match o with
     | StageDone b s' => (Z.of_nat (length (starts s')) + Z.max b 0 <= Z.of_nat (length (starts s)) + Z.max budget 0 + 1)%Z /\
         exists c, commits s' = commits s ++ [c] /\ initial_point s' = c_x c /\ (c_exceeded c = true \/ c_depth c <= 0)
     | StageFuel s' => (exists k h st x, fst (s_solve e k h st x) = NoFuel) /\ commits s' = commits s /\ initial_point s' = initial_point s /\
         (Z.of_nat (length (starts s')) <= Z.of_nat (length (starts s)) + Z.max budget 0 + 1)%Z
     | StageError s' | StagePanic s' => commits s' = commits s /\ initial_point s' = initial_point s /\
         (Z.of_nat (length (starts s')) <= Z.of_nat (length (starts s)) + Z.max budget 0 + 1)%Z
     end).
  { intros o [-> | ->]; cbn [outcome_state]; (split; [exact I1|]; split; [reflexivity|]; split; [reflexivity|]; rewrite Hlen; lia). }
  assert (Hgo : forall (v := s_violation e (length (starts s)) x),
     let o := if (budget - 1 <? 0)%Z then StageDone (budget - 1) (commit_solution s1 (stiffness s1) (stiffness_ad s1) (Commit x (depth v) (s_max_step e (length (starts s)) x) true))
          else if Rlt_dec 0 (depth v) then
            match scale_at (stiffness s1) (violating v) (Rmax (bump_ratio v) 2), scale_at (stiffness_ad s1) (violating v) (Rmax (bump_ratio v) 2) with
            | Some st, Some st_ad => stage_loop fuel e (budget - 1) (Sim (time_step s1) (initial_point s1) st st_ad (starts s1) (commits s1))
            | _, _ => StagePanic s1
            end
          else
            let (st, st_ad) := if Req_EM_T (largest_penalty v) 0 then relax (s_tolerance e) 0 (stiffness s1) (stiffness_ad s1) else (stiffness s1, stiffness_ad s1) in
            StageDone (budget - 1) (commit_solution s1 st st_ad (Commit x (depth v) (s_max_step e (length (starts s)) x) false)) in
     stage_inv (s_tolerance e) s (outcome_state o) /\
     match o with
     | StageDone b s' => (Z.of_nat (length (starts s')) + Z.max b 0 <= Z.of_nat (length (starts s)) + Z.max budget 0 + 1)%Z /\
         exists c, commits s' = commits s ++ [c] /\ initial_point s' = c_x c /\ (c_exceeded c = true \/ c_depth c <= 0)
     | StageFuel s' => (exists k h st x, fst (s_solve e k h st x) = NoFuel) /\ commits s' = commits s /\ initial_point s' = initial_point s /\
         (Z.of_nat (length (starts s')) <= Z.of_nat (length (starts s)) + Z.max budget 0 + 1)%Z
     | StageError s' | StagePanic s' => commits s' = commits s /\ initial_point s' = initial_point s /\
         (Z.of_nat (length (starts s')) <= Z.of_nat (length (starts s)) + Z.max budget 0 + 1)%Z
     end).
  { intros v. cbv zeta. destruct (Z.ltb_spec (budget - 1) 0) as [Hb|Hb].
    - cbn [outcome_state]. split.
      + unfold commit_solution. cbn [s1 time_step starts commits].
        apply (stage_inv_refl_more (s_tolerance e) s (stiffness s) (stiffness_ad s) 1). apply keep_stiffness.
      + split; [unfold commit_solution; cbn [starts]; rewrite Hlen; lia|]. eexists. split; [reflexivity|]. split; [reflexivity|]. left. reflexivity.
    - destruct (Rlt_dec 0 (depth v)) as [Hd|Hd].
      + destruct (scale_at_ext (stiffness s1) (violating v) (Rmax (bump_ratio v) 2)) as [E|(st & E & Lst & Nst)]; rewrite E; [apply Herr; right; reflexivity|].
        destruct (scale_at_ext (stiffness_ad s1) (violating v) (Rmax (bump_ratio v) 2)) as [E2|(st_ad & E2 & _ & _)]; rewrite E2; [apply Herr; right; reflexivity|].
        set (s2 := Sim (time_step s1) (initial_point s1) st st_ad (starts s1) (commits s1)).
        assert (I2 : stage_inv (s_tolerance e) s s2).
        { apply (stage_inv_refl_more (s_tolerance e) s st st_ad 1 (initial_point s) (commits s)). intros Hs.
          assert (Eq : st = st_ad). { cbn [s1 stiffness stiffness_ad] in E, E2. rewrite Hs in E. rewrite E in E2. injection E2 as ->. reflexivity. }
          split; [exact Eq|]. split; [exact Lst|]. intros Hp j Hj. rewrite Nst. cbn [s1 stiffness]. destruct (Nat.eqb_spec j (violating v)) as [->|_]; [|apply Rmin_l].
          destruct (Hp _ Hj) as [Ha _]. apply Rle_trans with (1 := Rmin_l _ _). pose proof (Rmax_r (bump_ratio v) 2) as Hm.
          rewrite <- (Rmult_1_r (nth (violating v) (stiffness s) 0)) at 1. apply Rmult_le_compat_l; lra. }
        assert (Hf2 : (S (Z.to_nat (budget - 1)) <= fuel)%nat) by lia.
        destruct (IH (budget - 1)%Z s2 Hf2) as [HI HO].
        split; [exact (stage_inv_trans _ s s2 _ eq_refl I2 HI)|].
        assert (Hl2 : Z.of_nat (length (starts s2)) = (Z.of_nat (length (starts s)) + 1)%Z) by (cbn [s2 starts]; rewrite Hlen; lia).
        destruct (stage_loop fuel e (budget - 1) s2) as [b s'|s'|s'|s'].
        * destruct HO as [H1 H2]. split; [lia|exact H2].
        * destruct HO as (H1 & H2 & H3). split; [exact H1|]. split; [exact H2|]. lia.
        * destruct HO as (H1 & H2 & H3). split; [exact H1|]. split; [exact H2|]. lia.
        * destruct HO as (H0 & H1 & H2 & H3). split; [exact H0|]. split; [exact H1|]. split; [exact H2|]. lia.
      + assert (Hrel : forall st st_ad, (if Req_EM_T (largest_penalty v) 0 then relax (s_tolerance e) 0 (stiffness s1) (stiffness_ad s1) else (stiffness s1, stiffness_ad s1)) = (st, st_ad) ->
           stiffness s = stiffness_ad s -> st = st_ad /\ length st = length (stiffness s) /\
           ((forall j, (j < length (stiffness s))%nat -> 0 < nth j (stiffness s) 0 /\ 0 < s_tolerance e j) ->
            forall j, (j < length (stiffness s))%nat -> Rmin (nth j (stiffness s) 0) (50 / s_tolerance e j) <= nth j st 0)).
        { intros st st_ad E Hs. cbn [s1 stiffness stiffness_ad] in E. destruct (Req_EM_T (largest_penalty v) 0).
          - rewrite <- Hs in E. destruct (relax_same (s_tolerance e) 0 (stiffness s)) as (m & Em & Lm & Nm). rewrite Em in E. injection E as <- <-.
            split; [reflexivity|]. split; [exact Lm|]. intros Hp j Hj. rewrite (Nm j Hj). change (0 + j)%nat with j.
            destruct (Rlt_dec (100 / s_tolerance e j) (nth j (stiffness s) 0)) as [Hr|_]; [|apply Rmin_l].
            destruct (Hp j Hj) as [_ Ht]. apply Rle_trans with (1 := Rmin_r _ _).
            replace (50 / s_tolerance e j) with (100 / s_tolerance e j / 2) by (field; lra). lra.
          - injection E as <- <-. apply keep_stiffness, Hs. }
        destruct (if Req_EM_T (largest_penalty v) 0 then _ else _) as [st st_ad] eqn:Er. specialize (Hrel st st_ad eq_refl).
        cbn [outcome_state]. split.
        * unfold commit_solution. cbn [s1 time_step starts commits c_x].
          apply (stage_inv_refl_more (s_tolerance e) s st st_ad 1). exact Hrel.
        * split; [unfold commit_solution; cbn [starts]; rewrite Hlen; lia|]. eexists. split; [reflexivity|]. split; [reflexivity|]. right. cbn [c_depth]. lra. }
  destruct en as [st| |].
  - destruct st; try (apply Herr; left; reflexivity); exact Hgo.
  - apply Herr; right; reflexivity.
  - cbn [outcome_state]. split; [exact I1|]. split; [exists (length (starts s)), (time_step s), (stiffness s), (initial_point s); rewrite Es; reflexivity|].
    split; [reflexivity|]. split; [reflexivity|]. rewrite Hlen. lia.
Qed.

(** * All stages *)
Lemma last_app_one (A : Type) (l : list A) a d : last (l ++ [a]) d = a.
Proof. induction l as [|b l IH]; [reflexivity|]. simpl. rewrite IH. destruct (l ++ [a]) eqn:E; [destruct l; discriminate|reflexivity]. Qed.

Lemma stages_spec e ti dt : forall n stage budget s,
  let o := stages n stage e ti dt budget s in let s' := state_after o in
  (Z.of_nat (length (starts s')) <= Z.of_nat (length (starts s)) + Z.max budget 0 + Z.of_nat n)%Z /\
  (forall s1, o = StepFuel s1 -> exists k h st x, fst (s_solve e k h st x) = NoFuel) /\
  (forall s1, o = StepOk s1 -> n <> 0%nat -> time_step s1 = dt * stage_factor ti (stage + n - 1)) /\
  (exists cs, commits s' = commits s ++ cs /\ (length cs <= n)%nat /\ List.Forall (fun c => c_exceeded c = true \/ c_depth c <= 0) cs /\
     initial_point s' = last_point (initial_point s) cs /\
     (forall s1, o = StepOk s1 -> length cs = n) /\ (forall s1, o = StepError s1 \/ o = StepPanic s1 -> (length cs < n)%nat) /\
     exists xs, starts s' = starts s ++ xs /\ List.Forall (fun x => x = initial_point s \/ In x (map c_x cs)) xs) /\
  (stiffness s = stiffness_ad s -> stiffness s' = stiffness_ad s' /\ length (stiffness s') = length (stiffness s) /\
    ((forall j, (j < length (stiffness s))%nat -> 0 < nth j (stiffness s) 0 /\ 0 < s_tolerance e j) ->
     forall j, (j < length (stiffness s))%nat -> Rmin (nth j (stiffness s) 0) (50 / s_tolerance e j) <= nth j (stiffness s') 0)).
Proof.
  induction n as [|n IH]; intros stage budget s; cbv zeta.
  - cbn [stages state_after]. split; [lia|]. split; [discriminate|]. split; [intros s1 _ H; elim H; reflexivity|]. split.
    + exists []. split; [symmetry; apply app_nil_r|]. split; [simpl; lia|]. split; [constructor|]. split; [reflexivity|]. split; [reflexivity|].
      split; [intros s1 [H|H]; discriminate H|]. exists []. split; [symmetry; apply app_nil_r|constructor].
    + apply keep_stiffness.
  - cbn [stages]. set (s0 := Sim (dt * stage_factor ti stage) (initial_point s) (stiffness s) (stiffness_ad s) (starts s) (commits s)).
    destruct (s_check e stage); cbn [negb].
    2:{ cbn [state_after]. split; [cbn [s0 starts]; lia|]. split; [discriminate|]. split; [discriminate|]. split.
        + exists []. split; [symmetry; apply app_nil_r|]. split; [simpl; lia|]. split; [constructor|]. split; [reflexivity|]. split; [discriminate|].
          split; [intros; simpl; lia|]. exists []. split; [symmetry; apply app_nil_r|constructor].
        + apply (keep_stiffness _ s). }
    destruct (stage_loop_spec e (S (Z.to_nat budget)) budget s0 ltac:(lia)) as [HI HO].
    assert (Hstop : forall s1, stage_inv (s_tolerance e) s0 s1 -> commits s1 = commits s0 -> initial_point s1 = initial_point s0 ->
      (Z.of_nat (length (starts s1)) <= Z.of_nat (length (starts s0)) + Z.max budget 0 + 1)%Z -> forall o, state_after o = s1 ->
      (forall s2, o <> StepOk s2) -> (forall s2, o = StepFuel s2 -> exists k h st x, fst (s_solve e k h st x) = NoFuel) ->
      (Z.of_nat (length (starts (state_after o))) <= Z.of_nat (length (starts s)) + Z.max budget 0 + Z.of_nat (S n))%Z /\
      (forall s1, o = StepFuel s1 -> exists k h st x, fst (s_solve e k h st x) = NoFuel) /\
      (forall s1, o = StepOk s1 -> S n <> 0%nat -> time_step s1 = dt * stage_factor ti (stage + S n - 1)) /\
      (exists cs, commits (state_after o) = commits s ++ cs /\ (length cs <= S n)%nat /\ List.Forall (fun c => c_exceeded c = true \/ c_depth c <= 0) cs /\
         initial_point (state_after o) = last_point (initial_point s) cs /\
         (forall s1, o = StepOk s1 -> length cs = S n) /\ (forall s1, o = StepError s1 \/ o = StepPanic s1 -> (length cs < S n)%nat) /\
         exists xs, starts (state_after o) = starts s ++ xs /\ List.Forall (fun x => x = initial_point s \/ In x (map c_x cs)) xs) /\
      (stiffness s = stiffness_ad s -> stiffness (state_after o) = stiffness_ad (state_after o) /\ length (stiffness (state_after o)) = length (stiffness s) /\
        ((forall j, (j < length (stiffness s))%nat -> 0 < nth j (stiffness s) 0 /\ 0 < s_tolerance e j) ->
         forall j, (j < length (stiffness s))%nat -> Rmin (nth j (stiffness s) 0) (50 / s_tolerance e j) <= nth j (stiffness (state_after o)) 0))).
    { intros s1 (_ & (m & Hm) & Hst) Hc Hip Hl o Ho Hok Hfu. rewrite Ho. cbn [s0 starts] in Hl.
      split; [lia|]. split; [exact Hfu|]. split; [intros s2 H2; elim (Hok s2 H2)|]. split; [|exact Hst].
      exists []. split; [rewrite app_nil_r; exact Hc|]. split; [simpl; lia|]. split; [constructor|]. split; [exact Hip|]. split; [intros s2 H2; elim (Hok s2 H2)|].
      split; [intros; simpl; lia|]. exists (repeat (initial_point s) m). split; [exact Hm|]. apply List.Forall_forall. intros y Hy. left. exact (repeat_spec _ _ _ Hy). }
    destruct (stage_loop (S (Z.to_nat budget)) e budget s0) as [b s1|s1|s1|s1]; cbn [outcome_state] in HI.
    + destruct HO as (Hl & c & Hc & Hip & Hcd). destruct (IH (S stage) b s1) as (H1 & H2 & H3 & (cs & C1 & C2 & C3 & C4 & C5 & C6 & xs & X1 & X2) & H5).
      cbv zeta in *. set (o := stages n (S stage) e ti dt b s1) in *. destruct HI as (T & (m & Hm) & Hst). cbn [s0 starts] in Hl.
      split; [lia|]. split; [exact H2|]. split.
      { intros s2 Ho _. destruct n as [|n'].
        - unfold o in Ho. cbn [stages] in Ho. injection Ho as <-. rewrite T. cbn [s0 time_step]. replace (stage + 1 - 1)%nat with stage by lia. reflexivity.
        - rewrite (H3 s2 Ho ltac:(discriminate)). f_equal. f_equal. lia. }
      split.
      { exists (c :: cs). split; [rewrite C1, Hc, <- app_assoc; reflexivity|]. split; [simpl; lia|]. split; [constructor; assumption|]. split.
        { rewrite C4, Hip. unfold last_point. cbn [map]. destruct (map c_x cs) as [|z zs] eqn:Ez; [reflexivity|].
          change (last (c_x c :: z :: zs) (initial_point s)) with (last (z :: zs) (initial_point s)).
          clear. revert z. induction zs as [|w zs IH]; intros z; [reflexivity|]. exact (IH w). }
        split; [intros s2 Ho; simpl; rewrite (C5 s2 Ho); reflexivity|]. split; [intros s2 Ho; simpl; specialize (C6 s2 Ho); lia|].
        exists (repeat (initial_point s) m ++ xs). split; [rewrite X1, Hm, <- app_assoc; reflexivity|]. apply Forall_app. split.
        - apply List.Forall_forall. intros y Hy. left. exact (repeat_spec _ _ _ Hy).
        - eapply Forall_impl; [|exact X2]. intros y [->|Hy]; right; [left; symmetry; exact Hip|right; exact Hy]. }
      intros Hs. destruct (Hst Hs) as (E1 & L1 & B1). destruct (H5 E1) as (E2 & L2 & B2). cbn [s0 stiffness] in L1, B1.
      split; [exact E2|]. split; [congruence|]. intros Hp j Hj. specialize (B1 Hp).
      assert (Hp1 : forall j, (j < length (stiffness s1))%nat -> 0 < nth j (stiffness s1) 0 /\ 0 < s_tolerance e j).
      { intros i Hji. rewrite L1 in Hji. destruct (Hp i Hji) as [Ha Ht]. split; [|exact Ht]. specialize (B1 i Hji).
        assert (0 < 50 / s_tolerance e i) by (apply Rdiv_lt_0_compat; lra).
        assert (0 < Rmin (nth i (stiffness s) 0) (50 / s_tolerance e i)) by (apply Rmin_glb_lt; assumption). lra. }
      rewrite L1 in B2. specialize (B2 ltac:(rewrite <- L1; exact Hp1) j Hj). specialize (B1 j Hj).
      apply Rle_trans with (2 := B2). apply Rmin_glb; [exact B1|apply Rmin_r].
    + destruct HO as (Hc & Hip & Hl). apply (Hstop s1 HI Hc Hip Hl); [reflexivity|discriminate|discriminate].
    + destruct HO as (Hc & Hip & Hl). apply (Hstop s1 HI Hc Hip Hl); [reflexivity|discriminate|discriminate].
    + destruct HO as (Hn & Hc & Hip & Hl). apply (Hstop s1 HI Hc Hip Hl); [reflexivity|discriminate|intros; exact Hn].
Qed.

Lemma last_stage_factor ti : stage_factor ti (num_stages ti - 1) = 1.
Proof. destruct ti; reflexivity. Qed.

(** * Concrete environments *)
(** One contact; solving returns [x]; the contact is violated while the stiffness is below the attempt number given. *)
Definition demo_env (bad : nat) (fails_at : option nat) (max_step : bool) : step_env :=
  StepEnv (fun k _ _ _ => (match fails_at with Some f => if Nat.eqb k f then Ended StepTooLarge else Ended Success | None => Ended Success end, [INR k]))
          (fun k _ => if Nat.ltb k bad then Violation 3 1 1 0 else Violation 1 0 0 0) (fun _ _ => max_step) (fun _ => true) (fun _ => 1).

Definition fails_now (fails_at : option nat) (k : nat) : bool := match fails_at with Some f => Nat.eqb k f | None => false end.
Lemma demo_solve bad fl ms k h st x : s_solve (demo_env bad fl ms) k h st x = (if fails_now fl k then Ended StepTooLarge else Ended Success, [INR k]).
Proof. destruct fl; cbn; [destruct (k =? n)%nat|]; reflexivity. Qed.
Lemma demo_terminates bad fl ms : solver_terminates (demo_env bad fl ms).
Proof. intros k h st x. rewrite demo_solve. destruct (fails_now fl k); discriminate. Qed.
(** Expected solver state after one more solve in the demonstration environment. *)
Definition tried (s : sim) (a : R) : sim := Sim (time_step s) (initial_point s) [a] [a] (starts s ++ [initial_point s]) (commits s).
Lemma demo_fail bad fl ms f b h x a xs cs : fails_now fl (length xs) = true ->
  stage_loop (S f) (demo_env bad fl ms) b (Sim h x [a] [a] xs cs) = StageError (Sim h x [a] [a] (xs ++ [x]) cs).
Proof. intros H. cbn [stage_loop]. rewrite demo_solve. cbn [starts]. rewrite H. reflexivity. Qed.
Lemma demo_retry bad fl ms f b h x a xs cs : fails_now fl (length xs) = false -> (length xs < bad)%nat -> (1 <= b)%Z ->
  stage_loop (S f) (demo_env bad fl ms) b (Sim h x [a] [a] xs cs) = stage_loop f (demo_env bad fl ms) (b - 1) (Sim h x [a * 3] [a * 3] (xs ++ [x]) cs).
Proof.
  intros H Hk Hb. cbn [stage_loop]. rewrite demo_solve. cbn [starts]. rewrite H. cbn [s_violation demo_env].
  rewrite (proj2 (Nat.ltb_lt _ _) Hk). destruct (Z.ltb_spec (b - 1) 0); [lia|]. cbn [depth bump_ratio violating].
  destruct (Rlt_dec 0 1) as [_|Hn]; [|lra]. rewrite Rmax_left by lra. reflexivity.
Qed.
Lemma demo_done bad fl ms f b h x a xs cs : fails_now fl (length xs) = false -> (bad <= length xs)%nat -> (1 <= b)%Z ->
  let r := if Rlt_dec (100 / 1) a then a / 2 else a in
  stage_loop (S f) (demo_env bad fl ms) b (Sim h x [a] [a] xs cs)
    = StageDone (b - 1) (Sim h [INR (length xs)] [r] [r] (xs ++ [x]) (cs ++ [Commit [INR (length xs)] 0 ms false])).
Proof.
  intros H Hk Hb. cbv zeta. cbn [stage_loop]. rewrite demo_solve. cbn [starts]. rewrite H. cbn [s_violation demo_env].
  rewrite (proj2 (Nat.ltb_ge _ _) Hk). destruct (Z.ltb_spec (b - 1) 0); [lia|]. cbn [depth largest_penalty].
  destruct (Rlt_dec 0 0) as [Hn|_]; [lra|]. destruct (Req_EM_T 0 0) as [_|Hn]; [|elim Hn; reflexivity].
  cbn [stiffness stiffness_ad relax s_tolerance s_max_step demo_env]. destruct (Rlt_dec (100 / 1) a); reflexivity.
Qed.
Lemma demo_exhausted bad fl ms f b h x a xs cs : fails_now fl (length xs) = false -> (length xs < bad)%nat -> (b <= 0)%Z ->
  stage_loop (S f) (demo_env bad fl ms) b (Sim h x [a] [a] xs cs)
    = StageDone (b - 1) (Sim h [INR (length xs)] [a] [a] (xs ++ [x]) (cs ++ [Commit [INR (length xs)] 1 ms true])).
Proof.
  intros H Hk Hb. cbn [stage_loop]. rewrite demo_solve. cbn [starts]. rewrite H. cbn [s_violation demo_env].
  rewrite (proj2 (Nat.ltb_lt _ _) Hk). destruct (Z.ltb_spec (b - 1) 0); [|lia]. reflexivity.
Qed.
