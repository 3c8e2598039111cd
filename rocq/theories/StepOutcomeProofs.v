(** Which solves lead to which outcome of a step. *)
From Coq Require Import Reals List Arith ZArith Bool Lra Lia.
From Verif Require Import NewtonModel StepModel StepSpec StepProofs.
Import ListNotations.
Local Open Scope R_scope.

Definition all_usable (e : step_env) (s : sim) : Prop :=
  (forall k, (k < length (starts s))%nat -> exists en y, solve_ended e s k en y /\ usable en) /\
  (forall c, In c (commits s) -> exists k en, solve_ended e s k en (c_x c) /\ usable en).
(** All but the last solve were usable. *)
Definition last_unusable (e : step_env) (s : sim) (bad : ending -> Prop) : Prop :=
  (forall c, In c (commits s) -> exists k en, solve_ended e s k en (c_x c) /\ usable en) /\
  exists k en y, length (starts s) = S k /\ solve_ended e s k en y /\ bad en /\
    forall j, (j < k)%nat -> exists en y, solve_ended e s j en y /\ usable en.

Lemma ended_more e s s' k en y x : starts s' = starts s ++ [x] -> solve_ended e s k en y -> solve_ended e s' k en y.
Proof.
  intros E (h & st & z & Hn & Hs). exists h, st, z. split; [|exact Hs]. rewrite E, nth_error_app1; [exact Hn|]. apply nth_error_Some. congruence.
Qed.
Lemma ended_last e s s' h st x en y : starts s' = starts s ++ [x] -> s_solve e (length (starts s)) h st x = (en, y) -> solve_ended e s' (length (starts s)) en y.
Proof.
  intros E Hs. exists h, st, x. split; [|exact Hs]. rewrite E, nth_error_app2, Nat.sub_diag by lia. reflexivity.
Qed.
Lemma ended_same e s s' k en y : starts s' = starts s -> solve_ended e s k en y -> solve_ended e s' k en y.
Proof. intros E (h & st & z & Hn & Hs). exists h, st, z. rewrite E. split; assumption. Qed.

Lemma stage_loop_usable e : forall fuel budget s, all_usable e s ->
  match stage_loop fuel e budget s with
  | StageDone _ s' => all_usable e s'
  | StageError s' => last_unusable e s' (fun en => exists st, en = Ended st /\ st <> Success /\ st <> MaximumIterationsExceeded)
  | _ => True
  end.
Proof.
  induction fuel as [|fuel IH]; intros budget s [G1 G2]; [exact I|]. cbn [stage_loop].
  destruct (s_solve e (length (starts s)) (time_step s) (stiffness s) (initial_point s)) as [en x] eqn:Es.
  assert (Hok : usable en -> forall s', starts s' = starts s ++ [initial_point s] -> (forall c, In c (commits s') -> In c (commits s) \/ c_x c = x) -> all_usable e s').
  { intros Hu s' E HC. split.
    - intros k Hk. rewrite E, app_length in Hk. cbn [length] in Hk. destruct (Nat.eq_dec k (length (starts s))) as [->|Hne].
      + exists en, x. split; [exact (ended_last _ _ _ _ _ _ _ _ E Es)|exact Hu].
      + destruct (G1 k ltac:(lia)) as (en' & y & H & U). exists en', y. split; [exact (ended_more _ _ _ _ _ _ _ E H)|exact U].
    - intros c Hc. destruct (HC c Hc) as [Hin|Hx].
      + destruct (G2 c Hin) as (k & en' & H & U). exists k, en'. split; [exact (ended_more _ _ _ _ _ _ _ E H)|exact U].
      + exists (length (starts s)), en. rewrite Hx. split; [exact (ended_last _ _ _ _ _ _ _ _ E Es)|exact Hu]. }
  assert (Hbad : (exists st, en = Ended st /\ st <> Success /\ st <> MaximumIterationsExceeded) -> forall s', starts s' = starts s ++ [initial_point s] -> commits s' = commits s ->
    last_unusable e s' (fun en => exists st, en = Ended st /\ st <> Success /\ st <> MaximumIterationsExceeded)).
  { intros Hb s' E EC. split.
    - rewrite EC. intros c Hc. destruct (G2 c Hc) as (k & en' & H & U). exists k, en'. split; [exact (ended_more _ _ _ _ _ _ _ E H)|exact U].
    - exists (length (starts s)), en, x. split; [rewrite E, app_length; cbn [length]; lia|]. split; [exact (ended_last _ _ _ _ _ _ _ _ E Es)|]. split; [exact Hb|].
      intros j Hj. destruct (G1 j Hj) as (en' & y & H & U). exists en', y. split; [exact (ended_more _ _ _ _ _ _ _ E H)|exact U]. }
  cbn [starts stiffness stiffness_ad time_step initial_point commits].
  assert (Hgo : usable en ->
    match (let v := s_violation e (length (starts s)) x in let budget := (budget - 1)%Z in
          if (budget <? 0)%Z then StageDone budget (commit_solution (Sim (time_step s) (initial_point s) (stiffness s) (stiffness_ad s) (starts s ++ [initial_point s]) (commits s)) (stiffness s) (stiffness_ad s) (Commit x (depth v) (s_max_step e (length (starts s)) x) true))
          else if Rlt_dec 0 (depth v) then
            let f := Rmax (bump_ratio v) 2 in
            match scale_at (stiffness s) (violating v) f, scale_at (stiffness_ad s) (violating v) f with
            | Some st, Some st_ad => stage_loop fuel e budget (Sim (time_step s) (initial_point s) st st_ad (starts s ++ [initial_point s]) (commits s))
            | _, _ => StagePanic (Sim (time_step s) (initial_point s) (stiffness s) (stiffness_ad s) (starts s ++ [initial_point s]) (commits s))
            end
          else
            let (st, st_ad) := if Req_EM_T (largest_penalty v) 0 then relax (s_tolerance e) 0 (stiffness s) (stiffness_ad s) else (stiffness s, stiffness_ad s) in
            StageDone budget (commit_solution (Sim (time_step s) (initial_point s) (stiffness s) (stiffness_ad s) (starts s ++ [initial_point s]) (commits s)) st st_ad (Commit x (depth v) (s_max_step e (length (starts s)) x) false)))
    with StageDone _ s' => all_usable e s' | StageError s' => last_unusable e s' (fun en => exists st, en = Ended st /\ st <> Success /\ st <> MaximumIterationsExceeded) | _ => True end).
  { intros Hu. cbv zeta. destruct (budget - 1 <? 0)%Z.
    { apply (Hok Hu); [reflexivity|]. intros c Hc. cbn [commit_solution commits] in Hc. apply in_app_or in Hc. destruct Hc as [Hc|[<-|[]]]; [left; exact Hc|right; reflexivity]. }
    destruct (Rlt_dec 0 _).
    - destruct (scale_at (stiffness s) _ _); [|exact I]. destruct (scale_at (stiffness_ad s) _ _); [|exact I].
      apply IH. apply (Hok Hu); [reflexivity|]. intros c Hc. left. exact Hc.
    - destruct (if Req_EM_T _ 0 then _ else _) as [st st_ad]. apply (Hok Hu); [reflexivity|]. intros c Hc. cbn [commit_solution commits] in Hc. apply in_app_or in Hc.
      destruct Hc as [Hc|[<-|[]]]; [left; exact Hc|right; reflexivity]. }
  destruct en as [st| |]; [|exact I|exact I].
  destruct st; try (apply Hgo; (left; reflexivity) || (right; reflexivity));
    apply (Hbad ltac:(eexists; split; [reflexivity|]; split; discriminate)); reflexivity.
Qed.

Lemma stages_usable e ti dt : forall n stage budget s, all_usable e s ->
  match stages n stage e ti dt budget s with
  | StepOk s' => all_usable e s'
  | StepError s' => (all_usable e s' /\ exists k, (k < stage + n)%nat /\ s_check e k = false) \/
      last_unusable e s' (fun en => exists st, en = Ended st /\ st <> Success /\ st <> MaximumIterationsExceeded)
  | _ => True
  end.
Proof.
  induction n as [|n IH]; intros stage budget s G; [exact G|]. cbn [stages].
  destruct (s_check e stage) eqn:Ec; cbn [negb].
  - match goal with |- context [stage_loop ?f e ?b ?s0] => pose proof (stage_loop_usable e f b s0) as H; destruct (stage_loop f e b s0) as [b' s'|s'|s'|s'] end;
      cbn [starts initial_point stiffness stiffness_ad commits] in *; try exact I.
    + specialize (IH (S stage) b' s'). assert (G' : all_usable e s') by (apply H; exact G). specialize (IH G').
      destruct (stages n (S stage) e ti dt b' s') as [s2|s2|s2|s2]; try exact I; [exact IH|].
      destruct IH as [[A (k & Hk & Hc)]|B]; [left; split; [exact A|]; exists k; split; [lia|exact Hc]|right; exact B].
    + right. apply H. exact G.
  - left. split; [exact G|]. exists stage. split; [lia|exact Ec].
Qed.
