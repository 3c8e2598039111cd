(** Theorems about one simulation step: C28, C29, C30, C71, C72, C106. *)
From Coq Require Import Reals List Arith ZArith Bool Lra Lia.
From Verif Require Import NewtonModel StepModel StepSpec StepProofs StepOutcomeProofs.
Import ListNotations.
Local Open Scope R_scope.

Ltac demo_side := first [reflexivity | lia | cbn; lia].
Ltac demo := unfold step; cbn [num_stages];
  repeat (cbn [stages initial_point stiffness stiffness_ad starts commits]; try (change (s_check _ _) with true; cbn [negb]);
    cbn [initial_point stiffness stiffness_ad starts commits]; change (Z.of_nat 2) with 2%Z; change (Z.of_nat 5) with 5%Z;
    try match goal with |- context [Z.to_nat ?z] => let n := eval compute in (Z.to_nat z) in change (Z.to_nat z) with n end;
    progress (repeat first [rewrite demo_retry by demo_side | rewrite demo_done by demo_side | rewrite demo_exhausted by demo_side | rewrite demo_fail by reflexivity]));
  cbn [stages].

(** C28. A step makes at most contact_iterations + num_stages nonlinear solves, and terminates when these do. *)
Theorem step_bounded_solves (e : step_env) (ti : time_integration) (ci : nat) (dt : R) (x0 st st_ad : vec) :
  solver_terminates e -> let o := step e ti ci dt x0 st st_ad in
  (forall s, o <> StepFuel s) /\ (length (starts (state_after o)) <= ci + num_stages ti)%nat.
Proof.
  intros Ht o. destruct (stages_spec e ti dt (num_stages ti) 0 (Z.of_nat ci) (Sim dt x0 st st_ad [] [])) as (H1 & H2 & _). split.
  - intros s Ho. destruct (H2 s Ho) as (k & h & t & x & Hn). exact (Ht k h t x Hn).
  - cbn [starts length] in H1. unfold o, step. lia.
Qed.
Print Assumptions step_bounded_solves.
(** The bound is attained: a contact that is never resolved, two stages, two allowed contact iterations, four solves. *)
Example step_bounded_solves_nonvacuous :
  solver_terminates (demo_env 100 None false) /\ exists s, step (demo_env 100 None false) SDIRK2 2 1 [0] [1] [1] = StepOk s /\ length (starts s) = 4%nat.
Proof.
  split; [apply demo_terminates|]. demo. eexists. split; reflexivity.
Qed.

(** C29. After a step that succeeded, and after any step of a single-stage scheme, the problem has the time step it had before. *)
Theorem step_keeps_time_step_partial (e : step_env) (ti : time_integration) (ci : nat) (dt : R) (x0 st st_ad : vec) :
  let o := step e ti ci dt x0 st st_ad in is_ok o \/ num_stages ti = 1%nat -> time_step (state_after o) = dt.
Proof.
  intros o [[s Ho]|H1].
  - destruct (stages_spec e ti dt (num_stages ti) 0 (Z.of_nat ci) (Sim dt x0 st st_ad [] [])) as (_ & _ & H3 & _).
    rewrite Ho. cbn [state_after]. rewrite (H3 s Ho ltac:(destruct ti; discriminate)), Nat.add_0_l, last_stage_factor. ring.
  - unfold o, step. rewrite H1. cbn [stages]. assert (Hf : stage_factor ti 0 = 1) by (pose proof (last_stage_factor ti) as H; rewrite H1 in H; exact H).
    destruct (s_check e 0); cbn [negb]; [|cbn [state_after time_step]; rewrite Hf; ring].
    match goal with |- context [stage_loop ?f e ?b ?s0] => destruct (stage_loop_spec e f b s0 ltac:(lia)) as [(T & _) _]; destruct (stage_loop f e b s0) end;
      cbn [outcome_state time_step] in T; cbn [state_after]; rewrite T, Hf; ring.
Qed.
Print Assumptions step_keeps_time_step_partial.
Example step_keeps_time_step_nonvacuous : is_ok (step (demo_env 1 None false) (TRBDF2 (1 / 2)) 2 1 [0] [1] [1]).
Proof.
  unfold is_ok. demo. eexists. reflexivity.
Qed.
(** Finding: when the first stage of a two-stage scheme fails, step returns early and the shortened time step stays, so that all later steps
    are scaled by it. *)
Theorem step_keeps_time_step_refuted : exists (e : step_env) (ti : time_integration) (dt : R),
  solver_terminates e /\ 0 < dt /\ is_error (step e ti 5 dt [0] [1] [1]) /\ time_step (state_after (step e ti 5 dt [0] [1] [1])) = dt * (1 - sqrt 2 / 2) /\
  time_step (state_after (step e ti 5 dt [0] [1] [1])) <> dt.
Proof.
  exists (demo_env 0 (Some 0%nat) false), SDIRK2, 1. split; [apply demo_terminates|]. split; [lra|].
  assert (E : exists s, step (demo_env 0 (Some 0%nat) false) SDIRK2 5 1 [0] [1] [1] = StepError s /\ time_step s = 1 * (1 - 1 / 2 * sqrt 2)).
  { demo. eexists. split; reflexivity. }
  destruct E as (s & E & Et). rewrite E. split; [exists s; reflexivity|]. cbn [state_after]. rewrite Et. pose proof (sqrt_lt_R0 2 ltac:(lra)). split; lra.
Qed.
Print Assumptions step_keeps_time_step_refuted.

(** C30. Whatever is committed, the contact violation is resolved or the status MaximumContactIterationsExceeded is recorded; a successful
    step commits once per stage. *)
Theorem step_commits_resolved_partial (e : step_env) (ti : time_integration) (ci : nat) (dt : R) (x0 st st_ad : vec) :
  let o := step e ti ci dt x0 st st_ad in
  (forall c, In c (commits (state_after o)) -> c_exceeded c = true \/ c_depth c <= 0) /\
  (forall s, o = StepOk s -> length (commits s) = num_stages ti) /\ initial_point (state_after o) = last_point x0 (commits (state_after o)).
Proof.
  intros o. destruct (stages_spec e ti dt (num_stages ti) 0 (Z.of_nat ci) (Sim dt x0 st st_ad [] [])) as (_ & _ & _ & (cs & C1 & _ & C3 & C4 & C5 & _) & _).
  cbn [commits app initial_point] in C1, C4. fold (step e ti ci dt x0 st st_ad) in *. fold o in C1, C4, C5. rewrite C1.
  split; [intros c Hc; exact (proj1 (List.Forall_forall _ _) C3 c Hc)|]. split; [|exact C4].
  intros s Ho. rewrite Ho in C1. cbn [state_after] in C1. rewrite C1. exact (C5 s Ho).
Qed.
Print Assumptions step_commits_resolved_partial.
Example step_commits_resolved_nonvacuous : exists s, step (demo_env 1 None false) BE 2 1 [0] [1] [1] = StepOk s /\ map c_exceeded (commits s) = [false] /\ starts s = [[0]; [0]].
Proof.
  demo. eexists; split; [reflexivity|]; split; reflexivity.
Qed.
(** Finding: a step beyond the maximum step (contacts may have been missed) is committed as an ordinary result; only the contact violation
    leads to another attempt. *)
Theorem step_commits_max_step_refuted : exists (e : step_env) (s : sim) (c : commit),
  step e BE 5 1 [0] [1] [1] = StepOk s /\ In c (commits s) /\ c_max_step c = true /\ c_exceeded c = false.
Proof.
  exists (demo_env 0 None true). demo. eexists; eexists; split; [reflexivity|]; split; [left; reflexivity|split; reflexivity].
Qed.
Print Assumptions step_commits_max_step_refuted.

(** C71. The contact stiffness of the constraints and of their autodiff copies stay equal, and no stiffness falls below the smaller of its old
    value and 50 / tolerance; every nonlinear solve starts from the initial point or from a committed point. *)
Theorem step_stiffness_safe (e : step_env) (ti : time_integration) (ci : nat) (dt : R) (x0 st : vec) :
  let s := state_after (step e ti ci dt x0 st st) in
  stiffness s = stiffness_ad s /\ length (stiffness s) = length st /\
  ((forall j, (j < length st)%nat -> 0 < nth j st 0 /\ 0 < s_tolerance e j) ->
   forall j, (j < length st)%nat -> Rmin (nth j st 0) (50 / s_tolerance e j) <= nth j (stiffness s) 0).
Proof.
  destruct (stages_spec e ti dt (num_stages ti) 0 (Z.of_nat ci) (Sim dt x0 st st [] [])) as (_ & _ & _ & _ & H). exact (H eq_refl).
Qed.
Print Assumptions step_stiffness_safe.
Theorem step_solves_start_from_committed (e : step_env) (ti : time_integration) (ci : nat) (dt : R) (x0 st st_ad : vec) :
  let s := state_after (step e ti ci dt x0 st st_ad) in forall x, In x (starts s) -> x = x0 \/ In x (map c_x (commits s)).
Proof.
  intros s x Hx. destruct (stages_spec e ti dt (num_stages ti) 0 (Z.of_nat ci) (Sim dt x0 st st_ad [] [])) as (_ & _ & _ & (cs & C1 & _ & _ & _ & _ & _ & xs & X1 & X2) & _).
  cbn [commits app starts initial_point] in *. unfold s, step in *. rewrite C1. rewrite X1 in Hx. exact (proj1 (List.Forall_forall _ _) X2 x Hx).
Qed.
Print Assumptions step_solves_start_from_committed.
(** A violation triples the stiffness; the next attempt succeeds. *)
Example step_stiffness_nonvacuous : exists s, step (demo_env 1 None false) BE 2 1 [0] [200] [200] = StepOk s /\ stiffness s = [200 * 3 / 2].
Proof.
  demo. destruct (Rlt_dec (100 / 1) (200 * 3)) as [_|Hn]; [|exfalso; apply Hn; lra]. eexists. split; reflexivity.
Qed.

(** C72. With a single-stage scheme a failing step commits nothing and leaves the initial point alone. *)
Theorem step_error_commits_nothing_partial (e : step_env) (ti : time_integration) (ci : nat) (dt : R) (x0 st st_ad : vec) :
  let o := step e ti ci dt x0 st st_ad in num_stages ti = 1%nat -> is_error o -> commits (state_after o) = [] /\ initial_point (state_after o) = x0.
Proof.
  intros o H1 [s Ho]. destruct (stages_spec e ti dt (num_stages ti) 0 (Z.of_nat ci) (Sim dt x0 st st_ad [] [])) as (_ & _ & _ & (cs & C1 & _ & _ & C4 & _ & C6 & _) & _).
  cbn [commits app initial_point] in C1, C4. fold (step e ti ci dt x0 st st_ad) in *. fold o in C1, C4, C6. specialize (C6 s (or_introl Ho)). rewrite H1 in C6.
  destruct cs; [|simpl in C6; lia]. split; assumption.
Qed.
Print Assumptions step_error_commits_nothing_partial.
Example step_error_commits_nothing_nonvacuous : num_stages BE = 1%nat /\ is_error (step (demo_env 5 (Some 1%nat) false) BE 5 1 [7] [1] [1]).
Proof.
  split; [reflexivity|]. unfold is_error. demo. eexists. reflexivity.
Qed.
(** Finding: when the second stage of a two-stage scheme fails, the first stage stays committed although the step returns an error. *)
Theorem step_error_commits_nothing_refuted : exists (e : step_env) (ti : time_integration),
  solver_terminates e /\ is_error (step e ti 5 1 [7] [1] [1]) /\ initial_point (state_after (step e ti 5 1 [7] [1] [1])) <> [7] /\
  commits (state_after (step e ti 5 1 [7] [1] [1])) <> [].
Proof.
  exists (demo_env 0 (Some 1%nat) false), SDIRK2. split; [apply demo_terminates|].
  assert (E : exists s, step (demo_env 0 (Some 1%nat) false) SDIRK2 5 1 [7] [1] [1] = StepError s /\ initial_point s = [0] /\ length (commits s) = 1%nat).
  { demo. eexists; split; [reflexivity|]; split; reflexivity. }
  destruct E as (s & E & Ei & Ec). rewrite E. split; [exists s; reflexivity|]. cbn [state_after]. rewrite Ei. split.
  - intros H. injection H as H. lra.
  - intros H. rewrite H in Ec. discriminate Ec.
Qed.
Print Assumptions step_error_commits_nothing_refuted.

(** C106. A step succeeds only if every nonlinear solve in it ended in Success or MaximumIterationsExceeded; every committed point is the result
    of such a solve; and a step fails only because a check before a stage failed or because its last solve ended in another status. *)
Theorem step_outcome_follows_solves (e : step_env) (ti : time_integration) (ci : nat) (dt : R) (x0 st st_ad : vec) :
  let o := step e ti ci dt x0 st st_ad in let s := state_after o in
  (is_ok o -> forall k, (k < length (starts s))%nat -> exists en y, solve_ended e s k en y /\ usable en) /\
  (is_ok o \/ is_error o -> forall c, In c (commits s) -> exists k en, solve_ended e s k en (c_x c) /\ usable en) /\
  (is_error o -> (exists k, (k < num_stages ti)%nat /\ s_check e k = false) \/
     exists status k y, length (starts s) = S k /\ solve_ended e s k (Ended status) y /\ ~ usable (Ended status)).
Proof.
  intros o. pose proof (stages_usable e ti dt (num_stages ti) 0 (Z.of_nat ci) (Sim dt x0 st st_ad [] [])) as H.
  specialize (H ltac:(split; [intros k Hk; cbn in Hk; lia|intros c []])). fold (step e ti ci dt x0 st st_ad) in H. fold o in H. cbv zeta. split; [|split].
  - intros [s Ho]. rewrite Ho in *. cbn [state_after]. exact (proj1 H).
  - intros [[s Ho]|[s Ho]]; rewrite Ho in *; cbn [state_after]; [exact (proj2 H)|]. destruct H as [[[_ H] _]|[H _]]; exact H.
  - intros [s Ho]; rewrite Ho in *; cbn [state_after]. destruct H as [[_ H]|[_ (k & en & y & Hl & Hs & (stt & -> & Hn1 & Hn2) & _)]]; [left; exact H|right].
    exists stt, k, y. split; [exact Hl|]. split; [exact Hs|]. intros [Hu|Hu]; injection Hu as Hu; contradiction.
Qed.
Print Assumptions step_outcome_follows_solves.
(** Two attempts because of contact, then a success; and a failure in the second attempt. *)
Example step_outcome_nonvacuous : (exists s, step (demo_env 1 None false) BE 2 1 [0] [1] [1] = StepOk s /\ length (starts s) = 2%nat /\ length (commits s) = 1%nat) /\
  (exists s, step (demo_env 5 (Some 1%nat) false) BE 5 1 [7] [1] [1] = StepError s /\ length (starts s) = 2%nat).
Proof.
  split; demo; eexists; split; try reflexivity. split; reflexivity.
Qed.
