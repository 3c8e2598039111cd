(** Property theorems for the Newton solver.  Runs are quantified over all oracles [e]: residuals, merit values, linear solvers, callbacks
    and file-system answers. *)
From Coq Require Import Reals List Arith Bool Lra Lia.
From Verif Require Import RList ConvergeModel ConvergeProofs LinSolveModel NewtonModel NewtonSpec NewtonProofs NewtonMeritProofs.
Import ListNotations.
Local Open Scope R_scope.

(** C21. Success means the convergence test passed at the returned point with the user's smoothing parameters in force. *)
Theorem newton_success_is_converged (ls_fuel : nat) (e : env) (cfg : config) (prev : nat) (x eps : vec) (tol : R) :
  let r := newton_solve ls_fuel e cfg prev x eps tol in
  r_ending r = Ended Success ->
  r_eps r = eps /\ (1 <= r_iterations r)%nat /\ exists t, nth_error (r_log r) (r_iterations r - 1) = Some t /\ e_x t = r_x r /\ e_eps t = eps /\
    o_converged e (r_iterations r) eps (e_prev t) (r_x r) = true.
Proof. exact (solve_success ls_fuel e cfg prev x eps tol). Qed.
Print Assumptions newton_success_is_converged.
Example newton_success_nonvacuous :
  newton_solve 0 (linear_env true true) (Config 1 (BackTracking (/ 10000) (9 / 10)) true false false) 3 [1] [1/10; 1/5] (1/100) =
    Result (Ended Success) 1 [0] [1/10; 1/5] (1/100) 1 [linear_entry (1/100) [1/10; 1/5]].
Proof. apply (linear_solve_example 0 true true false 3 [1/10; 1/5] (1/100)); [lra|reflexivity]. Qed.

(** C22. Iteration budget and truthful count; the loops terminate (line-search fuel suffices from some point on). *)
Theorem newton_iteration_budget (ls_fuel : nat) (e : env) (cfg : config) (prev : nat) (x eps : vec) (tol : R) :
  let r := newton_solve ls_fuel e cfg prev x eps tol in
  (r_iterations r <= Nat.max 1 (max_iter cfg))%nat /\ length (r_log r) = r_iterations r /\
  (r_ending r = Ended MaximumIterationsExceeded -> (max_iter cfg <= r_iterations r)%nat /\ (1 <= r_iterations r)%nat).
Proof. exact (solve_budget ls_fuel e cfg prev x eps tol). Qed.
Print Assumptions newton_iteration_budget.
Theorem newton_terminates (rho : R) : 0 <= rho -> exists N, forall (ls_fuel : nat) (e : env) (cfg : config) (prev : nat) (x eps : vec) (tol : R),
  step_factor (search cfg) = rho -> (N <= ls_fuel)%nat -> r_ending (newton_solve ls_fuel e cfg prev x eps tol) <> NoFuel.
Proof. exact (solve_fuel rho). Qed.
Print Assumptions newton_terminates.
Example newton_budget_nonvacuous :
  let r := newton_solve 0 (linear_env false true) (Config 1 (BackTracking (/ 10000) (9 / 10)) false true false) 7 [1] [] (1/2) in
  r_ending r = Ended MaximumIterationsExceeded /\ r_iterations r = 1%nat.
Proof. rewrite (linear_solve_example 0 false false true 7 [] (1/2)); [split; reflexivity|lra|discriminate]. Qed.
Example newton_terminates_nonvacuous : 0 <= 9 / 10 /\ step_factor (search default_config) = 9 / 10.
Proof. split; [lra|reflexivity]. Qed.

(** C23. Direct solver: an accepted step satisfies the sufficient decrease condition for the slope the code used, which is the slope of
    the step actually taken unless the direction was reversed. *)
Theorem newton_sufficient_decrease_partial (ls_fuel : nat) (e : env) (cfg : config) (prev : nat) (x eps : vec) (tol : R) (i : nat) (t : entry) :
  iterative cfg = false -> step_factor (search cfg) < 1 ->
  nth_error (r_log (newton_solve ls_fuel e cfg prev x eps tol)) i = Some t -> e_accepted t = true ->
  exists s m, e_slope t = Some s /\ e_merit_next t = Some m /\ m <= e_merit_cur t + armijo_coeff (search cfg) * e_alpha t * s /\
    (s <= 0 -> o_slope e i (e_eps t) (e_prev t) (e_p t) = Some s).
Proof. exact (solve_armijo ls_fuel e cfg prev x eps tol i t). Qed.
Print Assumptions newton_sufficient_decrease_partial.
Example newton_sufficient_decrease_nonvacuous :
  nth_error (r_log (newton_solve 0 (linear_env true true) (Config 1 (BackTracking (/ 10000) (9 / 10)) false false false) 1 [1] [] (1/100))) 0
    = Some (linear_entry (1/100) []) /\ e_accepted (linear_entry (1/100) []) = true.
Proof. rewrite (linear_solve_example 0 true false false 1 [] (1/100)); [split; reflexivity|lra|discriminate]. Qed.

(** The merit never increases over a run in which every step is accepted and no direction is reversed. *)
Theorem newton_merit_never_increases_partial (ls_fuel : nat) (e : env) (cfg : config) (prev : nat) (x eps : vec) (tol : R) :
  let log := r_log (newton_solve ls_fuel e cfg prev x eps tol) in
  iterative cfg = false -> adaptive cfg = false -> 0 <= step_factor (search cfg) < 1 -> 0 <= armijo_coeff (search cfg) ->
  (forall it x, 0 <= o_contact_alpha e it x) -> (forall it a x q, 0 <= a -> 0 <= o_friction_alpha e it a x q) ->
  (forall i t s, nth_error log i = Some t -> e_accepted t = true /\ (e_slope t = Some s -> s <= 0)) ->
  forall d i t u, nth_error log i = Some t -> nth_error log (i + d) = Some u -> exists m, e_merit_next u = Some m /\ m <= e_merit_cur t.
Proof.
  intros log Hd Ha [H0 H1] Hc Hca Hfa Hall. apply (solve_merit_monotone ls_fuel e cfg prev x eps tol Ha).
  intros i t Ht. destruct (Hall i t 0 Ht) as [Hacc _].
  destruct (solve_armijo ls_fuel e cfg prev x eps tol i t Hd H1 Ht Hacc) as (s & m & Hs & Hm & Hle & _).
  exists m. split; [exact Hm|]. destruct (Hall i t s Ht) as [_ Hneg]. specialize (Hneg Hs).
  destruct (solve_alpha_range ls_fuel e cfg prev x eps tol i t H0 Hca Hfa Ht) as [Hal _].
  pose proof (Rmult_le_pos _ _ Hc Hal) as Hp. pose proof (Rmult_le_compat_l _ _ _ Hp Hneg) as Hq. lra.
Qed.
Print Assumptions newton_merit_never_increases_partial.
Example newton_merit_never_increases_nonvacuous :
  let log := r_log (newton_solve 0 (linear_env true true) (Config 1 (BackTracking (/ 10000) (9 / 10)) false false false) 1 [1] [] (1/100)) in
  length log = 1%nat /\ forall i t s, nth_error log i = Some t -> e_accepted t = true /\ (e_slope t = Some s -> s <= 0).
Proof.
  rewrite (linear_solve_example 0 true false false 1 [] (1/100)); [|lra|discriminate]. split; [reflexivity|].
  intros [|i] t s H; cbn in H; [|destruct i; discriminate H]. injection H as <-. split; [reflexivity|]. cbn. intros E. injection E as <-. lra.
Qed.

(** Iterative solver: the inexact-Newton condition, and no increase for sensible parameters. *)
Theorem newton_inexact_decrease (ls_fuel : nat) (e : env) (cfg : config) (prev : nat) (x eps : vec) (tol : R) (i : nat) (t : entry) :
  iterative cfg = true -> use_obj_merit cfg = false -> 0 <= step_factor (search cfg) < 1 -> 0 <= armijo_coeff (search cfg) <= 1 -> 0 < tol <= 1 ->
  (forall it x, 0 <= o_contact_alpha e it x) -> (forall it a x q, 0 <= a -> 0 <= o_friction_alpha e it a x q) ->
  nth_error (r_log (newton_solve ls_fuel e cfg prev x eps tol)) i = Some t -> e_accepted t = true -> 0 <= e_merit_cur t ->
  exists m, e_merit_next t = Some m /\ m <= e_merit_cur t * (1 - armijo_coeff (search cfg) * e_alpha t * (1 - e_tol t)) ^ 2 /\ m <= e_merit_cur t.
Proof.
  intros Hi Hu [H0 H1] Hc Ht Hca Hfa Hn Hacc Hm.
  destruct (solve_inexact ls_fuel e cfg prev x eps tol i t Hi Hu H1 Hn Hacc) as (m & Em & Hle).
  exists m. split; [exact Em|]. split; [exact Hle|].
  destruct (solve_alpha_range ls_fuel e cfg prev x eps tol i t H0 Hca Hfa Hn) as [Ha0 Ha1].
  destruct (solve_tols ls_fuel e cfg prev x eps tol t Hi (nth_error_In _ _ Hn)) as [Hl1 Hl2].
  assert (0 <= Rmin tol eps32). { apply Rmin_glb; [lra|]. unfold eps32. left. apply Rinv_0_lt_compat. lra. }
  assert (Hq : 0 <= armijo_coeff (search cfg) * e_alpha t * (1 - e_tol t) <= 1).
  { split; [repeat apply Rmult_le_pos; lra|]. replace 1 with (1 * 1 * 1) at 2 by ring.
    apply Rmult_le_compat; [apply Rmult_le_pos; lra|lra| |lra]. apply Rmult_le_compat; lra. }
  apply Rle_trans with (1 := Hle). rewrite <- (Rmult_1_r (e_merit_cur t)) at 2. apply Rmult_le_compat_l; [exact Hm|].
  rewrite <- (pow1 2). apply pow_incr. lra.
Qed.
Print Assumptions newton_inexact_decrease.
Example newton_inexact_decrease_nonvacuous :
  nth_error (r_log (newton_solve 0 (linear_env true true) (Config 1 (BackTracking (/ 10000) (9 / 10)) false true false) 1 [1] [] (1/100))) 0
    = Some (linear_entry (forcing_term (1/100) (1/100) 1) []).
Proof. rewrite (linear_solve_example 0 true false true 1 [] (1/100)); [reflexivity|lra|discriminate]. Qed.

(** Finding: after reversing an ascent direction the code keeps the positive slope, so an accepted step may increase the merit.
    Here the merit is a smooth objective, the residual its derivative and the Jacobian its second derivative. *)
Theorem newton_sufficient_decrease_refuted : exists (e : env) (cfg : config) (x : vec) (i : nat) (t : entry) (s m : R),
  iterative cfg = false /\ search cfg = BackTracking (/ 10000) (9 / 10) /\ odd_slope e /\
  nth_error (r_log (newton_solve 0 e cfg 1 x [] (1/100))) i = Some t /\ e_accepted t = true /\
  o_slope e i (e_eps t) (e_prev t) (e_p t) = Some s /\ s < 0 /\ e_merit_next t = Some m /\
  m > e_merit_cur t + armijo_coeff (search cfg) * e_alpha t * s /\ m > e_merit_cur t.
Proof.
  exists saddle_env, saddle_config, [0], 0%nat, (Entry [0] [-1] (Some 1) 0 (1/100) [] 1 1 true [-1] (Some (/ 10000))), (-1), (/ 10000).
  split; [reflexivity|]. split; [reflexivity|]. split.
  { intros it eps x p s H. unfold saddle_env in H. cbn [o_slope] in H. injection H as <-. unfold saddle_env. cbn [o_slope]. f_equal.
    destruct p as [|p0 p]; cbn [map nth]; ring. }
  split; [rewrite saddle_solve; reflexivity|]. split; [reflexivity|].
  split; [cbn; f_equal; unfold saddle'; ring|]. split; [lra|]. split; [reflexivity|]. cbn. split; lra.
Qed.
Print Assumptions newton_sufficient_decrease_refuted.

(** C24. Smoothing parameters: restored on success and without adaptivity; never left outside [user, 1]. *)
Theorem newton_epsilon_restored_partial (ls_fuel : nat) (e : env) (cfg : config) (prev : nat) (x eps : vec) (tol : R) :
  let r := newton_solve ls_fuel e cfg prev x eps tol in
  (r_ending r = Ended Success \/ adaptive cfg = false -> r_eps r = eps) /\
  (user_range eps -> length (r_eps r) = length eps /\ forall j, (j < length eps)%nat -> nth j eps 0 <= nth j (r_eps r) 0 <= 1).
Proof.
  cbv zeta. split.
  - intros [H|H]; [apply (solve_success _ _ _ _ _ _ _ H)|exact (solve_eps_fixed _ _ _ _ _ _ _ H)].
  - exact (solve_eps_bounds ls_fuel e cfg prev x eps tol).
Qed.
Print Assumptions newton_epsilon_restored_partial.
Example newton_epsilon_restored_nonvacuous : user_range [1/10; 1/5] /\
  r_ending (newton_solve 0 (linear_env true true) (Config 1 (BackTracking (/ 10000) (9 / 10)) true false false) 3 [1] [1/10; 1/5] (1/100)) = Ended Success.
Proof.
  split.
  - intros [|[|j]] Hj; simpl in *; try lia; lra.
  - rewrite (linear_solve_example 0 true true false 3 [1/10; 1/5] (1/100)); [reflexivity|lra|reflexivity].
Qed.

(** Finding: every other exit of an adaptive solve leaves the enlarged parameters behind, and the next solve takes them for the user's. *)
Theorem newton_epsilon_restored_refuted : exists (e : env) (cfg : config) (prev : nat) (x eps : vec) (st : status),
  let r := newton_solve 0 e cfg prev x eps (1/100) in
  r_ending r = Ended st /\ user_range eps /\ r_eps r <> eps /\
  (* a later successful solve "restores" the wrong value *)
  (forall e' cfg' prev' x' tol', r_ending (newton_solve 0 e' cfg' prev' x' (r_eps r) tol') = Ended Success ->
     r_eps (newton_solve 0 e' cfg' prev' x' (r_eps r) tol') <> eps).
Proof.
  exists (linear_env true false), (Config 1 (BackTracking (/ 10000) (9 / 10)) true false false), 4%nat, [1], [1/10], Interrupted.
  assert (E : r_eps (newton_solve 0 (linear_env true false) (Config 1 (BackTracking (/ 10000) (9 / 10)) true false false) 4 [1] [1/10] (1/100)) = [1]).
  { change (r_eps _) with [initial_epsilon 4 (1/10)]. rewrite initial_epsilon_value by lra. cbn [Nat.compare]. rewrite Rmax_right by lra. reflexivity. }
  cbv zeta. split; [reflexivity|]. split; [|split].
  - intros [|j] Hj; simpl in *; [lra|lia].
  - rewrite E. intros H. injection H as H. lra.
  - intros e' cfg' prev' x' tol' Hs. apply (solve_success 0 e' cfg' prev' x' _ tol') in Hs. destruct Hs as [Hs _]. rewrite Hs, E. intros H. injection H as H. lra.
Qed.
Print Assumptions newton_epsilon_restored_refuted.

(** C25. Tolerance restored on every ending with a status, and inside the solve always between min(tol, 2^-23) and tol. *)
Theorem newton_tolerance_restored (ls_fuel : nat) (e : env) (cfg : config) (prev : nat) (x eps : vec) (tol : R) (st : status) :
  r_ending (newton_solve ls_fuel e cfg prev x eps tol) = Ended st -> r_tol (newton_solve ls_fuel e cfg prev x eps tol) = tol.
Proof. exact (solve_tolerance ls_fuel e cfg prev x eps tol st). Qed.
Print Assumptions newton_tolerance_restored.
Theorem newton_forcing_term_range (ls_fuel : nat) (e : env) (cfg : config) (prev : nat) (x eps : vec) (tol : R) (t : entry) :
  iterative cfg = true -> In t (r_log (newton_solve ls_fuel e cfg prev x eps tol)) -> Rmin tol (/ 2 ^ 23) <= e_tol t <= tol.
Proof.
  intros Hi Ht. replace (/ 2 ^ 23) with eps32; [exact (solve_tols ls_fuel e cfg prev x eps tol t Hi Ht)|].
  unfold eps32. f_equal. simpl. ring.
Qed.
Print Assumptions newton_forcing_term_range.
Example newton_tolerance_nonvacuous :
  let r := newton_solve 0 (linear_env true true) (Config 1 (BackTracking (/ 10000) (9 / 10)) false true false) 1 [1] [] (1/100) in
  r_ending r = Ended Success /\ r_tol r = 1/100 /\ In (linear_entry (forcing_term (1/100) (1/100) 1) []) (r_log r).
Proof. rewrite (linear_solve_example 0 true false true 1 [] (1/100)); [cbn; tauto|lra|discriminate]. Qed.

(** C26. Initial guess: at most 11 evaluations, the merit handed on is that of the final guess, a non-finite one only after all 11; the
    guess is the original halved at most nine times, or zero. *)
Theorem initial_guess_is_scaled (e : env) (eps x : vec) :
  let '(y, m, n) := initial_guess 10 e eps 0 x in
  (n <= 11)%nat /\ (exists j, n = S j /\ m = o_init_merit e j eps y) /\ (m = None -> n = 11%nat) /\ (halved 9 x y \/ zero_vector (length x) y).
Proof.
  pose proof (initial_guess_from e eps 10 0 x ltac:(lia) ltac:(lia)) as H.
  destruct (initial_guess 10 e eps 0 x) as [[y m] n]. cbv zeta in H. cbn [fst snd] in H. destruct H as (H1 & H2 & H3 & H4 & H5).
  split; [exact H2|]. split; [exact H3|]. split; [exact H4|]. destruct H5 as [(j & Hj & Hv)|Hv].
  - left. split; [exact H1|]. exists j. split; [lia|exact Hv].
  - right. split; assumption.
Qed.
Print Assumptions initial_guess_is_scaled.
(** Finite only for |x| < 1, starting from 3: two halvings, three evaluations. *)
Example initial_guess_nonvacuous :
  let e := Env (fun _ _ => true) true false (fun _ _ x => if Rlt_dec (nth 0 x 0) 1 then Some 5 else None) (fun _ => 1) (fun _ _ _ _ => None)
    (fun _ _ _ => CheckFailed) (fun _ _ _ _ => None) (fun _ _ _ _ => None) (fun _ _ _ _ => None) (fun _ _ => 1) (fun _ _ _ _ => 1)
    (fun _ _ _ _ => false) (fun _ => None) (fun _ _ _ => None) (fun _ => true) in
  initial_guess 10 e [] 0 [3] = ([3 * (1/2) * (1/2)], Some 5, 3%nat).
Proof.
  cbv zeta. rewrite initial_guess_step. cbn [o_init_merit nth]. destruct (Rlt_dec 3 1); [lra|]. cbn [Nat.ltb Nat.leb vscale map].
  rewrite initial_guess_step. cbn [o_init_merit nth]. destruct (Rlt_dec (3 * (1/2)) 1); [lra|]. cbn [Nat.ltb Nat.leb vscale map].
  rewrite initial_guess_step. cbn [o_init_merit nth]. destruct (Rlt_dec (3 * (1/2) * (1/2)) 1); [reflexivity|lra].
Qed.

(** C59. A failing line search: no panic when the debug files can be written or the backtracking factor is below about 0.562. *)
Theorem newton_line_search_no_panic_partial (ls_fuel : nat) (e : env) (cfg : config) (prev : nat) (x eps : vec) (tol : R) :
  0 <= step_factor (search cfg) ->
  (forall it, o_files e it = true) \/ step_factor (search cfg) ^ 80 < / 10 ^ 20 ->
  r_ending (newton_solve ls_fuel e cfg prev x eps tol) <> Panicked.
Proof. exact (solve_no_panic ls_fuel e cfg prev x eps tol). Qed.
Print Assumptions newton_line_search_no_panic_partial.
Example newton_no_panic_nonvacuous : 0 <= 1 / 2 /\ (1 / 2) ^ 80 < / 10 ^ 20.
Proof.
  split; [lra|]. replace (1 / 2) with (/ 2) by field. rewrite pow_inv. apply Rinv_lt_contravar.
  - apply Rmult_lt_0_compat; apply pow_lt; lra.
  - replace (2 ^ 80) with ((2 ^ 4) ^ 20) by (rewrite <- pow_mult; reflexivity).
    assert (H : forall n, (1 <= n)%nat -> 10 ^ n < (2 ^ 4) ^ n).
    { induction n as [|[|n] IH]; intros Hn; [lia|simpl; lra|]. specialize (IH ltac:(lia)).
      change (10 ^ S (S n)) with (10 * 10 ^ S n). change ((2 ^ 4) ^ S (S n)) with (2 ^ 4 * (2 ^ 4) ^ S n).
      apply Rmult_gt_0_lt_compat; [apply pow_lt; lra|simpl; lra|simpl; lra|exact IH]. }
    apply H. lia.
Qed.

(** Finding: with the default factor 0.9 and no writable ./out directory a line search that cannot make progress panics. *)
Theorem newton_line_search_panics_refuted : exists (e : env) (cfg : config) (x : vec) (N : nat),
  search cfg = BackTracking (/ 10000) (9 / 10) /\ forall ls_fuel, (N <= ls_fuel)%nat ->
  r_ending (newton_solve ls_fuel e cfg 1 x [] (1/100)) = Panicked.
Proof.
  destruct (pow_small (9 / 10) alpha_min ltac:(lra) alpha_min_pos) as [N HN].
  exists (wrong_sign false (fun _ _ => false)), default_config, [1], (3 + N)%nat. split; [reflexivity|].
  intros f Hf. destruct (wrong_sign_solve false (fun _ _ => false) f (1/100)) as (r & _ & _ & _ & _ & E); [apply HN; lia|lia|].
  rewrite E. reflexivity.
Qed.
Print Assumptions newton_line_search_panics_refuted.

(** C68. The step length reported for an iteration is the one taken when the step was accepted ... *)
Theorem newton_reported_step_taken_partial (ls_fuel : nat) (e : env) (cfg : config) (prev : nat) (x eps : vec) (tol : R) (i : nat) (t : entry) :
  sized (length x) e -> nth_error (r_log (newton_solve ls_fuel e cfg prev x eps tol)) i = Some t ->
  (e_accepted t = true -> at_step (e_prev t) (e_p t) (e_alpha t) (e_x t)) /\
  (e_accepted t = false -> e_alpha t < / 10 ^ 20 /\ (2 < e_ls_count t)%nat /\
     exists a, e_alpha t = a * step_factor (search cfg) /\ at_step (e_prev t) (e_p t) a (e_x t)).
Proof. exact (solve_step_taken ls_fuel e cfg prev x eps tol i t). Qed.
Print Assumptions newton_reported_step_taken_partial.
Example newton_reported_step_nonvacuous : sized 1 (linear_env true true) /\ at_step [1] [-1] 1 [0] /\
  nth_error (r_log (newton_solve 0 (linear_env true true) (Config 1 (BackTracking (/ 10000) (9 / 10)) false false false) 1 [1] [] (1/100))) 0 = Some (linear_entry (1/100) []).
Proof.
  split; [|split].
  - split; cbn; intros; congruence || (match goal with H : _ = Some _ |- _ => injection H as <-; reflexivity | H : _ = Solution _ |- _ => injection H as <-; reflexivity end).
  - split; [reflexivity|]. intros [|[|i]]; simpl; ring.
  - rewrite (linear_solve_example 0 true false false 1 [] (1/100)); [reflexivity|lra|discriminate].
Qed.
(** ... but after a failed search the reported value is smaller by the backtracking factor (finding). *)
Theorem newton_reported_step_taken_refuted : exists (ls_fuel : nat) (e : env) (cfg : config) (x : vec) (t : entry),
  sized (length x) e /\ nth_error (r_log (newton_solve ls_fuel e cfg 1 x [] (1/100))) 0 = Some t /\ ~ at_step (e_prev t) (e_p t) (e_alpha t) (e_x t).
Proof.
  destruct (pow_small (9 / 10) alpha_min ltac:(lra) alpha_min_pos) as [N HN].
  destruct (wrong_sign_solve true (fun _ _ => false) (3 + N) (1/100)) as (r & _ & Ha & Hal & Hx & E); [apply HN; lia|lia|].
  exists (3 + N)%nat, (wrong_sign true (fun _ _ => false)), default_config, [1].
  eexists. rewrite E. split; [|split; [reflexivity|]].
  - split; [intros it ep y tl p Hy H; discriminate H|intros it ep y p Hy H; injection H as <-; reflexivity].
  - cbn [e_prev e_p e_alpha e_x]. intros [_ H]. specialize (H 0%nat). rewrite Hx in H. simpl in H. lra.
Qed.
Print Assumptions newton_reported_step_taken_refuted.

(** C69. Adaptive smoothing: start value, monotone decrease to the user's value, reached after at most prev - 3 iterations. *)
Theorem adaptive_epsilon_start (prev : nat) (orig : R) : 0 < orig ->
  initial_epsilon prev orig = match Nat.compare prev 3 with Lt => Rmin orig 1 | Eq => orig | Gt => Rmax orig 1 end.
Proof. exact (initial_epsilon_value prev orig). Qed.
Print Assumptions adaptive_epsilon_start.
Example adaptive_epsilon_start_nonvacuous : initial_epsilon 10 (1/100) = 1 /\ initial_epsilon 1 (1/100) = 1/100.
Proof. rewrite !initial_epsilon_value by lra. cbn [Nat.compare]. rewrite Rmax_right, Rmin_left by lra. split; reflexivity. Qed.
Theorem adaptive_epsilon_schedule (ls_fuel : nat) (e : env) (cfg : config) (prev : nat) (x eps : vec) (tol : R) (i : nat) (t : entry) :
  adaptive cfg = true -> user_range eps -> nth_error (r_log (newton_solve ls_fuel e cfg prev x eps tol)) i = Some t ->
  (length (e_eps t) = length eps /\ forall j, (j < length eps)%nat -> nth j eps 0 <= nth j (e_eps t) 0 <= 1) /\
  (forall u, nth_error (r_log (newton_solve ls_fuel e cfg prev x eps tol)) (S i) = Some u -> below (e_eps u) (e_eps t)) /\
  ((prev - 3 <= i)%nat -> e_eps t = eps).
Proof.
  intros Ha Hu Ht. split; [|split].
  - destruct (solve_schedule _ _ _ _ _ _ _ Ha Hu _ _ Ht) as [Hl Hs]. split; [exact Hl|]. intros j Hj. destruct (Hs j Hj) as (H1 & H2 & _). lra.
  - intros u Hu'. exact (solve_schedule_monotone _ _ _ _ _ _ _ _ _ _ Ha Hu Ht Hu').
  - exact (solve_schedule_end _ _ _ _ _ _ _ _ _ Ha Hu Ht).
Qed.
Print Assumptions adaptive_epsilon_schedule.
Example adaptive_epsilon_schedule_nonvacuous :
  user_range [1/10] /\ nth_error (r_log (newton_solve 0 (linear_env true true) (Config 1 (BackTracking (/ 10000) (9 / 10)) true false false) 3 [1] [1/10] (1/100))) 0
     = Some (linear_entry (1/100) [1/10]).
Proof.
  split; [intros [|j] Hj; simpl in *; [lra|lia]|].
  rewrite (linear_solve_example 0 true true false 3 [1/10] (1/100)); [reflexivity|lra|reflexivity].
Qed.

(** C70. Finding: with the step-size criterion enabled a failed line search, which barely moves, is reported as Success although no step
    was accepted and the merit went up. *)
Theorem newton_success_without_progress_refuted : exists (ls_fuel : nat) (e : env) (cfg : config) (x : vec) (x_tol : R) (t : entry) (m : R),
  let r := newton_solve ls_fuel e cfg 1 x [] (1/100) in
  x_tol = / 1000 /\ (forall it ep xp y, o_converged e it ep xp y = converged xp y [] [] [] [] 1 1 x_tol 0 0) /\
  r_ending r = Ended Success /\ r_log r = [t] /\ e_accepted t = false /\ e_merit_next t = Some m /\ m > e_merit_cur t.
Proof.
  destruct (pow_small (9 / 10) alpha_min ltac:(lra) alpha_min_pos) as [N HN].
  set (conv := fun xp y => converged xp y [] [] [] [] 1 1 (/ 1000) 0 0).
  destruct (wrong_sign_solve true conv (3 + N) (1/100)) as (r & Hr & Ha & Hal & Hx & E); [apply HN; lia|lia|].
  assert (Hsmall : alpha_min < / 1000000).
  { unfold alpha_min. apply Rinv_lt_contravar; [apply Rmult_lt_0_compat; [lra|apply pow_lt; lra]|].
    replace 1000000 with (10 ^ 6) by (simpl; ring). apply Rlt_pow; [lra|lia]. }
  assert (Hc : conv [1] (ls_x r) = true).
  { unfold conv, converged. rewrite Hx. apply orb_true_iff. left. apply orb_true_iff. right. unfold x_criterion. apply andb_true_iff.
    split; apply Rltb_true; [lra|]. cbn [combine map fst snd]. rewrite rsum_cons, rsum_nil, Rplus_0_r.
    replace ((1 - (1 + ls_alpha r / (9 / 10))) * (1 - (1 + ls_alpha r / (9 / 10)))) with (Rsqr (ls_alpha r / (9 / 10))) by (unfold Rsqr; ring).
    rewrite sqrt_Rsqr by lra.
    apply Rlt_le_trans with (/ 1000 * 1); [lra|]. apply Rmult_le_compat_l; [lra|]. unfold norm2.
    match goal with |- 1 <= sqrt ?a + 1 => pose proof (sqrt_pos a) end. lra. }
  exists (3 + N)%nat, (wrong_sign true conv), default_config, [1], (/ 1000). eexists. exists ((1 + ls_alpha r / (9 / 10)) ^ 2 / 2). cbv zeta.
  split; [reflexivity|]. split; [reflexivity|]. rewrite E, Hc. split; [reflexivity|]. split; [reflexivity|]. cbn [e_accepted e_merit_next e_merit_cur].
  split; [exact Ha|]. split.
  - destruct (search_cases _ _ _ _ _ _ _ _ _ _ _ _ Hr) as [(Hf & _)|(_ & _ & Hb)]; [discriminate Hf|].
    apply bt_result in Hb; [|reflexivity]. destruct Hb as (_ & _ & _ & Hm & _). rewrite Hm, Hx. reflexivity.
  - nra.
Qed.
Print Assumptions newton_success_without_progress_refuted.
(** With the step-size criterion disabled a Success is decided by the force or acceleration criterion alone. *)
Theorem newton_success_small_forces (ls_fuel : nat) (e : env) (cfg : config) (prev : nat) (x eps : vec) (tol : R) (n : nat)
    (res resu : nat -> vec -> vec -> vec) (minv size : vec) (dt fac r_tol a_tol : R) :
  (forall it ep xp y, o_converged e it ep xp y = converged xp y (res it ep y) (resu it ep y) minv size dt fac 0 r_tol a_tol) ->
  let r := newton_solve ls_fuel e cfg prev x eps tol in
  r_ending r = Ended Success ->
  r_criterion (res (r_iterations r) eps (r_x r)) r_tol = true \/
  exists xp, a_criterion xp (r_x r) (resu (r_iterations r) eps (r_x r)) minv size (1 / (dt * fac)) a_tol = true.
Proof.
  intros Hc r Hs. destruct (solve_success ls_fuel e cfg prev x eps tol Hs) as (_ & _ & t & _ & _ & _ & H). rewrite Hc in H.
  unfold converged in H. apply orb_true_iff in H. destruct H as [H|H].
  - apply orb_true_iff in H. destruct H as [H|H]; [left; exact H|]. exfalso. unfold x_criterion in H. apply andb_true_iff in H. destruct H as [H _].
    apply Rltb_true in H. lra.
  - right. exists (e_prev t). exact H.
Qed.
Print Assumptions newton_success_small_forces.
Example newton_success_small_forces_nonvacuous :
  let conv := fun xp y : vec => converged xp y y y [] [] 1 1 0 (/ 1000) 0 in
  r_ending (newton_solve 0 (linear_env_with conv true) (Config 1 (BackTracking (/ 10000) (9 / 10)) false false false) 1 [1] [] (1/100)) = Ended Success.
Proof.
  cbv zeta. rewrite (linear_solve_with 0 _ false false 1 [] (1/100)); [|lra|discriminate]. cbn [r_ending].
  replace (converged [1] [0] [0] [0] [] [] 1 1 0 (/ 1000) 0) with true; [reflexivity|]. symmetry.
  unfold converged. apply orb_true_iff. left. apply orb_true_iff. left. unfold r_criterion. apply andb_true_iff. split; apply Rltb_true; [lra|].
  unfold inf_norm. cbn [fold_left]. rewrite Rabs_R0, Rmax_left; lra.
Qed.

(** C105. The merit that an iteration has to improve on was computed with the smoothing parameters in force in that iteration, at the point it
    starts from; the merit of the new point is computed with the same parameters. *)
Theorem newton_reference_merit_is_current (ls_fuel : nat) (e : env) (cfg : config) (prev : nat) (x eps : vec) (tol : R) (M : vec -> vec -> option R) (i : nat) (t : entry) :
  merit_function e M -> (adaptive cfg = true -> user_range eps) -> nth_error (r_log (newton_solve ls_fuel e cfg prev x eps tol)) i = Some t ->
  M (e_eps t) (e_prev t) = Some (e_merit_cur t) /\ e_merit_next t = M (e_eps t) (e_x t).
Proof. intros (H1 & H2 & H3) Hu. exact (solve_merit_current ls_fuel e cfg prev x eps tol M H1 H2 H3 Hu i t). Qed.
Print Assumptions newton_reference_merit_is_current.
(** Two iterations that halve the unknown; the parameter goes from 1 to 1/2 in between, so that the reference merit of the second iteration
    (5/8) is not the final merit of the first one (9/8). *)
Definition halving_merit (eps x : vec) : option R := Some (nth 0 x 0 ^ 2 / 2 + nth 0 eps 0).
Definition halving_env : env :=
  Env (fun _ _ => true) true false (fun _ => halving_merit) (fun _ => 1) (fun _ _ _ _ => None) (fun _ _ x => Solution (Some [nth 0 x 0 / 2])) (fun _ _ _ _ => Some 0)
    (fun _ _ => halving_merit) (fun _ _ _ _ => None) (fun _ _ => 1) (fun _ _ _ _ => 1) (fun _ _ _ _ => false) (fun _ => None) (fun _ => halving_merit) (fun _ => false).
Example newton_reference_merit_nonvacuous : merit_function halving_env halving_merit /\ user_range [1/2] /\ exists t u,
  r_log (newton_solve 0 halving_env (Config 2 NoLineSearch true false false) 4 [1] [1/2] (1/100)) = [t; u] /\
  e_eps t = [1] /\ e_eps u = [1/2] /\ e_merit_next t = Some (9/8) /\ e_merit_cur u = 5/8.
Proof.
  split; [split; [|split]; reflexivity|]. split; [intros [|j] Hj; simpl in *; [lra|lia]|].
  unfold newton_solve. cbn [adaptive map]. change (o_pattern_ok halving_env) with true. change (o_pattern_empty halving_env) with false. cbn [negb].
  rewrite initial_epsilon_value by lra. cbn [Nat.compare]. rewrite Rmax_right by lra.
  change (initial_guess 10 halving_env [1] 0 [1]) with ([1], Some (1 ^ 2 / 2 + 1), 1%nat). cbv iota beta. change (Nat.max 1 _) with 2%nat.
  cbn [newton_loop]. unfold newton_iteration at 1. change (o_callback halving_env 0 [1]) with true. cbn [negb iterative search step_factor].
  change (linear_solve _ _ 0 [1] [1] _) with (Solution (Some [1 / 2])). destruct (Rlt_dec 1 1) as [|_]; [lra|]. cbn [is_positive]. destruct (Rlt_dec 0 0) as [|_]; [lra|].
  cbn [vscale map]. unfold line_search_step. cbn [search step_factor]. destruct (Rlt_dec 1 1) as [|_]; [lra|].
  unfold after_search. cbn [dumps_debug_data andb ls_x ls_alpha ls_count ls_accepted ls_merit app vstep combine map fst snd].
  change (o_converged halving_env _ _ _ _) with false. cbn [andb max_iter Nat.leb adaptive]. unfold any_above. cbn [combine existsb fst snd].
  destruct (Rlt_dec (1 / 2) 1) as [_|]; [|lra]. cbn [orb].
  unfold reduce_epsilon, epsilon_factor. change (o_sqrt_ratio halving_env 0) with (@None R). cbn [combine map fst snd].
  assert (Eb : inverse_base 4 (1 / 2) = 1 / 2).
  { unfold inverse_base. cbn [Nat.eqb]. unfold epsilon_base. replace (1 / (INR 4 - 3)) with 1 by (simpl; field; lra). rewrite Rpower_1 by lra. rewrite Rmax_left by lra. field. }
  rewrite Eb. replace (1 * (1 / 2)) with (1 / 2) by ring. rewrite Rmax_left by lra.
  unfold newton_iteration. change (o_callback halving_env 1 _) with true. cbn [negb iterative search step_factor].
  change (o_merit_update halving_env 0 ?ep ?y) with (halving_merit ep y). cbn [halving_merit nth].
  change (linear_solve _ _ 1 ?ep [?y] _) with (Solution (Some [y / 2])). destruct (Rlt_dec 1 1) as [|_]; [lra|]. cbn [is_positive]. destruct (Rlt_dec 0 0) as [|_]; [lra|].
  cbn [vscale map]. unfold line_search_step. cbn [search step_factor]. destruct (Rlt_dec 1 1) as [|_]; [lra|].
  unfold after_search. cbn [dumps_debug_data andb ls_x ls_alpha ls_count ls_accepted ls_merit app vstep combine map fst snd].
  change (o_converged halving_env _ _ _ _) with false. cbn [andb max_iter Nat.leb]. unfold finish. cbn [r_log].
  eexists; eexists; split; [reflexivity|]. cbn [e_eps e_merit_next e_merit_cur]. split; [reflexivity|]. split; [reflexivity|]. split; [|field].
  change (o_merit halving_env 0 0 ?ep ?y) with (halving_merit ep y). unfold halving_merit. cbn [nth]. f_equal. field.
Qed.
