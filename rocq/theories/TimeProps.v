(** Theorems about time integration: C33, C34, C73, C74, C75. *)
From Coq Require Import Reals Arith Lra Lia.
From Coquelicot Require Import Coquelicot.
From Verif Require Import Calc StepModel TimeModel TimeSpec TimeProofs.
Local Open Scope R_scope.

(** C33. Any number of steps of any scheme reproduce motion with constant acceleration (backward Euler: constant velocity) exactly, given an
    exact history. *)
Theorem integrators_exact_on_quadratics (ti : time_integration) (m q v a dt t : R) (k : nat) (n n' : node) :
  0 < m -> split_ok ti -> at_time q v a t n -> history_ok ti m q v a dt t n -> steps_to m (fun _ => - (m * a)) ti dt k n n' ->
  at_time q v a (t + INR k * dt) n'.
Proof. intros Hm Hs Ha Hh H. exact (proj1 (steps_exact m q v a dt Hm ti k n n' t Hs Ha Hh H)). Qed.
Print Assumptions integrators_exact_on_quadratics.
(** Trajectories exist from every state, also for spring forces. *)
Theorem trajectories_exist (ti : time_integration) (m k c dt : R) (j : nat) (n : node) :
  0 < m -> 0 <= k -> split_ok ti -> exists n', steps_to m (fun q => k * q + c) ti dt j n n'.
Proof. intros Hm Hk Hs. exact (steps_exist m k c ti dt j n Hm Hk Hs). Qed.
Print Assumptions trajectories_exist.
Theorem stage_solution_unique (s : scheme) (m k c dt : R) (n n1 n2 : node) :
  0 < m -> 0 <= k -> scheme_ok s -> stage_to m (fun q => k * q + c) s dt n n1 -> stage_to m (fun q => k * q + c) s dt n n2 -> n1 = n2.
Proof. exact (stage_unique m k c s dt n n1 n2). Qed.
Print Assumptions stage_solution_unique.
Example integrators_exact_nonvacuous :
  at_time 0 0 3 1 (Node (3 / 8) (3 / 2) (3 / 2) 3 (- 6)) /\ history_ok BDF2 2 0 0 3 (1 / 2) 1 (Node (3 / 8) (3 / 2) (3 / 2) 3 (- 6)) /\
  history_ok (TRBDF2 (1 / 3)) 2 0 0 3 (1 / 2) 1 (Node (3 / 8) (3 / 2) (3 / 2) 3 (- 6)) /\ split_ok (TRBDF2 (1 / 3)) /\
  exists n', steps_to 2 (fun q => 0 * q + - 6) (TRBDF2 (1 / 3)) (1 / 2) 7 (Node (3 / 8) (3 / 2) (3 / 2) 3 (- 6)) n'.
Proof.
  unfold at_time, history_ok, position, velocity; cbn [q_cur v_cur q_prev v_prev f_prev split_ok].
  split; [split; lra|]. split; [split; lra|]. split; [lra|]. split; [lra|]. apply trajectories_exist; [lra|lra|cbn; lra].
Qed.

(** C34. The position update is affine in the new velocity with slope dt times the implicit factor; equal history states are kept. *)
Theorem force_scale_matches_position_update (s : scheme) (dt : R) (n : node) (v : R) :
  scheme_ok s -> is_derive (integrate_step s dt n) v (dt * implicit_factor s).
Proof.
  intros Hs. apply (is_derive_ext (fun w => integrate_step s dt n 0 + dt * implicit_factor s * w)); [intros w; symmetry; apply integrate_slope, Hs|].
  auto_derive; [exact I|]. ring.
Qed.
Print Assumptions force_scale_matches_position_update.
Theorem history_weights_sum_to_one (s : scheme) (dt q v f : R) :
  scheme_ok s -> integrate_step s dt (Node q 0 q 0 f) 0 = q /\ base_velocity s (Node q v q v f) = v.
Proof. intros Hs. split; [apply integrate_rest, Hs|apply base_rest, Hs]. Qed.
Print Assumptions history_weights_sum_to_one.
(** The derivative of the residual is the mass plus the squared effective step times the stiffness, as used in jacobian_values (h * h). *)
Theorem residual_jacobian_scaling (s : scheme) (m dt : R) (n : node) (g : R -> R) (g' v : R) :
  scheme_ok s -> is_derive g (integrate_step s dt n v) g' ->
  is_derive (fun w => residual m s dt n (g (integrate_step s dt n w)) w) v (dt * implicit_factor s * (dt * implicit_factor s) * g' + m).
Proof.
  intros Hs Hg.
  pose proof (force_scale_matches_position_update s dt n v Hs) as Hi.
  pose proof (is_derive_comp g (integrate_step s dt n) v _ _ Hg Hi) as Hc.
  set (F := fun w => g (integrate_step s dt n w)) in *.
  apply (is_derive_ext (fun w => (F w * implicit_factor s + f_prev n * explicit_factor s) * dt + m * (w - base_velocity s n))).
  { intros w. symmetry. apply residual_blend. }
  change (is_derive F v (scal (dt * implicit_factor s) g')) in Hc. clearbody F.
  assert (Hex : ex_derive F v) by (eexists; exact Hc). auto_derive; [exact Hex|].
  change (Derive (fun x => F x) v) with (Derive F v). rewrite (is_derive_unique F v _ Hc). unfold scal. simpl. unfold mult. simpl. ring.
Qed.
Print Assumptions residual_jacobian_scaling.
Example force_scale_nonvacuous : scheme_ok (SMixed (1 / 2)) /\ implicit_factor (SMixed (1 / 2)) = 1 / 3 /\
  integrate_step (SMixed (1 / 2)) 3 (Node 1 0 4 0 0) 2 = 7 /\ is_derive (fun q => q * q) 7 (2 * 7).
Proof.
  cbn [scheme_ok implicit_factor integrate_step]. unfold mixed_bdf2_step. cbn [q_cur q_prev]. split; [lra|]. split; [field|]. split; [field|].
  auto_derive; [exact I|]. ring.
Qed.

(** C73. The residual is the derivative of the objective used as merit function. *)
Theorem objective_derivative_is_residual (s : scheme) (m dt : R) (n : node) (E : R -> R) (g v : R) :
  scheme_ok s -> is_derive E (integrate_step s dt n v) g -> is_derive (objective m s dt n E) v (residual m s dt n g v).
Proof.
  intros Hs HE. pose proof (force_scale_matches_position_update s dt n v Hs) as Hi.
  pose proof (is_derive_comp E (integrate_step s dt n) v _ _ HE Hi) as Hc. set (F := fun w => E (integrate_step s dt n w)) in *.
  set (c := if Rlt_dec 0 (explicit_factor s) then f_prev n * explicit_factor s * dt else 0).
  apply (is_derive_ext (fun w => c * w + F w + 1 / 2 * m * ((w - base_velocity s n) * (w - base_velocity s n)))).
  { intros w. unfold objective, c, F. destruct (Rlt_dec 0 (explicit_factor s)); ringR. }
  change (is_derive F v (scal (dt * implicit_factor s) g)) in Hc. clearbody F.
  assert (Hex : ex_derive F v) by (eexists; exact Hc). auto_derive; [exact Hex|].
  change (Derive (fun x => F x) v) with (Derive F v). rewrite (is_derive_unique F v _ Hc). unfold scal. simpl. unfold mult. simpl.
  unfold residual, c. destruct (Rlt_dec 0 (explicit_factor s)); field.
Qed.
Print Assumptions objective_derivative_is_residual.
Example objective_derivative_nonvacuous : is_derive (fun q => q * q) (integrate_step STR 1 (Node 0 0 1 2 3) 4) (2 * 4) /\ residual 1 STR 1 (Node 0 0 1 2 3) (2 * 4) 4 = 15 / 2.
Proof.
  split.
  - replace (2 * 4) with (2 * integrate_step STR 1 (Node 0 0 1 2 3) 4) by (cbn; unfold lerp_step; field). auto_derive; [exact I|]. ring.
  - rewrite residual_blend. cbn. field.
Qed.

(** C74. No scheme increases the energy of a linear oscillator, for any time step and any number of steps; the trapezoidal rule conserves it.
    For BDF2 the energy-like quantity of two consecutive states never increases. *)
Theorem integrators_stable_on_oscillators (ti : time_integration) (m k dt : R) (j : nat) (n n' : node) :
  0 < m -> 0 <= k -> split_ok ti -> ti <> BDF2 -> f_prev n = k * q_cur n -> steps_to m (fun q => k * q) ti dt j n n' ->
  energy m k (q_cur n') (v_cur n') <= energy m k (q_cur n) (v_cur n).
Proof. intros Hm Hk Hs Hb Hf H. exact (proj1 (stable_steps m k ti dt j n n' Hm Hk Hs Hb Hf H)). Qed.
Print Assumptions integrators_stable_on_oscillators.
Theorem trapezoidal_rule_conserves_energy (m k dt : R) (n n' : node) :
  f_prev n = k * q_cur n -> step_to m (fun q => k * q) TR dt n n' -> energy m k (q_cur n') (v_cur n') = energy m k (q_cur n) (v_cur n).
Proof. intros Hf H. exact (proj1 (tr_conserves m k _ n n' Hf H)). Qed.
Print Assumptions trapezoidal_rule_conserves_energy.
Theorem bdf2_stable_on_oscillators (m k dt : R) (j : nat) (n n' : node) :
  0 < m -> 0 <= k -> steps_to m (fun q => k * q) BDF2 dt j n n' ->
  energy m k (q_cur n') (v_cur n') + energy m k (2 * q_cur n' - q_prev n') (2 * v_cur n' - v_prev n')
  <= energy m k (q_cur n) (v_cur n) + energy m k (2 * q_cur n - q_prev n) (2 * v_cur n - v_prev n).
Proof. exact (stable_bdf2_steps m k dt j n n'). Qed.
Print Assumptions bdf2_stable_on_oscillators.
Example integrators_stable_nonvacuous : f_prev (Node 0 0 1 2 5) = 5 * q_cur (Node 0 0 1 2 5) /\ 
  (exists n', step_to 1 (fun q => 5 * q + 0) TR 10 (Node 0 0 1 2 5) n') /\ exists n', steps_to 1 (fun q => 5 * q + 0) SDIRK2 10 100 (Node 0 0 1 2 5) n'.
Proof.
  split; [cbn; lra|]. split; [apply (stage_exists 1 5 0 STR); [lra|lra|exact I]|]. apply trajectories_exist; [lra|lra|exact I].
Qed.

(** C75. SDIRK2 and backward Euler need no history: the first step of a fresh problem is as exact as the others. *)
Theorem first_step_exact_partial (m q v a dt : R) (n : node) :
  0 < m -> step_to m (fun _ => - (m * a)) SDIRK2 dt (fresh q v) n -> at_time q v a dt n.
Proof.
  intros Hm H. destruct (step_exact m q v a dt Hm SDIRK2 0 (fresh q v) n I) as [A _]; [split; unfold position, velocity, fresh; cbn; field|exact I|exact H|].
  rewrite Rplus_0_l in A. exact A.
Qed.
Print Assumptions first_step_exact_partial.
Example first_step_exact_nonvacuous : exists n, step_to 1 (fun _ => - (1 * 1)) SDIRK2 1 (fresh 0 0) n.
Proof.
  destruct (const_stage_exists 1 (- (1 * 1)) SBE (1 * sdirk_alpha) (fresh 0 0) ltac:(lra) I) as [n1 H1].
  destruct (const_stage_exists 1 (- (1 * 1)) SSDIRK2 (1 * 1) n1 ltac:(lra) I) as [n2 H2]. exists n2, n1. split; assumption.
Qed.
(** Finding: a fresh problem starts with zero previous force and with the previous state equal to the current one, so the first step of the
    trapezoidal rule applies half of the force and the first step of BDF2 moves a free particle by two thirds of v dt. *)
Theorem first_step_trapezoidal_refuted : exists (m a dt : R) (n : node),
  0 < m /\ 0 < dt /\ step_to m (fun _ => - (m * a)) TR dt (fresh 0 0) n /\ v_cur n = a * dt / 2 /\ ~ at_time 0 0 a dt n.
Proof.
  exists 1, 1, 1, (advance (fresh 0 0) (1 / 4) (1 / 2) (- (1 * 1))). split; [lra|]. split; [lra|]. split.
  - exists (1 / 2). cbv zeta. rewrite residual_blend. cbn. unfold lerp_step. split; [field|]. unfold advance, fresh; cbn. f_equal; field.
  - cbn. split; [lra|]. intros [_ H]. cbn in H. unfold velocity in H. lra.
Qed.
Print Assumptions first_step_trapezoidal_refuted.
Theorem first_step_bdf2_refuted : exists (m v dt : R) (n : node),
  0 < m /\ 0 < dt /\ v <> 0 /\ step_to m (fun _ => 0) BDF2 dt (fresh 0 v) n /\ q_cur n = 2 / 3 * (v * dt) /\ ~ at_time 0 v 0 dt n.
Proof.
  exists 1, 3, 1, (advance (fresh 0 3) 2 3 0). split; [lra|]. split; [lra|]. split; [lra|]. split.
  - exists 3. cbv zeta. rewrite residual_blend. cbn. unfold mixed_bdf2_step. cbn. split; [field|]. unfold advance, fresh; cbn. f_equal; field.
  - cbn. split; [lra|]. intros [H _]. cbn in H. unfold position in H. lra.
Qed.
Print Assumptions first_step_bdf2_refuted.
