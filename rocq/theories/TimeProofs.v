From Coq Require Import Reals Arith Lra Lia.
From Verif Require Import StepModel TimeModel TimeSpec.
Local Open Scope R_scope.

Lemma sqrt2_sq : sqrt 2 * sqrt 2 = 2. Proof. apply sqrt_sqrt. lra. Qed.
Lemma sqrt2_bounds : 7 / 5 < sqrt 2 < 3 / 2.
Proof. pose proof sqrt2_sq. pose proof (sqrt_pos 2). split; nra. Qed.
Lemma alpha_bounds : 1 / 4 < sdirk_alpha < 3 / 10.
Proof. unfold sdirk_alpha. pose proof sqrt2_bounds. lra. Qed.
Lemma alpha_root : sdirk_alpha * sdirk_alpha = 2 * sdirk_alpha - 1 / 2.
Proof. unfold sdirk_alpha. pose proof sqrt2_sq. nra. Qed.

Lemma residual_blend m s dt n g v : residual m s dt n g v = (g * implicit_factor s + f_prev n * explicit_factor s) * dt + m * (v - base_velocity s n).
Proof.
  unfold residual. destruct (Rlt_dec 0 (explicit_factor s)) as [_|H]; [reflexivity|].
  assert (E : explicit_factor s = 0). { pose proof sqrt2_bounds. destruct s; cbn [explicit_factor] in *; try reflexivity; lra. }
  rewrite E. ring.
Qed.
Lemma stage_velocity m s dt n g v : 0 < m -> residual m s dt n g v = 0 ->
  v = base_velocity s n - (g * implicit_factor s + f_prev n * explicit_factor s) * dt / m.
Proof. intros Hm. rewrite residual_blend. intros H. apply (Rmult_eq_reg_l m); [|lra]. field_simplify; [|lra]. lra. Qed.

Lemma integrate_slope s dt n v : scheme_ok s -> integrate_step s dt n v = integrate_step s dt n 0 + dt * implicit_factor s * v.
Proof.
  intros Hs. destruct s; cbn [integrate_step implicit_factor scheme_ok] in *; unfold lerp_step, mixed_bdf2_step; try field; try lra.
Qed.
Lemma integrate_rest s dt q f : scheme_ok s -> integrate_step s dt (Node q 0 q 0 f) 0 = q.
Proof.
  intros Hs. destruct s; cbn [integrate_step scheme_ok q_cur q_prev v_cur v_prev] in *; unfold lerp_step, mixed_bdf2_step; cbn [q_cur q_prev]; try field; lra.
Qed.
Lemma base_rest s q v f : scheme_ok s -> base_velocity s (Node q v q v f) = v.
Proof. intros Hs. destruct s; cbn [base_velocity scheme_ok v_cur v_prev] in *; try field. nra. Qed.

(** * Constant acceleration *)
Section Exact.
Variables (m q0 v0 a dt : R).
Hypothesis Hm : 0 < m.
Let grad (_ : R) := - (m * a).

Lemma vel_blend s h n v : f_prev n = - (m * a) \/ explicit_factor s = 0 -> residual m s h n (- (m * a)) v = 0 ->
  v = base_velocity s n + a * (implicit_factor s + explicit_factor s) * h.
Proof.
  intros Hf H. rewrite (stage_velocity _ _ _ _ _ _ Hm H). destruct Hf as [Hf|Hf]; rewrite Hf; field; lra.
Qed.

Lemma step_exact ti t n n' : split_ok ti -> at_time q0 v0 a t n -> history_ok ti m q0 v0 a dt t n -> step_to m grad ti dt n n' ->
  at_time q0 v0 a (t + dt) n' /\ history_ok ti m q0 v0 a dt (t + dt) n'.
Proof.
  intros Hs [Hq Hv] Hh Hst. unfold at_time, position, velocity in *. destruct ti as [| | |g|]; cbn [step_to num_stages stage_of step_integrator history_ok split_ok] in *;
    unfold step_to, stage_of in Hst; cbn [num_stages step_integrator Nat.even] in Hst.
  - destruct Hst as (v & Hr & ->). apply vel_blend in Hr; [|right; reflexivity]. cbn [base_velocity implicit_factor explicit_factor integrate_step advance q_cur v_cur] in *.
    subst a. rewrite Hr, Hq, Hv. split; [split; field|reflexivity].
  - destruct Hst as (v & Hr & ->). apply vel_blend in Hr; [|left; exact Hh]. cbn [base_velocity implicit_factor explicit_factor integrate_step advance q_cur v_cur f_prev] in *.
    unfold lerp_step. rewrite Hr, Hq, Hv. split; [split; field|reflexivity].
  - destruct Hst as (v & Hr & ->). destruct Hh as [Hqp Hvp]. unfold position, velocity in *. apply vel_blend in Hr; [|right; reflexivity].
    cbn [base_velocity implicit_factor explicit_factor integrate_step advance q_cur v_cur q_prev v_prev] in *.
    unfold mixed_bdf2_step. rewrite Hr, Hq, Hv, Hqp, Hvp. split; [split; field|split; field].
  - destruct Hst as (n1 & (v & Hr & ->) & (w & Hw & ->)). apply vel_blend in Hr; [|left; exact Hh]. apply vel_blend in Hw; [|left; reflexivity].
    cbn [base_velocity implicit_factor explicit_factor integrate_step advance q_cur v_cur q_prev v_prev f_prev] in *.
    unfold lerp_step, mixed_bdf2_step in *. cbn [q_cur v_cur q_prev v_prev f_prev advance] in *. rewrite Hw, Hr, Hq, Hv. split; [split; field; nra|reflexivity].
  - destruct Hst as (n1 & (v & Hr & ->) & (w & Hw & ->)). apply vel_blend in Hr; [|right; reflexivity]. apply vel_blend in Hw; [|left; reflexivity].
    cbn [base_velocity implicit_factor explicit_factor integrate_step advance q_cur v_cur q_prev v_prev f_prev] in *.
    assert (He : 1 / 2 * sqrt 2 = 1 - sdirk_alpha) by (unfold sdirk_alpha; ring). rewrite He in Hw.
    unfold lerp_step in *. rewrite Hw, Hr, Hq, Hv. pose proof alpha_root as Ha. split; [|exact I]. split; [|ring].
    match goal with |- ?l = ?r => replace l with (r + a * dt * dt * (2 * sdirk_alpha - sdirk_alpha * sdirk_alpha - 1 / 2)) by field end. rewrite Ha. field.
Qed.

Lemma steps_exact ti k n n' t : split_ok ti -> at_time q0 v0 a t n -> history_ok ti m q0 v0 a dt t n -> steps_to m grad ti dt k n n' ->
  at_time q0 v0 a (t + INR k * dt) n' /\ history_ok ti m q0 v0 a dt (t + INR k * dt) n'.
Proof.
  intros Hs Ha Hh H. induction H as [n|k n n1 n2 H IH Hst].
  - replace (t + INR 0 * dt) with t by (simpl; ring). split; assumption.
  - destruct (IH Ha Hh) as [A B]. rewrite S_INR. replace (t + (INR k + 1) * dt) with (t + INR k * dt + dt) by ring. exact (step_exact ti _ n1 n2 Hs A B Hst).
Qed.
End Exact.

(** * Every stage has exactly one solution for a linear force *)
Lemma stage_exists m k c s dt n : 0 < m -> 0 <= k -> scheme_ok s -> exists n', stage_to m (fun q => k * q + c) s dt n n'.
Proof.
  intros Hm Hk Hs. set (h := dt * implicit_factor s).
  assert (Hd : 0 < m + k * h * h) by nra.
  set (q0 := integrate_step s dt n 0).
  exists (advance n (integrate_step s dt n ((m * base_velocity s n - (k * q0 + c) * h - f_prev n * explicit_factor s * dt) / (m + k * h * h)))
    ((m * base_velocity s n - (k * q0 + c) * h - f_prev n * explicit_factor s * dt) / (m + k * h * h))
    (k * integrate_step s dt n ((m * base_velocity s n - (k * q0 + c) * h - f_prev n * explicit_factor s * dt) / (m + k * h * h)) + c)).
  eexists. cbv zeta. split; [|reflexivity]. rewrite residual_blend, (integrate_slope s dt n) by exact Hs. fold q0 h.
  replace (((k * (q0 + h * ((m * base_velocity s n - (k * q0 + c) * h - f_prev n * explicit_factor s * dt) / (m + k * h * h))) + c) * implicit_factor s + f_prev n * explicit_factor s) * dt)
    with ((k * (q0 + h * ((m * base_velocity s n - (k * q0 + c) * h - f_prev n * explicit_factor s * dt) / (m + k * h * h))) + c) * h + f_prev n * explicit_factor s * dt) by (unfold h; ring).
  field. lra.
Qed.

Lemma scaled_energy_nonneg m k q u : 0 < m -> 0 <= k -> 0 <= m * (m * u ^ 2 + k * q ^ 2).
Proof. intros Hm Hk. apply Rmult_le_pos; [lra|]. apply Rplus_le_le_0_compat; apply Rmult_le_pos; try lra; apply pow2_ge_0. Qed.

(** * Oscillator *)
Section Oscillator.
Variables (m k dt : R).
Hypothesis Hm : 0 < m.
Hypothesis Hk : 0 <= k.
Let grad (q : R) := k * q.

(** Blended force consistent with the last position. *)
Definition consistent (n : node) : Prop := f_prev n = k * q_cur n.

Lemma tr_conserves h n n' : consistent n -> stage_to m grad STR h n n' -> energy m k (q_cur n') (v_cur n') = energy m k (q_cur n) (v_cur n) /\ consistent n'.
Proof.
  intros Hc (v & Hr & ->). rewrite residual_blend in Hr. unfold consistent in *. cbn [integrate_step base_velocity implicit_factor explicit_factor advance q_cur v_cur f_prev] in *.
  unfold lerp_step in *. split; [|reflexivity]. rewrite Hc in Hr. unfold grad in Hr.
  assert (E : v * m = m * v_cur n - h / 2 * k * (q_cur n + ((v * (1 / 2) + v_cur n * (1 - 1 / 2)) * h + q_cur n))) by lra.
  unfold energy. set (w := (v * (1 / 2) + v_cur n * (1 - 1 / 2)) * h + q_cur n) in *.
  assert (W : w - q_cur n = h / 2 * (v + v_cur n)) by (unfold w; field).
  assert (E1 : m * (v - v_cur n) = - (h / 2 * k * (q_cur n + w))) by lra.
  assert (m * (v - v_cur n) * (v + v_cur n) = - (k * (w - q_cur n) * (q_cur n + w))) by (rewrite E1, W; ring). lra.
Qed.

Lemma be_decreases h n n' : stage_to m grad SBE h n n' -> energy m k (q_cur n') (v_cur n') <= energy m k (q_cur n) (v_cur n).
Proof.
  intros (v & Hr & ->). rewrite residual_blend in Hr. cbn [integrate_step base_velocity implicit_factor explicit_factor advance q_cur v_cur f_prev] in *.
  unfold energy, grad in *. set (w := v * h + q_cur n) in *. assert (W : q_cur n = w - v * h) by (unfold w; ring).
  assert (V : m * v_cur n = m * v + k * w * h) by lra.
  assert (E : m * (m * v_cur n ^ 2) = (m * v + k * w * h) ^ 2) by (rewrite <- V; ring).
  apply (Rmult_le_reg_l m); [exact Hm|]. rewrite !Rmult_plus_distr_l, E, W. pose proof (pow2_ge_0 (k * w * h)). pose proof (pow2_ge_0 (v * h)) as Hv.
  apply (Rmult_le_compat_l (m * k)) in Hv; [|nra]. lra.
Qed.

Lemma sdirk_decreases h n n1 n' : stage_to m grad SBE (h * sdirk_alpha) n n1 -> stage_to m grad SSDIRK2 h n1 n' ->
  energy m k (q_cur n') (v_cur n') <= energy m k (q_cur n) (v_cur n).
Proof.
  intros (v & Hr & ->) (w & Hw & ->). rewrite residual_blend in Hr, Hw.
  cbn [integrate_step base_velocity implicit_factor explicit_factor advance q_cur v_cur f_prev q_prev v_prev] in *.
  replace (1 / 2 * sqrt 2) with (1 - sdirk_alpha) in Hw by (unfold sdirk_alpha; ring). unfold lerp_step, grad in *.
  set (al := sdirk_alpha) in *. set (q0 := q_cur n) in *. set (v0 := v_cur n) in *.
  set (q1 := v * (h * al) + q0) in *. set (q2 := (w * al + v * (1 - al)) * h + q0) in *.
  assert (Al : al * al = 2 * al - 1 / 2) by exact alpha_root.
  (* with z = (alpha h)^2 k / m: E1 (1 + z) = E0 and E2 (1 + z) = E1 (1 + 2 z) *)
  assert (Q0 : q0 = q1 - h * al * v) by (unfold q1; ring). assert (V0 : m * v0 = m * v + k * q1 * (h * al)) by lra.
  assert (Q2 : q2 - al * h * w = q1 + (1 - 2 * al) * h * v) by (unfold q2; rewrite Q0; ring).
  assert (V2 : m * w + al * h * k * q2 = m * v - (1 - 2 * al) * h * k * q1) by lra.
  set (E := fun q u => m * (m * u ^ 2 + k * q ^ 2)).
  assert (P0 : E q0 v0 = E q1 v * (1 + al * al * h * h * k / m)).
  { unfold E. rewrite Q0. replace (m * (m * v0 ^ 2 + k * (q1 - h * al * v) ^ 2)) with ((m * v0) ^ 2 + m * k * (q1 - h * al * v) ^ 2) by ring. rewrite V0. field. lra. }
  assert (P2 : E q2 w * (1 + al * al * h * h * k / m) = E q1 v * (1 + 2 * (al * al * h * h * k / m))).
  { transitivity ((m * w + al * h * k * q2) ^ 2 + m * k * (q2 - al * h * w) ^ 2); [unfold E; field; lra|]. rewrite V2, Q2. unfold E.
    transitivity (m * (m * v ^ 2 + k * q1 ^ 2) * (1 + (1 - 2 * al) * (1 - 2 * al) * h * h * k / m)); [field; lra|].
    replace ((1 - 2 * al) * (1 - 2 * al)) with (2 * (al * al)) by (rewrite Al; lra). field. lra. }
  set (z := al * al * h * h * k / m) in *. assert (Hz : 0 <= z). { unfold z. apply Rmult_le_pos; [|apply Rlt_le, Rinv_0_lt_compat, Hm]. replace (al * al * h * h * k) with ((al * h) ^ 2 * k) by ring. apply Rmult_le_pos; [apply pow2_ge_0|exact Hk]. }
  assert (HE1 : 0 <= E q1 v). { apply scaled_energy_nonneg; assumption. }
  unfold energy. apply (Rmult_le_reg_l m); [exact Hm|]. change (E q2 w <= E q0 v0). rewrite P0.
  apply (Rmult_le_reg_r (1 + z)); [lra|]. rewrite P2. rewrite Rmult_assoc. apply Rmult_le_compat_l; [exact HE1|]. nra.
Qed.

Lemma trbdf2_decreases h t n n1 n' : 0 < t < 1 -> consistent n -> stage_to m grad STR (h * t) n n1 -> stage_to m grad (SMixed (1 - t)) h n1 n' ->
  energy m k (q_cur n') (v_cur n') <= energy m k (q_cur n) (v_cur n) /\ consistent n'.
Proof.
  intros Ht Hc S1 S2. pose proof (tr_conserves _ _ _ Hc S1) as [HE Hc1]. destruct S1 as (v & Hr & ->). destruct S2 as (w & Hw & ->).
  split; [|reflexivity]. rewrite residual_blend in Hr, Hw. unfold consistent in *.
  cbn [integrate_step base_velocity implicit_factor explicit_factor advance q_cur v_cur f_prev q_prev v_prev] in *. rewrite Hc in Hr.
  unfold lerp_step, mixed_bdf2_step, grad in *. cbn [advance q_cur q_prev] in *.
  set (q0 := q_cur n) in *. set (v0 := v_cur n) in *.
  set (q1 := (v * (1 / 2) + v0 * (1 - 1 / 2)) * (h * t) + q0) in *.
  set (a := 1 / (1 - (1 - t) * (1 - t))) in *. set (b := (1 - t) * (1 - t) / (1 - (1 - t) * (1 - t))) in *. set (c := (1 - t) / (1 + (1 - t))) in *.
  set (q2 := w * ((1 - (1 - (1 - t))) / (2 - (1 - (1 - t))) * h) + q1 * (1 / ((1 - (1 - t)) * (2 - (1 - (1 - t))))) + q0 * (- (1 - (1 - (1 - t))) * (1 - (1 - (1 - t))) / ((1 - (1 - t)) * (2 - (1 - (1 - t)))))) in *.
  assert (Ha : 1 / ((1 - (1 - t)) * (2 - (1 - (1 - t)))) = a) by (unfold a; field; nra).
  assert (Hb : - (1 - (1 - (1 - t))) * (1 - (1 - (1 - t))) / ((1 - (1 - t)) * (2 - (1 - (1 - t)))) = - b) by (unfold b; field; nra).
  assert (Hcc : (1 - (1 - (1 - t))) / (2 - (1 - (1 - t))) = c) by (unfold c; field; lra).
  assert (Hab : a - b = 1) by (unfold a, b; field; nra). assert (Habc : a * b * t ^ 2 = c ^ 2) by (unfold a, b, c; field; nra).
  assert (Q2 : q2 - c * h * w = a * q1 - b * q0) by (unfold q2; rewrite Ha, Hb, Hcc; ring).
  assert (V2 : m * w + c * h * k * q2 = m * (a * v - b * v0)) by lra.
  clearbody q2 a b c. clear Hw Ha Hb Hcc.
  assert (Q1 : q1 - q0 = h * t / 2 * (v + v0)) by (unfold q1; field). assert (V1 : m * (v - v0) = - (h * t / 2 * k * (q1 + q0))) by lra.
  clearbody q1. clear Hr.
  (* squared length of the left-hand side *)
  set (E := fun q u => m * (m * u ^ 2 + k * q ^ 2)).
  assert (HE' : E q1 v = E q0 v0). { unfold E. unfold energy in HE. rewrite HE. reflexivity. }
  assert (P2 : E q2 w * (1 + c ^ 2 * h ^ 2 * k / m) = E q0 v0 + a * b * E (q1 - q0) (v - v0)).
  { transitivity ((m * w + c * h * k * q2) ^ 2 + m * k * (q2 - c * h * w) ^ 2); [unfold E; field; lra|]. rewrite V2, Q2.
    transitivity ((a - b) * (a * E q1 v - b * E q0 v0) + a * b * E (q1 - q0) (v - v0)); [unfold E; ring|]. rewrite HE', Hab.
    replace (1 * (a * E q0 v0 - b * E q0 v0)) with ((a - b) * E q0 v0) by ring. rewrite Hab. ring. }
  assert (PD : E (q1 - q0) (v - v0) = h ^ 2 * t ^ 2 / 4 * (k / m) * E (q1 + q0) (v + v0)).
  { transitivity ((m * (v - v0)) ^ 2 + m * k * (q1 - q0) ^ 2); [unfold E; ring|]. rewrite V1, Q1. unfold E. field. lra. }
  assert (PS : E (q1 + q0) (v + v0) <= 4 * E q0 v0).
  { assert (Hp : E (q1 + q0) (v + v0) + E (q1 - q0) (v - v0) = 4 * E q0 v0). { transitivity (2 * E q1 v + 2 * E q0 v0); [unfold E; ring|]. rewrite HE'. ring. }
    assert (0 <= E (q1 - q0) (v - v0)). { apply scaled_energy_nonneg; assumption. } lra. }
  unfold energy. apply (Rmult_le_reg_l m); [exact Hm|]. change (E q2 w <= E q0 v0).
  assert (Hz : 0 <= c ^ 2 * h ^ 2 * k / m). { apply Rmult_le_pos; [|apply Rlt_le, Rinv_0_lt_compat, Hm]. replace (c ^ 2 * h ^ 2 * k) with ((c * h) ^ 2 * k) by ring. apply Rmult_le_pos; [apply pow2_ge_0|exact Hk]. }
  apply (Rmult_le_reg_r (1 + c ^ 2 * h ^ 2 * k / m)); [lra|]. rewrite P2, PD.
  replace (a * b * (h ^ 2 * t ^ 2 / 4 * (k / m) * E (q1 + q0) (v + v0))) with (c ^ 2 * h ^ 2 * k / m * (E (q1 + q0) (v + v0) / 4)) by (rewrite <- Habc; field; lra).
  rewrite Rmult_plus_distr_l, Rmult_1_r. apply Rplus_le_compat_l. rewrite (Rmult_comm (E q0 v0)). apply Rmult_le_compat_l; [exact Hz|lra].
Qed.

(** BDF2: the G-norm of two consecutive states never increases. *)
Lemma bdf2_decreases h n n' : stage_to m grad SBDF2 h n n' ->
  energy m k (q_cur n') (v_cur n') + energy m k (2 * q_cur n' - q_prev n') (2 * v_cur n' - v_prev n')
  <= energy m k (q_cur n) (v_cur n) + energy m k (2 * q_cur n - q_prev n) (2 * v_cur n - v_prev n).
Proof.
  intros (w & Hr & ->). rewrite residual_blend in Hr. cbn [integrate_step base_velocity implicit_factor explicit_factor advance q_cur v_cur f_prev q_prev v_prev] in *.
  unfold mixed_bdf2_step, grad in *.
  set (q2 := w * ((1 - 1 / 2) / (2 - 1 / 2) * (2 * h)) + q_cur n * (1 / (1 / 2 * (2 - 1 / 2))) + q_prev n * (- (1 - 1 / 2) * (1 - 1 / 2) / (1 / 2 * (2 - 1 / 2)))) in *.
  assert (Q : q2 = 4 / 3 * q_cur n - 1 / 3 * q_prev n + 2 / 3 * h * w) by (unfold q2; field).
  assert (V : m * w = m * (4 / 3 * v_cur n - 1 / 3 * v_prev n) - 2 / 3 * h * k * q2) by lra. clearbody q2. clear Hr.
  set (q1 := q_cur n) in *. set (q0 := q_prev n) in *. set (v1 := v_cur n) in *. set (v0 := v_prev n) in *.
  assert (Z : m * (3 * w - 4 * v1 + v0) * w + k * (3 * q2 - 4 * q1 + q0) * q2 = 0).
  { replace (m * (3 * w - 4 * v1 + v0)) with (- (2 * h * k * q2)) by lra. replace (3 * q2 - 4 * q1 + q0) with (2 * h * w) by lra. ring. }
  unfold energy. pose proof (pow2_ge_0 (w - 2 * v1 + v0)) as A. pose proof (pow2_ge_0 (q2 - 2 * q1 + q0)) as B.
  apply (Rmult_le_compat_l m) in A; [|lra]. apply (Rmult_le_compat_l k) in B; [|exact Hk]. nra.
Qed.
End Oscillator.

(** * Existence of trajectories *)
Lemma steps_exist m k c ti dt j n : 0 < m -> 0 <= k -> split_ok ti -> exists n', steps_to m (fun q => k * q + c) ti dt j n n'.
Proof.
  intros Hm Hk Hs. assert (St : forall n, exists n', step_to m (fun q => k * q + c) ti dt n n').
  { intros n0. unfold step_to, stage_of. destruct ti as [| | |t|]; cbn [num_stages step_integrator Nat.even split_ok] in *.
    1-3: apply stage_exists; try assumption; exact I.
    - destruct (stage_exists m k c STR (dt * t) n0 Hm Hk I) as [n1 H1]. destruct (stage_exists m k c (SMixed (1 - t)) (dt * 1) n1 Hm Hk) as [n2 H2]; [cbn; lra|].
      exists n2, n1. split; assumption.
    - destruct (stage_exists m k c SBE (dt * sdirk_alpha) n0 Hm Hk I) as [n1 H1]. destruct (stage_exists m k c SSDIRK2 (dt * 1) n1 Hm Hk I) as [n2 H2].
      exists n2, n1. split; assumption. }
  induction j as [|j [n1 IH]]; [exists n; constructor|]. destruct (St n1) as [n2 H2]. exists n2. econstructor; eassumption.
Qed.

Lemma stage_unique m k c s dt n n1 n2 : 0 < m -> 0 <= k -> scheme_ok s ->
  stage_to m (fun q => k * q + c) s dt n n1 -> stage_to m (fun q => k * q + c) s dt n n2 -> n1 = n2.
Proof.
  intros Hm Hk Hs (v & Hv & ->) (w & Hw & ->). cbv zeta in *. rewrite residual_blend in Hv, Hw.
  assert (E : v = w).
  { rewrite (integrate_slope s dt n v Hs) in Hv. rewrite (integrate_slope s dt n w Hs) in Hw.
    set (h := implicit_factor s) in *. set (q0 := integrate_step s dt n 0) in *.
    assert (D : (m + k * ((dt * h) * (dt * h))) * (v - w) = 0) by lra.
    apply Rmult_integral in D. assert (0 < m + k * ((dt * h) * (dt * h))). { assert (0 <= k * ((dt * h) * (dt * h))) by (apply Rmult_le_pos; [exact Hk|apply Rle_0_sqr]). lra. } lra. }
  rewrite E. reflexivity.
Qed.

Lemma stable_steps m k ti dt j n n' : 0 < m -> 0 <= k -> split_ok ti -> ti <> BDF2 -> f_prev n = k * q_cur n ->
  steps_to m (fun q => k * q) ti dt j n n' -> energy m k (q_cur n') (v_cur n') <= energy m k (q_cur n) (v_cur n) /\ f_prev n' = k * q_cur n'.
Proof.
  intros Hm Hk Hs Hb Hf H. induction H as [n|j n n1 n2 H IH Hst]; [split; [lra|exact Hf]|]. destruct (IH Hf) as [A B].
  enough (G : energy m k (q_cur n2) (v_cur n2) <= energy m k (q_cur n1) (v_cur n1) /\ f_prev n2 = k * q_cur n2) by (split; [lra|apply G]).
  unfold step_to, stage_of in Hst. destruct ti as [| | |t|]; cbn [num_stages step_integrator Nat.even split_ok] in *.
  - split; [exact (be_decreases m k Hm Hk _ _ _ Hst)|]. destruct Hst as (v & _ & ->). reflexivity.
  - destruct (tr_conserves m k _ _ _ B Hst) as [E F]. split; [rewrite E; lra|exact F].
  - elim Hb. reflexivity.
  - destruct Hst as (m1 & S1 & S2). rewrite Rmult_1_r in S2. exact (trbdf2_decreases m k Hm Hk dt t _ _ _ Hs B S1 S2).
  - destruct Hst as (m1 & S1 & S2). rewrite Rmult_1_r in S2. split; [exact (sdirk_decreases m k Hm Hk dt _ _ _ S1 S2)|]. destruct S2 as (v & _ & ->). reflexivity.
Qed.

Lemma stable_bdf2_steps m k dt j n n' : 0 < m -> 0 <= k -> steps_to m (fun q => k * q) BDF2 dt j n n' ->
  energy m k (q_cur n') (v_cur n') + energy m k (2 * q_cur n' - q_prev n') (2 * v_cur n' - v_prev n')
  <= energy m k (q_cur n) (v_cur n) + energy m k (2 * q_cur n - q_prev n) (2 * v_cur n - v_prev n).
Proof.
  intros Hm Hk H. induction H as [n|j n n1 n2 H IH Hst]; [lra|]. apply Rle_trans with (2 := IH). exact (bdf2_decreases m k Hm Hk _ _ _ Hst).
Qed.

Lemma const_stage_exists m c s dt n : 0 < m -> scheme_ok s -> exists n', stage_to m (fun _ => c) s dt n n'.
Proof.
  intros Hm Hs. destruct (stage_exists m 0 c s dt n Hm (Rle_refl 0) Hs) as (n' & v & E & _). cbv zeta in E. rewrite Rmult_0_l, Rplus_0_l in E.
  eexists. exists v. cbv zeta. split; [exact E|reflexivity].
Qed.

(** The step model of StepModel uses the same stage table. *)
Lemma stage_factor_agrees ti stage : stage_factor ti stage = snd (step_integrator ti stage).
Proof. destruct ti; cbn; try reflexivity; destruct (Nat.even stage); reflexivity. Qed.
