(** Property theorems C04, C05, C09, C10, C11, C64: contact penalty, forces, maximum step, line-search assistance. *)
From Coq Require Import Reals List Lra Permutation.
From Coquelicot Require Import Coquelicot.
From Verif Require Import Vec3 RList ContactModel ContactSpec ContactProofs.
Import ListNotations.
Local Open Scope R_scope.

(** C04: the penalty is a barrier: zero from [delta] on, positive and strictly decreasing below,
    with [db] and [ddb] its true first and second derivatives at every distance including [delta]. *)
Theorem contact_penalty_is_barrier : forall delta : R, 0 < delta ->
  (forall x, delta <= x -> penalty_b delta x = 0) /\
  (forall x, x < delta -> 0 < penalty_b delta x) /\
  (forall x y, x < y -> x < delta -> penalty_b delta y < penalty_b delta x) /\
  (forall x, is_derive (penalty_b delta) x (penalty_db delta x)) /\
  (forall x, is_derive (penalty_db delta) x (penalty_ddb delta x)).
Proof.
  exact (fun delta Hd => conj (fun x H => proj1 (penalty_zero delta x H)) (conj (fun x => penalty_pos delta x Hd)
    (conj (fun x y => penalty_decr delta x y Hd)
    (conj (fun x => proj1 (penalty_derive delta x Hd)) (fun x => proj2 (penalty_derive delta x Hd)))))).
Qed.
Print Assumptions contact_penalty_is_barrier.
Example contact_penalty_case : 0 < 1 / 100 /\ penalty_b 1 (- 1) = 8 /\ penalty_db 1 (- 1) = - 12.
Proof. unfold penalty_b, penalty_db. destruct (Rlt_dec 0 (1 - -1)); [|lra]. split; [lra|]. split; field. Qed.

(** C05: one multiplier per distance; never negative, zero for separated points, strictly larger for a deeper point. *)
Theorem contact_multipliers_never_pull : forall (delta kappa : R) (dist : list R), 0 < delta -> 0 < kappa ->
  length (multipliers delta kappa dist) = length dist /\
  (forall i l, nth_error (multipliers delta kappa dist) i = Some l -> 0 <= l) /\
  (forall i d l, nth_error dist i = Some d -> nth_error (multipliers delta kappa dist) i = Some l -> delta <= d -> l = 0) /\
  (forall i j d e l m, nth_error dist i = Some d -> nth_error dist j = Some e ->
     nth_error (multipliers delta kappa dist) i = Some l -> nth_error (multipliers delta kappa dist) j = Some m ->
     e < d -> e < delta -> l < m).
Proof. exact multipliers_spec. Qed.
Print Assumptions contact_multipliers_never_pull.
Example contact_multipliers_case : multipliers 1 2 [2; 0; - 1] = [0; 6; 24].
Proof.
  unfold multipliers, penalty_db; simpl.
  destruct (Rlt_dec 0 (1 - 2)); [lra|]. destruct (Rlt_dec 0 (1 - 0)); [|lra]. destruct (Rlt_dec 0 (1 - -1)); [|lra].
  repeat f_equal; field.
Qed.

(** C64: the vertex forces assembled from multipliers and Jacobian blocks are the gradient of the contact energy:
    for every motion whose distance rates are the ones given by the Jacobian blocks, the energy changes at the
    rate given by the power of the assembled force. *)
Theorem contact_force_is_energy_gradient :
  forall (delta kappa : R) (ds : list (R -> R)) (blocks : list (nat * nat * v3)) (u f : list v3),
  0 < delta ->
  (forall i d, nth_error ds i = Some d -> is_derive d 0 (distance_rate blocks u i)) ->
  subtract_force (multipliers delta kappa (map (fun d => d 0) ds)) blocks (repeat v3_0 (length u)) = Some f ->
  is_derive (fun s => contact_energy delta kappa (map (fun d => d s) ds)) 0 (power f u).
Proof. exact force_is_gradient. Qed.
Print Assumptions contact_force_is_energy_gradient.
(** Two vertices approaching along z; distance [z1 - z0], penetrating. *)
Example contact_force_case :
  let blocks := [(O, O, V3 0 0 (-1)); (O, 1%nat, V3 0 0 1)] in
  let u := [V3 0 0 1; V3 0 0 (-1)] in
  (forall i d, nth_error [fun s => 1 / 2 - 2 * s] i = Some d -> is_derive d 0 (distance_rate blocks u i)) /\
  exists f, subtract_force (multipliers 1 1 (map (fun d => d 0) [fun s => 1 / 2 - 2 * s])) blocks
    (repeat v3_0 2) = Some f /\ power f u = 3 / 2.
Proof.
  intros blocks u. split.
  - intros [|[|i]] d H; [|discriminate|discriminate]. inversion H; subst.
    unfold distance_rate; simpl. unfold rsum; simpl. unfold v3_dot; simpl. auto_derive; [exact I|ring].
  - simpl. eexists. split; [reflexivity|]. unfold power, rsum; simpl. unfold v3_dot, v3_sub, v3_scale, penalty_db; simpl.
    destruct (Rlt_dec 0 (1 - (1 / 2 - 2 * 0))); [field|exfalso; lra].
Qed.

(** C09: a violation is reported exactly when some contact point moves further than the limit in one step ... *)
Theorem max_step_violation_means_some_point_too_fast : forall (l : list R) (dt radius max_step : R),
  0 < dt -> 0 <= max_step + radius ->
  (max_step_violated (Some l) dt radius max_step = true <-> exists v, In v l /\ max_step + radius < v * dt).
Proof. exact max_step_meaning. Qed.
Print Assumptions max_step_violation_means_some_point_too_fast.
(** ... and after recomputing the limit from the same velocities no violation is reported. *)
Theorem recomputed_max_step_not_violated : forall (vn : option (list R)) (dt radius : R), 0 <= radius ->
  max_step_violated vn dt radius (compute_max_step vn dt radius) = false /\ 0 <= compute_max_step vn dt radius.
Proof. exact max_step_ok. Qed.
Print Assumptions recomputed_max_step_not_violated.
Example max_step_case :
  max_step_violated (Some [1; 3; -2]) (1/10) (1/10) 0 = true /\
  max_step_violated (Some [1; 3; -2]) (1/10) (1/10) (compute_max_step (Some [1; 3; -2]) (1/10) (1/10)) = false.
Proof.
  split; [|apply max_step_ok; lra]. apply max_step_meaning; [lra|lra|]. exists 3. split; [simpl; auto|lra].
Qed.

(** C10: the contact assistant only shortens the step, never to zero, in any order of the contacts, and the linearised
    distance of every contact that would be crossed stays at least half the tolerance. *)
Theorem contact_assist_is_safe : forall (delta alpha : R) (cs : list contact_sample), 0 <= delta -> 0 < alpha ->
  0 < assist_contact delta alpha cs <= alpha /\
  (forall cs', Permutation cs cs' -> assist_contact delta alpha cs' = assist_contact delta alpha cs) /\
  (forall c, In c cs -> delta < cs_d1 c -> cs_d2 c <= 0 -> cs_f1 c < cs_f2 c ->
     delta / 2 <= cs_d1 c + assist_contact delta alpha cs * (cs_d2 c - cs_d1 c)).
Proof.
  exact (fun delta alpha cs Hd Ha => conj (conj (assist_pos delta cs alpha Hd Ha) (assist_le delta cs alpha))
    (conj (fun cs' H => assist_perm delta cs' cs (Permutation_sym H) alpha)
      (fun c => assist_keeps_separation delta cs c alpha Hd Ha))).
Qed.
Print Assumptions contact_assist_is_safe.
Theorem contact_assist_over_all_constraints_is_safe : forall (alpha : R) (l : list (R * list contact_sample)),
  List.Forall (fun c : R * list contact_sample => 0 <= fst c) l -> 0 < alpha -> 0 < assist_contact_all alpha l <= alpha.
Proof. exact (fun alpha l => assist_all_bounds l alpha). Qed.
Print Assumptions contact_assist_over_all_constraints_is_safe.
Example contact_assist_case :
  assist_contact 1 1 [{| cs_d1 := 2; cs_d2 := - 1; cs_f1 := 1; cs_f2 := 5 |}] = 1 / 2.
Proof.
  unfold assist_contact, assist_contact_step; simpl.
  destruct (Rlt_dec 1 2); [|lra]. destruct (Rle_dec (-1) 0); [|lra]. destruct (Rlt_dec 1 5); [|lra].
  replace ((2 - 1 / 2 * 1) / (2 - -1)) with (1 / 2) by field. apply Rmin_right. lra.
Qed.

(** C11, the part that holds: the friction assistant stays within (0, alpha], and for the full step each counted
    contact contributes the scale at which its sliding velocity turns. *)
Theorem friction_assist_partial :
  (forall (alpha : R) (l : list (R * list friction_sample)), 0 < alpha -> 0 < assist_friction_all alpha l <= alpha) /\
  (forall (delta : R) (c : friction_sample) (s : R) (n : nat),
     assist_friction_step delta 1 (0, O) c = (s, S n) ->
     dot2 (fst (fs_v c) + s * fst (fs_p c), snd (fs_v c) + s * snd (fs_p c)) (fs_v c) = 0).
Proof. exact (conj assist_friction_all_bounds friction_candidate_turns). Qed.
Print Assumptions friction_assist_partial.

Definition fs_witness : friction_sample := {| fs_d2 := 0; fs_f1 := 1; fs_f2 := 2; fs_v := (1, 0); fs_p := (- 8, 0) |}.
Lemma fs_witness_value (alpha : R) : 1 / 2 <= alpha <= 1 -> assist_friction_all alpha [(1, [fs_witness])] = 1 / (8 * alpha).
Proof.
  intros Ha. unfold assist_friction_all, assist_friction, assist_friction_step; simpl. unfold dot2; simpl.
  assert (Hr : 0 < / alpha) by (apply Rinv_0_lt_compat; lra). assert (Hra : alpha * / alpha = 1) by (field; lra).
  assert (Hc : - (1 * 1 + 0 * 0) / (alpha * (-8 * 1 + 0 * 0)) = 1 / 8 * / alpha) by (field; lra).
  assert (Hge : 1 <= / alpha) by nra. assert (Hle : / alpha <= 2) by nra.
  assert (Hs : 1 / (10 * (10 * (10 * (10 * (10 * (10 * (10 * (10 * (10 * (10 * 1)))))))))) <= 1 / 100)
    by (unfold Rdiv; lra).
  destruct (Rle_dec 0 1); [|lra]. destruct (Rlt_dec 1 2); [|lra].
  destruct (Rle_dec (alpha * (-8 * 1 + 0 * 0)) (- (1 * 1 + 0 * 0))); [|lra].
  rewrite Hc. destruct (Rlt_dec (1 / 8 * / alpha) alpha); [|exfalso; lra].
  destruct (Rlt_dec _ (1 / 8 * / alpha)); [|exfalso; lra]. simpl. field. lra.
Qed.
(** C11 refuted: the scale is computed relative to the already scaled direction and returned without converting back;
    with incoming scale 1/2 the returned scale is twice the turning point, where the sliding velocity has reversed. *)
Theorem friction_assist_scale_independent_refuted :
  exists (c : friction_sample) (delta a1 a2 : R), 0 < a1 <= 1 /\ 0 < a2 <= 1 /\
    assist_friction_all a1 [(delta, [c])] < a1 /\ assist_friction_all a2 [(delta, [c])] < a2 /\
    assist_friction_all a1 [(delta, [c])] <> assist_friction_all a2 [(delta, [c])] /\
    fst (fs_v c) + assist_friction_all a2 [(delta, [c])] * fst (fs_p c) = - fst (fs_v c).
Proof.
  exists fs_witness, 1, 1, (1 / 2). rewrite !fs_witness_value by lra. simpl. repeat split; try lra.
Qed.
Print Assumptions friction_assist_scale_independent_refuted.
