(** Properties of the implicit potential and of its derivatives. *)
From Coq Require Import Reals List Lra Lia Psatz Bool.
From Coquelicot Require Import Coquelicot.
From Verif Require Import Vec3 Mat3 RList Calc Dual KernelModel KernelSpec KernelProofs ElasticSpec FieldModel FieldSpec FieldProofs FieldDerivProofs FieldAvgProofs.
Import ListNotations.
Local Open Scope R_scope.

Lemma norm_is x a : 0 <= x -> v3_dot a a = x * x -> v3_norm a = x.
Proof. intros X E. unfold v3_norm. rewrite E. apply sqrt_square, X. Qed.
Lemma fval_background P v S q i : fval P v (v3_norm (away S q i)) (v3_dot (s_nml (smp S i)) (away S q i)) = background_value P v S q i.
Proof. unfold fval, background_value, signum. destruct (p_type P); auto. destruct (Rlt_dec _ 0); ring. Qed.

Lemma snd_combine {A B} : forall (l : list A) (m : list B), length l = length m -> map snd (combine l m) = m.
Proof. induction l as [|a l IH]; destruct m as [|b m]; simpl; intros H; try discriminate; [reflexivity|]. f_equal. apply IH. lia. Qed.

(** ** C123: the potential is a weighted average *)
(** The potential lies between any bounds of the signed plane distances of the neighbours and of the background. *)
Theorem potential_weighted_average k P v S q view lo hi : valid_kernel k -> view <> [] -> clear_of k S q view ->
  (forall i, In i view -> lo <= plane_value S q i <= hi) -> (forall i, In i view -> lo <= background_value P v S q i <= hi) ->
  lo <= potential_at q S view k P v <= hi.
Proof.
  intros V N CL PS BG. destruct (closest_some q S view N) as (c & C). rewrite (potential_form _ _ _ _ _ _ _ C).
  destruct (closest_in _ _ _ _ C) as [IC _]. apply form_bounds; auto.
  - intros i Hi. apply v3_norm_pos, CL, Hi.
  - rewrite k_radius_support. apply (CL c IC).
  - intros _. rewrite fval_background. apply BG, IC.
Qed.
(** Inside the support of a neighbour an unweighted background has no influence: only the planes count. *)
Theorem potential_of_planes k P v S q view lo hi : valid_kernel k -> clear_of k S q view -> p_weighted P = false ->
  (exists i, In i view /\ match support k with None => True | Some r => v3_norm (away S q i) < r end) ->
  (forall i, In i view -> lo <= plane_value S q i <= hi) -> lo <= potential_at q S view k P v <= hi.
Proof.
  intros V CL U (j & Hj & IN) PS. assert (N : view <> []) by (destruct view; [destruct Hj|discriminate]).
  destruct (closest_some q S view N) as (c & C). rewrite (potential_form _ _ _ _ _ _ _ C).
  destruct (closest_in _ _ _ _ C) as [IC MIN]. apply form_bounds; auto.
  - intros i Hi. apply v3_norm_pos, CL, Hi.
  - rewrite k_radius_support. apply (CL c IC).
  - intros B. exfalso. apply B. unfold bgw. rewrite k_radius_support, U. destruct (support k) as [r|]; [|reflexivity].
    destruct (Rlt_dec r (v3_norm (away S q c))) as [L|_]; [|reflexivity]. pose proof (dist2_norm _ _ _ _ (MIN j Hj)). lra.
Qed.
(** Outside the support of every neighbour the potential is the background. *)
Theorem potential_outside k r P v S q view c : support k = Some r -> nearest S q view c -> (forall i, In i view -> r < v3_norm (away S q i)) ->
  potential_at q S view k P v = background_value P v S q c.
Proof.
  intros E NE OUT. rewrite (potential_form _ _ _ _ _ _ _ (nearest_closest _ _ _ _ NE)), (form_outside _ _ _ _ _ _ _ _ r).
  - apply fval_background.
  - rewrite k_radius_support. exact E.
  - apply NE.
  - exact OUT.
Qed.

(** ** C124: derivative in the query point *)
Theorem query_jacobian_is_derivative k P v S q view c u : valid_kernel k -> nearest S q view c -> regular_view k S q view ->
  smooth_background k P v S q c ->
  exists J, query_jacobian_at q S view None k P = Some J /\ directional (fun y => potential_at y S view k P v) q u (v3_dot J u).
Proof.
  intros V NE RV (SD & WK & WI).
  assert (Q0 : v3_line q u 0 = q) by (destruct q, u; apply v3_eq; unv; ring).
  assert (MS : moving_samples (fun _ => S) view (fun _ => v3_0) (fun _ => v3_0)).
  { intros i _. split; [apply moves_const|split; [apply moves_const|reflexivity]]. }
  assert (WI' : p_weighted P = true -> match k with Interpolating _ _ => False | _ => True end) by (intros H; specialize (WK H); destruct k; auto).
  assert (D := potential_derive k P v view c (v3_line q u) (fun _ => S) u (fun _ => v3_0) (fun _ => v3_0) V (moves_line q u) MS).
  cbv beta in D. rewrite Q0 in D. specialize (D NE RV SD WI').
  assert (NE' : nearest S (v3_line q u 0) view c) by (rewrite Q0; exact NE).
  assert (RV' : regular_view k S (v3_line q u 0) view) by (rewrite Q0; exact RV).
  assert (SD' : p_type P = FDistance -> v3_dot (s_nml (smp S c)) (away S (v3_line q u 0) c) <> 0) by (rewrite Q0; exact SD).
  destruct (query_jacobian_coef k P v view c (v3_line q u) (fun _ => S) V NE' RV' SD' WI) as (J & EJ & DJ).
  rewrite Q0 in EJ. exists J. split; [exact EJ|]. unfold directional. evar_last; [exact D|]. rewrite DJ.
  assert (N0 : forall n x, nrate n v3_0 x = 0).
  { intros n x. unfold nrate. rewrite dot_0_l, (dot_comm n v3_0), dot_0_l. unfold Rdiv. ring. }
  assert (U0 : v3_sub u v3_0 = u) by (destruct u; apply v3_eq; unv; ring).
  rewrite U0. rewrite (rsum_zero (fun i => _ * nrate _ v3_0 _)) by (intros i _; rewrite N0; ring). rewrite Rmult_0_r, Rplus_0_r, Q0. reflexivity.
Qed.

(** ** C125: derivative in the sample positions *)
Theorem sample_jacobian_is_derivative k P v S q view c U : valid_kernel k -> NoDup view -> (forall i, In i view -> (i < length S)%nat) ->
  nearest S q view c -> regular_view k S q view -> smooth_background k P v S q c ->
  exists b, bg_local q S view k P None = Some b /\
  is_derive (fun s => potential_at q (shift_samples S U s) view k P v) 0
    (rsum (map (fun iJ => v3_dot (snd iJ) (U (fst iJ))) (combine view (sample_jacobian_at b)))).
Proof.
  intros V ND LEN NE RV (SD & WK & WI).
  assert (S0 : shift_samples S U 0 = S).
  { unfold shift_samples. transitivity (map snd (combine (seq 0 (length S)) S)).
    - apply map_ext. intros [i x]. destruct x as [p n vl va]. cbn. f_equal. destruct p, (U i). apply v3_eq; unv; ring.
    - apply snd_combine. apply seq_length. }
  assert (SM : forall s i, In i view -> smp (shift_samples S U s) i =
    Sample (v3_line (s_pos (smp S i)) (U i) s) (s_nml (smp S i)) (s_vel (smp S i)) (s_value (smp S i))).
  { intros s i Hi. pose proof (LEN i Hi) as L. unfold smp at 1, shift_samples.
    set (f := fun ix : nat * sample => let '(i0, x) := ix in Sample (v3_line (s_pos x) (U i0) s) (s_nml x) (s_vel x) (s_value x)).
    rewrite (nth_indep _ sample0 (f (0%nat, sample0))) by (rewrite map_length, combine_length, seq_length, Nat.min_id; exact L).
    rewrite map_nth. rewrite combine_nth by apply seq_length. rewrite seq_nth by exact L. reflexivity. }
  assert (MS : moving_samples (shift_samples S U) view U (fun _ => v3_0)).
  { intros i Hi. split; [|split].
    - apply (moves_ext (v3_line (s_pos (smp S i)) (U i))); [intros s; rewrite SM by exact Hi; reflexivity|apply moves_line].
    - apply (moves_ext (fun _ => s_nml (smp S i))); [intros s; rewrite SM by exact Hi; reflexivity|apply moves_const].
    - intros s. rewrite !SM by exact Hi. reflexivity. }
  assert (WI' : p_weighted P = true -> match k with Interpolating _ _ => False | _ => True end) by (intros H; specialize (WK H); destruct k; auto).
  assert (D := potential_jacobian_derive k P v view c (fun _ => q) (shift_samples S U) v3_0 U (fun _ => v3_0) V (moves_const q) MS).
  cbv beta in D. rewrite S0 in D. specialize (D NE RV SD WI' WI ND). destruct D as (J & EJ & D).
  exists (bg_new_impl q S view (Local c) k P None). split; [unfold bg_local; rewrite (nearest_closest _ _ _ _ NE); reflexivity|].
  evar_last; [exact D|].
  assert (NE' : nearest (shift_samples S U 0) q view c) by (rewrite S0; exact NE).
  assert (RV' : regular_view k (shift_samples S U 0) q view) by (rewrite S0; exact RV).
  assert (E := sj_list k P view c (fun _ => q) (shift_samples S U) V NE' RV').
  cbv beta in E. rewrite S0 in E. rewrite E.
  assert (N0 : forall n x, nrate n v3_0 x = 0).
  { intros n x. unfold nrate. rewrite dot_0_l, (dot_comm n v3_0), dot_0_l. unfold Rdiv. ring. }
  rewrite (rsum_zero (fun i => _ * nrate _ v3_0 _)) by (intros i _; rewrite N0; ring). rewrite dot_comm, dot_0_l, Rmult_0_r, Rplus_0_r, Rplus_0_l.
  set (f := sj k P view c (fun _ => q) (shift_samples S U)). clearbody f. clear.
  induction view as [|i l IH]; [reflexivity|]. simpl. rewrite !rsum_cons, IH. reflexivity.
Qed.

(** The hint of a nearest sample changes nothing unless the neighbourhood is empty. *)
Theorem closest_hint_unused q S view i k P : view <> [] -> query_jacobian_at q S view (Some i) k P = query_jacobian_at q S view None k P.
Proof.
  intros N. destruct (closest_some q S view N) as (c & C). unfold query_jacobian_at, bg_new, bg_global, bg_local. rewrite C. reflexivity.
Qed.

(** ** C128: rigid motions and reversed normals *)
Theorem potential_rigid_invariant Q t q S view k P v : rotation Q -> (forall i, In i view -> (i < length S)%nat) ->
  potential_at (rigid Q t q) (map (move_sample Q t) S) view k P v = potential_at q S view k P v.
Proof. apply potential_rigid. Qed.
Theorem potential_reversed q S view k P v : (forall i, In i view -> (i < length S)%nat /\ s_value (smp S i) = 0) ->
  (p_type P = FDistance -> forall i, In i view -> v3_dot (s_nml (smp S i)) (away S q i) <> 0) ->
  potential_at q (reverse S) view k P (- v) = - potential_at q S view k P v.
Proof. apply potential_reverse. Qed.

(** ** Where the code fails *)
Definition one : list sample := [Sample v3_0 (V3 0 0 1) v3_0 0].
Lemma up_norm x : 0 <= x -> v3_norm (V3 0 0 x) = x.
Proof. intros H. apply norm_is; [exact H|]. unv. ring. Qed.
Lemma one_away s : away one (v3_line (V3 0 0 1) (V3 0 0 1) s) 0 = V3 0 0 (1 + s).
Proof. apply v3_eq; unfold away, one, smp; cbn; ring. Qed.
Lemma one_form k P v s : -1 < s -> potential_at (v3_line (V3 0 0 1) (V3 0 0 1) s) one [0%nat] k P v =
  form k P v [0%nat] (fun _ => 1 + s) (fun _ => 1 + s) 0 (1 + s).
Proof.
  intros H. rewrite (potential_form _ _ _ _ _ _ 0%nat) by reflexivity.
  assert (D : v3_norm (away one (v3_line (V3 0 0 1) (V3 0 0 1) s) 0) = 1 + s) by (rewrite one_away; apply up_norm; lra).
  assert (X : v3_dot (V3 0 0 1) (V3 0 0 (1 + s)) = 1 + s) by (unv; ring).
  assert (Y : v3_dot (s_nml (smp one 0)) (away one (v3_line (V3 0 0 1) (V3 0 0 1) s) 0) = 1 + s) by (rewrite one_away; exact X).
  assert (N1 : v3_norm (s_nml (smp one 0)) = 1) by (apply (up_norm 1); lra).
  rewrite Y. apply form_ext.
  - left. reflexivity.
  - intros i [<-|[]]. exact D.
  - intros i [<-|[]]. unfold plane_value. rewrite Y, N1. change (s_value (smp one 0)) with 0. field.
  - reflexivity.
Qed.
Lemma one_jacobian k P : k_radius k = Some 2 -> p_weighted P = true -> p_type P <> FDistance ->
  let w := k_f (with_closest k 1) 1 in let dw := k_df (with_closest k 1) 1 in let bw := k_f k 1 in let dbw := k_df k 1 in
  w + bw <> 0 -> exists J, query_jacobian_at (V3 0 0 1) one [0%nat] None k P = Some J /\
    vz J = 1 / (w + bw) * (dw - w * (1 / (w + bw) * (dw - dbw)) + w).
Proof.
  intros R W T w dw bw dbw N. unfold query_jacobian_at. cbn [bg_new bg_local closest_sample fold_left].
  set (b := bg_new_impl (V3 0 0 1) one [0%nat] (Local 0) k P None).
  assert (A : v3_sub (V3 0 0 1) (s_pos (smp one 0)) = V3 0 0 1) by (apply v3_eq; unfold one, smp; cbn; ring).
  assert (D : b_dist b = 1) by (unfold b, bg_new_impl; cbn [b_dist ci_get]; rewrite A; apply up_norm; lra).
  assert (DI : b_disp b = V3 0 0 1) by (unfold b, bg_new_impl; cbn [b_disp ci_get]; exact A).
  assert (KE : forall c, k_eval c (V3 0 0 1) (s_pos (smp one 0)) = k_f c 1).
  { intros c. unfold k_eval. rewrite A, up_norm by lra. reflexivity. }
  assert (KG : forall c, k_grad c (V3 0 0 1) (s_pos (smp one 0)) = V3 0 0 (k_df c 1)).
  { intros c. unfold k_grad. rewrite A, up_norm by lra. destruct (Rlt_dec 0 1) as [_|F]; [|lra]. apply v3_eq; unv; field. }
  assert (BW : background_weight b = bw).
  { unfold background_weight. rewrite D. change (b_kernel b) with k. rewrite R. change (b_weighted b) with (p_weighted P). rewrite W.
    destruct (Rlt_dec 2 1); [lra|]. unfold bw. f_equal. ring. }
  assert (SU : b_sum b = w + bw).
  { transitivity (rsum (map (fun i => k_eval (with_closest k (b_dist b)) (V3 0 0 1) (s_pos (smp one i))) [0%nat]) + background_weight b); [reflexivity|].
    rewrite BW, D. cbn [map]. rewrite rsum_cons, rsum_nil, KE. unfold w. ring. }
  assert (WS : weight_sum_inv b = 1 / (w + bw)).
  { unfold weight_sum_inv. rewrite SU. destruct (Req_EM_T (w + bw) 0); [contradiction|reflexivity]. }
  assert (BG : background_weight_gradient b None = V3 0 0 (- dbw)).
  { unfold background_weight_gradient. rewrite D, DI. change (b_kernel b) with k. rewrite R. change (b_weighted b) with (p_weighted P). rewrite W.
    destruct (Rlt_dec 2 1); [lra|]. cbn [negb]. cbv zeta. unfold dbw. replace (2 - 1) with 1 by ring. apply v3_eq; unv; field. }
  assert (FV : field_value b = 0).
  { unfold field_value, b, bg_new_impl, bg_value_new. cbn [b_value]. destruct (p_type P); try reflexivity. congruence. }
  assert (FG : field_gradient b = v3_0).
  { unfold field_gradient, b, bg_new_impl, bg_value_new. cbn [b_value]. destruct (p_type P); try reflexivity. congruence. }
  assert (NW : neighbor_weight_gradient b = V3 0 0 (1 / (w + bw) * (dw - dbw))).
  { unfold neighbor_weight_gradient. rewrite WS, BG, D. change (b_kernel b) with k. change (b_q b) with (V3 0 0 1). change (b_all b) with one. change (b_view b) with [0%nat].
    cbn [map vsum fold_right]. unfold s_weight_grad. rewrite KG. fold dw. apply v3_eq; unv; ring. }
  eexists. split; [reflexivity|].
  unfold bg_query_jacobian. rewrite FV, FG, NW, WS, D. unfold sample_query_jacobian_at, s_weight, s_weight_grad. cbv zeta. cbn [map vsum fold_right].
  rewrite KE, KG, A. fold w. fold dw. change (s_value (smp one 0)) with 0.
  assert (UN : unit_of (s_nml (smp one 0)) = V3 0 0 1).
  { unfold unit_of. change (s_nml (smp one 0)) with (V3 0 0 1). rewrite up_norm by lra. apply v3_eq; unv; field. }
  rewrite UN. change (b_weighted b) with (p_weighted P). rewrite W. rewrite !Rmult_0_l.
  match goal with |- context [v3_sub (background_weight_gradient b None) ?z] => set (junk := v3_sub (background_weight_gradient b None) z) end.
  destruct junk as [j1 j2 j3]. unv. ring.
Qed.
Lemma one_nearest : nearest one (V3 0 0 1) [0%nat] 0.
Proof. split; [left; reflexivity|]. intros j [<-|[]] H. congruence. Qed.
Lemma one_regular k : regular_distance k 1 -> regular_view k one (V3 0 0 1) [0%nat].
Proof.
  intros H i [<-|[]]. assert (A : away one (V3 0 0 1) 0 = V3 0 0 1) by (apply v3_eq; unfold away, one, smp; cbn; ring).
  rewrite A, up_norm by lra. split; [|split; [|exact H]].
  - apply norm_pos_ne. rewrite up_norm; lra.
  - change (s_nml (smp one 0)) with (V3 0 0 1). apply norm_pos_ne. rewrite up_norm; lra.
Qed.

(** With a weighted background whose value is read from the input the query Jacobian is computed as if that value were zero
    (jacobian.rs:1033 passes [None]); it is then not the derivative of the potential. *)
Theorem weighted_input_jacobian_refuted : exists k P v S q view c u J,
  valid_kernel k /\ nearest S q view c /\ regular_view k S q view /\ p_weighted P = true /\ p_type P = FInput /\
  query_jacobian_at q S view None k P = Some J /\ ~ directional (fun y => potential_at y S view k P v) q u (v3_dot J u).
Proof.
  exists (Cubic 2), (BgParams FInput true), 3, one, (V3 0 0 1), [0%nat], 0%nat, (V3 0 0 1).
  assert (C1 : forall x, x <= 2 -> cubic_f 2 x = 1 - 3 / 4 * (x * x) + 1 / 4 * (x * x * x)).
  { intros x Hx. unfold cubic_f, cubic_f_gen. cbn. destruct (Rlt_dec 2 x); [lra|]. field. }
  assert (D1 : cubic_df 2 1 = - 3 / 4) by (unfold cubic_df; destruct (Rlt_dec 2 1); [lra|field]).
  destruct (one_jacobian (Cubic 2) (BgParams FInput true) eq_refl eq_refl ltac:(discriminate)) as (J & EJ & VJ).
  { cbn [with_closest k_f]. rewrite C1 by lra. lra. }
  exists J. split; [simpl; lra|]. split; [apply one_nearest|]. split; [apply one_regular; simpl; lra|]. split; [reflexivity|]. split; [reflexivity|]. split; [exact EJ|].
  intros D. unfold directional in D.
  assert (T : is_derive (fun s => potential_at (v3_line (V3 0 0 1) (V3 0 0 1) s) one [0%nat] (Cubic 2) (BgParams FInput true) 3) 0 2).
  { apply is_derive_ext_loc with (fun s => 3 * (1 - 3 / 4 * ((1 - s) * (1 - s)) + 1 / 4 * ((1 - s) * (1 - s) * (1 - s)))
      + (1 + s) * (1 - 3 / 4 * ((1 + s) * (1 + s)) + 1 / 4 * ((1 + s) * (1 + s) * (1 + s)))).
    - exists (mkposreal (1 / 2) ltac:(lra)). intros s Hs. unfold ball in Hs; simpl in Hs; unfold AbsRing_ball, abs, minus, plus, opp in Hs; simpl in Hs.
      apply Rabs_def2 in Hs. rewrite one_form by lra. unfold form, bgw, fval. cbn [map p_weighted p_type k_radius with_closest k_f].
      rewrite !rsum_cons, !rsum_nil. destruct (Rlt_dec 2 (1 + s)); [lra|]. cbv zeta. rewrite !C1 by lra.
      match goal with |- context [Req_EM_T ?d 0] => assert (EW : d = 1) by field; rewrite EW end.
      destruct (Req_EM_T 1 0) as [Z|_]; [lra|]. match goal with |- @eq _ ?a ?b => change (@eq R a b) end. field.
    - auto_derive; [exact Logic.I|]. lra. }
  pose proof (derive_same _ _ _ _ D T) as E.
  assert (E' : v3_dot J (V3 0 0 1) = vz J) by (destruct J; unv; ring).
  rewrite E', VJ in E. cbn [with_closest k_f k_df] in E. rewrite C1, D1 in E by lra. lra.
Qed.

(** With a weighted background and the interpolating kernel the Jacobian treats the distance to the nearest sample, which scales
    the weights of the neighbours but not that of the background, as a constant; it is then not the derivative. *)
Theorem weighted_interpolating_jacobian_refuted : exists k P v S q view c u J,
  valid_kernel k /\ nearest S q view c /\ regular_view k S q view /\ p_weighted P = true /\ p_type P = FZero /\
  query_jacobian_at q S view None k P = Some J /\ ~ directional (fun y => potential_at y S view k P v) q u (v3_dot J u).
Proof.
  exists (Interpolating 2 1), (BgParams FZero true), 0, one, (V3 0 0 1), [0%nat], 0%nat, (V3 0 0 1).
  assert (C1 : forall c x, 0 < x -> x <= 2 -> interp_f 2 c x = (1 - 3 / 4 * (x * x) + 1 / 4 * (x * x * x)) * (c * c / 4) * (4 / (x * x) - 1)).
  { intros c x H0 Hx. unfold interp_f, interp_f_gen, cubic_f_gen. cbn. destruct (Rlt_dec 2 x); [lra|]. field. lra. }
  assert (D1 : interp_df 2 1 1 = - 25 / 16).
  { destruct (kernel_derivatives (Interpolating 2 1) 1) as [KD _]; [simpl; lra|simpl; lra|]. cbn [k_f k_df] in KD.
    apply (derive_same _ _ _ _ KD).
    apply is_derive_ext_loc with (fun x => (1 - 3 / 4 * (x * x) + 1 / 4 * (x * x * x)) * (1 * 1 / 4) * (4 / (x * x) - 1)).
    - exists (mkposreal (1 / 2) ltac:(lra)). intros s Hs. unfold ball in Hs; simpl in Hs; unfold AbsRing_ball, abs, minus, plus, opp in Hs; simpl in Hs.
      apply Rabs_def2 in Hs. rewrite C1 by lra. reflexivity.
    - auto_derive; [lra|]. field. }
  destruct (one_jacobian (Interpolating 2 1) (BgParams FZero true) eq_refl eq_refl ltac:(discriminate)) as (J & EJ & VJ).
  { cbn [with_closest k_f]. rewrite C1 by lra. lra. }
  exists J. split; [simpl; lra|]. split; [apply one_nearest|]. split; [apply one_regular; simpl; lra|]. split; [reflexivity|]. split; [reflexivity|]. split; [exact EJ|].
  intros D. unfold directional in D.
  assert (T : is_derive (fun s => potential_at (v3_line (V3 0 0 1) (V3 0 0 1) s) one [0%nat] (Interpolating 2 1) (BgParams FZero true) 0) 0 (- 13 / 12)).
  { set (w := fun s => (1 - 3 / 4 * ((1 + s) * (1 + s)) + 1 / 4 * ((1 + s) * (1 + s) * (1 + s))) * ((1 + s) * (1 + s) / 4) * (4 / ((1 + s) * (1 + s)) - 1)).
    set (bw := fun s => (1 - 3 / 4 * ((1 - s) * (1 - s)) + 1 / 4 * ((1 - s) * (1 - s) * (1 - s))) * (1 * 1 / 4) * (4 / ((1 - s) * (1 - s)) - 1)).
    apply is_derive_ext_loc with (fun s => w s * (1 + s) * (1 / (w s + bw s))).
    - exists (mkposreal (1 / 2) ltac:(lra)). intros s Hs. unfold ball in Hs; simpl in Hs; unfold AbsRing_ball, abs, minus, plus, opp in Hs; simpl in Hs.
      apply Rabs_def2 in Hs. rewrite one_form by lra. unfold form, bgw, fval. cbn [map p_weighted p_type k_radius with_closest k_f].
      rewrite !rsum_cons, !rsum_nil. destruct (Rlt_dec 2 (1 + s)); [lra|]. cbv zeta.
      assert (B0 : interp_f 2 1 (2 - (1 + s)) = bw s) by (rewrite C1 by lra; unfold bw; replace (2 - (1 + s)) with (1 - s) by ring; reflexivity).
      assert (W0 : interp_f 2 (1 + s) (1 + s) = w s) by (rewrite C1 by lra; reflexivity).
      assert (BP : 0 < bw s) by (rewrite <- B0; apply interp_positive; lra).
      assert (WP : 0 < w s) by (rewrite <- W0; apply interp_positive; lra).
      rewrite B0, W0. destruct (Req_EM_T (w s + 0 + bw s) 0) as [Z|_]; [lra|]. match goal with |- @eq _ ?a ?b => change (@eq R a b) end. field. lra.
    - unfold w, bw. auto_derive.
      + replace (1 + 0) with 1 by ring. replace (1 + - 0) with 1 by ring. rewrite !Rmult_1_l, Rinv_1. repeat split; lra.
      + match goal with |- @eq _ ?a ?b => change (@eq R a b) end. field. }
  pose proof (derive_same _ _ _ _ D T) as E.
  assert (E' : v3_dot J (V3 0 0 1) = vz J) by (destruct J; unv; ring).
  rewrite E', VJ in E. cbn [with_closest k_f k_df] in E. rewrite C1, D1 in E by lra. lra.
Qed.

(** Without neighbours the potential keeps its input, yet with a signed-distance background the full Jacobian is that of the
    distance to the nearest sample. *)
Theorem empty_neighbourhood_jacobian_refuted : exists k P S q c J, valid_kernel k /\ query_jacobian_at q S [] (Some c) k P = Some J /\
  J <> v3_0 /\ forall y v, potential_at y S [] k P v = v.
Proof.
  exists (Cubic 1), (BgParams FDistance false), one, (V3 0 0 3), 0%nat.
  set (b := bg_new_impl (V3 0 0 3) one [] (Global_ 0) (Cubic 1) (BgParams FDistance false) None).
  exists (v3_add v3_0 (bg_query_jacobian b)). split; [simpl; lra|]. split; [reflexivity|]. split; [|reflexivity].
  assert (A : v3_sub (V3 0 0 3) (s_pos (smp one 0)) = V3 0 0 3) by (apply v3_eq; unfold one, smp; cbn; ring).
  assert (D : b_dist b = 3) by (unfold b, bg_new_impl; cbn [b_dist ci_get]; rewrite A; apply up_norm; lra).
  assert (DI : b_disp b = V3 0 0 3) by (unfold b, bg_new_impl; cbn [b_disp ci_get]; exact A).
  assert (BW : background_weight b = 1) by (unfold background_weight; rewrite D; cbn; destruct (Rlt_dec 1 3); lra).
  assert (SU : b_sum b = 1).
  { transitivity (rsum [] + background_weight b); [reflexivity|]. rewrite BW, rsum_nil. ring. }
  assert (WS : weight_sum_inv b = 1) by (unfold weight_sum_inv; rewrite SU; destruct (Req_EM_T 1 0); [lra|field]).
  assert (OR : orientation b = 1).
  { unfold orientation. rewrite DI. change (s_nml (smp (b_all b) (ci_get (b_index b)))) with (V3 0 0 1). apply signum_pos. unv. lra. }
  assert (FG : field_gradient b = V3 0 0 1).
  { unfold field_gradient. change (b_value b) with BClosest. rewrite D, OR, DI. destruct (Req_EM_T 3 0); [lra|]. apply v3_eq; unv; field. }
  unfold bg_query_jacobian. change (b_weighted b) with false. cbv zeta. rewrite BW, WS, FG.
  intros H. apply (f_equal vz) in H. revert H. unv. lra.
Qed.

(** Samples carry values besides normals, and reversing normals leaves the values: the potential does not change sign. *)
Theorem reverse_sign_refuted : exists S q view k P, valid_kernel k /\ (forall i, In i view -> (i < length S)%nat) /\ p_type P = FZero /\
  potential_at q (reverse S) view k P 0 <> - potential_at q S view k P 0.
Proof.
  exists [Sample v3_0 (V3 0 0 1) v3_0 1], (V3 0 0 1), [0%nat], (Cubic 2), (BgParams FZero false).
  set (S := [Sample v3_0 (V3 0 0 1) v3_0 1]).
  split; [simpl; lra|]. split; [intros i [<-|[]]; simpl; lia|]. split; [reflexivity|].
  assert (A : away S (V3 0 0 1) 0 = V3 0 0 1) by (apply v3_eq; unfold away, S, smp; cbn; ring).
  assert (A' : away (reverse S) (V3 0 0 1) 0 = V3 0 0 1) by (apply v3_eq; unfold away, S, smp; cbn; ring).
  assert (CL : forall T, away T (V3 0 0 1) 0 = V3 0 0 1 -> clear_of (Cubic 2) T (V3 0 0 1) [0%nat]).
  { intros T E i [<-|[]]. rewrite E. split; [apply norm_pos_ne; rewrite up_norm; lra|simpl; rewrite up_norm; lra]. }
  assert (IN : forall T, away T (V3 0 0 1) 0 = V3 0 0 1 -> exists i, In i [0%nat] /\ match support (Cubic 2) with None => True | Some r => v3_norm (away T (V3 0 0 1) i) < r end).
  { intros T E. exists 0%nat. split; [left; reflexivity|]. rewrite E. simpl. rewrite up_norm; lra. }
  assert (P1 : 2 <= potential_at (V3 0 0 1) S [0%nat] (Cubic 2) (BgParams FZero false) 0 <= 2).
  { apply potential_of_planes; [simpl; lra|apply CL, A|reflexivity|apply IN, A|].
    intros i [<-|[]]. unfold plane_value. rewrite A. cbn [smp nth S s_nml s_value]. rewrite up_norm by lra.
    assert (E : 1 + v3_dot (V3 0 0 1) (V3 0 0 1) / 1 = 2) by (unv; field). rewrite E. lra. }
  assert (P2 : 0 <= potential_at (V3 0 0 1) (reverse S) [0%nat] (Cubic 2) (BgParams FZero false) 0 <= 0).
  { apply potential_of_planes; [simpl; lra|apply CL, A'|reflexivity|apply IN, A'|].
    intros i [<-|[]]. unfold plane_value. rewrite A'. cbn [smp nth S reverse map s_nml s_value].
    assert (N : v3_norm (v3_neg (V3 0 0 1)) = 1) by (apply norm_is; [lra|unv; ring]). rewrite N.
    assert (E : 1 + v3_dot (v3_neg (V3 0 0 1)) (V3 0 0 1) / 1 = 0) by (unv; field). rewrite E. lra. }
  lra.
Qed.

(** ** Examples: two samples at distances 1 and 3 *)
Definition two : list sample := [Sample v3_0 (V3 0 0 1) v3_0 0; Sample (V3 2 2 0) (V3 0 0 2) v3_0 (1 / 2)].
Definition top : v3 := V3 0 0 1.
Definition both : list nat := [0%nat; 1%nat].
Lemma two_away0 : away two top 0 = V3 0 0 1.
Proof. apply v3_eq; unfold away, two, top, smp; cbn; ring. Qed.
Lemma two_away1 : away two top 1 = V3 (-2) (-2) 1.
Proof. apply v3_eq; unfold away, two, top, smp; cbn; ring. Qed.
Lemma two_dist0 : v3_norm (away two top 0) = 1.
Proof. rewrite two_away0. apply up_norm. lra. Qed.
Lemma two_dist1 : v3_norm (away two top 1) = 3.
Proof. rewrite two_away1. apply norm_is; [lra|]. unv. ring. Qed.
Lemma two_clear k : regular_distance k 1 -> regular_distance k 3 -> clear_of k two top both.
Proof.
  intros A B i [<-|[<-|[]]]; [rewrite two_dist0|rewrite two_dist1]; (split; [apply norm_pos_ne; rewrite ?two_dist0, ?two_dist1; lra|]);
    destruct k; simpl in *; try exact Logic.I; lra.
Qed.
Lemma two_regular k : regular_distance k 1 -> regular_distance k 3 -> regular_view k two top both.
Proof.
  intros A B i [<-|[<-|[]]]; (split; [apply norm_pos_ne; rewrite ?two_dist0, ?two_dist1; lra|split; [|rewrite ?two_dist0, ?two_dist1; assumption]]).
  - change (s_nml (smp two 0)) with (V3 0 0 1). apply norm_pos_ne. rewrite up_norm; lra.
  - change (s_nml (smp two 1)) with (V3 0 0 2). apply norm_pos_ne. rewrite up_norm; lra.
Qed.
Lemma two_nearest : nearest two top both 0.
Proof. split; [left; reflexivity|]. intros j [<-|[<-|[]]] H; [congruence|]. rewrite two_dist0, two_dist1. lra. Qed.
Lemma two_planes i : In i both -> plane_value two top i = match i with O => 1 | _ => 3 / 2 end.
Proof.
  intros [<-|[<-|[]]]; unfold plane_value; [rewrite two_away0|rewrite two_away1].
  - change (s_nml (smp two 0)) with (V3 0 0 1). change (s_value (smp two 0)) with 0. rewrite up_norm by lra. unv. field.
  - change (s_nml (smp two 1)) with (V3 0 0 2). change (s_value (smp two 1)) with (1 / 2). rewrite up_norm by lra. unv. field.
Qed.
Lemma two_side i : In i both -> 0 < v3_dot (s_nml (smp two i)) (away two top i).
Proof.
  intros [<-|[<-|[]]]; [rewrite two_away0; change (s_nml (smp two 0)) with (V3 0 0 1)|rewrite two_away1; change (s_nml (smp two 1)) with (V3 0 0 2)]; unv; lra.
Qed.
Lemma two_background i v w : In i both -> background_value (BgParams FDistance w) v two top i = match i with O => 1 | _ => 3 end.
Proof.
  intros Hi. pose proof (two_side i Hi) as H. unfold background_value. cbn [p_type]. destruct (Rlt_dec _ 0) as [L|_]; [lra|].
  destruct Hi as [<-|[<-|[]]]; [apply two_dist0|apply two_dist1].
Qed.

Example weighted_average_example : 1 <= potential_at top two both (Cubic 4) (BgParams FDistance true) 0 <= 3.
Proof.
  apply potential_weighted_average; [simpl; lra|discriminate|apply two_clear; simpl; lra| |].
  - intros i Hi. rewrite two_planes by exact Hi. destruct i; lra.
  - intros i Hi. rewrite two_background by exact Hi. destruct i; lra.
Qed.
Example of_planes_example : 1 <= potential_at top two both (Cubic 4) (BgParams FInput false) 100 <= 3 / 2.
Proof.
  apply potential_of_planes; [simpl; lra|apply two_clear; simpl; lra|reflexivity| |].
  - exists 1%nat. split; [right; left; reflexivity|]. rewrite two_dist1. simpl. lra.
  - intros i Hi. rewrite two_planes by exact Hi. destruct i; lra.
Qed.
Example outside_example : potential_at top two both (Cubic (1 / 2)) (BgParams FDistance false) 7 = 1.
Proof.
  rewrite (potential_outside (Cubic (1 / 2)) (1 / 2) _ _ _ _ _ 0%nat eq_refl two_nearest).
  - apply (two_background 0%nat). left; reflexivity.
  - intros i [<-|[<-|[]]]; [rewrite two_dist0|rewrite two_dist1]; lra.
Qed.
Lemma two_smooth : smooth_background (Cubic 4) (BgParams FDistance true) 0 two top 0.
Proof.
  split; [intros _; apply Rgt_not_eq, two_side; left; reflexivity|]. split; [intros _; exact Logic.I|]. intros _ H. discriminate.
Qed.
Example query_jacobian_example u : exists J, query_jacobian_at top two both None (Cubic 4) (BgParams FDistance true) = Some J /\
  directional (fun y => potential_at y two both (Cubic 4) (BgParams FDistance true) 0) top u (v3_dot J u).
Proof. apply query_jacobian_is_derivative with (c := 0%nat); [simpl; lra|apply two_nearest|apply two_regular; simpl; lra|apply two_smooth]. Qed.
Example sample_jacobian_example U : exists b, bg_local top two both (Cubic 4) (BgParams FDistance true) None = Some b /\
  is_derive (fun s => potential_at top (shift_samples two U s) both (Cubic 4) (BgParams FDistance true) 0) 0
    (rsum (map (fun iJ => v3_dot (snd iJ) (U (fst iJ))) (combine both (sample_jacobian_at b)))).
Proof.
  apply sample_jacobian_is_derivative with (c := 0%nat); [simpl; lra| | |apply two_nearest|apply two_regular; simpl; lra|apply two_smooth].
  - repeat constructor; simpl; intuition discriminate.
  - intros i [<-|[<-|[]]]; simpl; lia.
Qed.
Example hint_example : query_jacobian_at top two both (Some 1%nat) (Cubic 4) (BgParams FDistance true)
  = query_jacobian_at top two both None (Cubic 4) (BgParams FDistance true).
Proof. apply closest_hint_unused. discriminate. Qed.
Example rigid_example : let Q := M3 (V3 0 (-1) 0) (V3 1 0 0) (V3 0 0 1) in let t := V3 5 6 7 in
  potential_at (V3 5 6 8) (map (move_sample Q t) two) both (Cubic 4) (BgParams FDistance true) 0
  = potential_at top two both (Cubic 4) (BgParams FDistance true) 0.
Proof.
  cbv zeta. rewrite <- (potential_rigid_invariant (M3 (V3 0 (-1) 0) (V3 1 0 0) (V3 0 0 1)) (V3 5 6 7) top two both).
  - replace (rigid (M3 (V3 0 (-1) 0) (V3 1 0 0) (V3 0 0 1)) (V3 5 6 7) top) with (V3 5 6 8); [reflexivity|].
    unfold rigid, top, m3_mulv. cbv [r0 r1 r2]. unv. f_equal; ring.
  - split.
    + unfold m3_mul, m3_transpose, m3_I, m3_mulv. cbv [r0 r1 r2]. unv. f_equal; f_equal; ring.
    + unfold m3_det, v3_cross. cbv [r0 r1 r2]. unv. ring.
  - intros i [<-|[<-|[]]]; simpl; lia.
Qed.
Example reversed_example : potential_at top (reverse one) [0%nat] (Cubic 4) (BgParams FDistance true) (-3)
  = - potential_at top one [0%nat] (Cubic 4) (BgParams FDistance true) 3.
Proof.
  replace (-3) with (- (3)) by ring. apply potential_reversed.
  - intros i [<-|[]]. split; [simpl; lia|reflexivity].
  - intros _ i [<-|[]]. unfold away, one, smp, top; cbn. unv. lra.
Qed.

Print Assumptions potential_weighted_average.
Print Assumptions potential_of_planes.
Print Assumptions potential_outside.
Print Assumptions query_jacobian_is_derivative.
Print Assumptions sample_jacobian_is_derivative.
Print Assumptions closest_hint_unused.
Print Assumptions potential_rigid_invariant.
Print Assumptions potential_reversed.
Print Assumptions weighted_input_jacobian_refuted.
Print Assumptions weighted_interpolating_jacobian_refuted.
Print Assumptions empty_neighbourhood_jacobian_refuted.
Print Assumptions reverse_sign_refuted.
