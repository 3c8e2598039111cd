(** The reference merit of an iteration belongs to the smoothing parameters in use. *)
From Coq Require Import Reals List Arith Bool Lra Lia.
From Verif Require Import LinSolveModel NewtonModel NewtonSpec NewtonProofs.
Import ListNotations.
Local Open Scope R_scope.

Lemma initial_guess_merit e M eps : (forall k ep x, o_init_merit e k ep x = M ep x) -> forall fuel k x,
  snd (fst (initial_guess fuel e eps k x)) = M eps (fst (fst (initial_guess fuel e eps k x))).
Proof.
  intros HM. induction fuel as [|fuel IH]; intros k x; cbn [initial_guess]; rewrite (HM k eps x).
  - destruct (M eps x) eqn:E; [cbn [fst snd]; symmetry; exact E|]. destruct (Nat.ltb 9 k); cbn [fst snd]; symmetry; exact E.
  - destruct (M eps x) eqn:E; [cbn [fst snd]; symmetry; exact E|]. destruct (Nat.ltb 9 k); [cbn [fst snd]; symmetry; exact E|]. apply IH.
Qed.

Lemma search_merit fuel e cfg it eps tol x_prev p mc slope r searched M : (forall i k ep x, o_merit e i k ep x = M ep x) ->
  line_search_step fuel e cfg it eps tol x_prev p mc slope = Some (r, searched) -> ls_merit r = M eps (ls_x r).
Proof.
  intros HM H. destruct (search_cases _ _ _ _ _ _ _ _ _ _ _ _ H) as [(_ & -> & _)|(_ & _ & Hb)].
  - cbn [ls_merit ls_x]. apply HM.
  - apply bt_result in Hb; [|reflexivity]. destruct Hb as (_ & _ & _ & Hm & _). rewrite Hm. apply HM.
Qed.

(** Nothing above the user's values and nothing below: nothing changes. *)
Lemma not_above orig eps : length eps = length orig -> any_above orig eps = false -> forall j, (j < length orig)%nat -> nth j eps 0 <= nth j orig 0.
Proof.
  revert eps. induction orig as [|a orig IH]; intros [|b eps] Hl Ha j Hj; simpl in *; try lia.
  unfold any_above in Ha. cbn [combine existsb fst snd] in Ha. apply orb_false_iff in Ha. destruct Ha as [H1 H2].
  destruct (Rlt_dec a b) as [|Hn]; [discriminate|]. destruct j as [|j]; [lra|]. apply IH; [lia|exact H2|lia].
Qed.

Lemma above_intro orig eps j : length eps = length orig -> (j < length orig)%nat -> nth j orig 0 < nth j eps 0 -> any_above orig eps = true.
Proof.
  revert eps j. induction orig as [|a orig IH]; intros [|b eps] j Hl Hj H; simpl in *; try lia.
  unfold any_above. cbn [combine existsb fst snd]. destruct j as [|j].
  - destruct (Rlt_dec a b); [reflexivity|contradiction].
  - apply orb_true_iff. right. exact (IH eps j ltac:(lia) ltac:(lia) H).
Qed.

Lemma solve_merit_current ls_fuel e cfg prev x eps tol M :
  (forall k ep y, o_init_merit e k ep y = M ep y) -> (forall i k ep y, o_merit e i k ep y = M ep y) -> (forall i ep y, o_merit_update e i ep y = M ep y) ->
  (adaptive cfg = true -> user_range eps) -> forall i t,
  nth_error (r_log (newton_solve ls_fuel e cfg prev x eps tol)) i = Some t ->
  M (e_eps t) (e_prev t) = Some (e_merit_cur t) /\ e_merit_next t = M (e_eps t) (e_x t).
Proof.
  intros H1 H2 H3 Hu i t Ht. destruct (solve_entry _ _ _ _ _ _ _ _ _ Ht) as [Hok Hf].
  assert (Hnext : forall k u, nth_error (r_log (newton_solve ls_fuel e cfg prev x eps tol)) k = Some u -> e_merit_next u = M (e_eps u) (e_x u)).
  { intros k u Hk. destruct (solve_entry _ _ _ _ _ _ _ _ _ Hk) as [(p0 & r & sr & _ & _ & _ & Hls & _ & _ & _ & Hx & Hm) _].
    rewrite Hm, Hx. exact (search_merit _ _ _ _ _ _ _ _ _ _ _ _ M H2 Hls). }
  split; [|exact (Hnext i t Ht)]. destruct i as [|k]; cbn [follows] in Hf.
  - destruct Hf as (Hx & He & Hm). rewrite Hx, He, Hm. unfold solve_start. cbn [s_x s_eps s_merit]. symmetry. apply initial_guess_merit. exact H1.
  - destruct Hf as (u & Hk & Hx & He & Hm). rewrite Hx, He, Hm. unfold next_merit. destruct (adaptive cfg) eqn:Ha; cbn [andb].
    + destruct (any_above eps (e_eps u)) eqn:Eab; [symmetry; apply H3|]. rewrite (Hnext k u Hk). f_equal.
      destruct (solve_schedule _ _ _ _ _ _ _ Ha (Hu eq_refl) _ _ Hk) as [Hl Hs].
      unfold next_eps. rewrite Ha. apply (nth_ext _ _ 0 0); [rewrite reduce_length; congruence|]. intros j Hj. rewrite reduce_length in Hj by exact Hl.
      unfold reduce_epsilon. rewrite nth_map_combine by assumption. cbn [fst snd].
      destruct (schedule_step e prev k (nth j eps 0) k (nth j (e_eps u) 0) (Hu eq_refl j Hj) (Hs j Hj)) as [[Hlo _] Hle].
      pose proof (not_above eps (e_eps u) Hl Eab j Hj). destruct (Hs j Hj) as [Hge _]. lra.
    + rewrite (Hnext k u Hk). unfold next_eps. rewrite Ha. reflexivity.
Qed.
