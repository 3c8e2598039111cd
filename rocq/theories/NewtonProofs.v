From Coq Require Import Reals List Arith Bool Lra Lia.
From Verif Require Import RList LinSolveModel NewtonModel NewtonSpec.
Import ListNotations.
Local Open Scope R_scope.

(** * Vectors *)
Lemma vscale_length a x : length (vscale a x) = length x.
Proof. apply map_length. Qed.
Lemma nth_vscale a x i : nth i (vscale a x) 0 = nth i x 0 * a.
Proof. unfold vscale. rewrite <- (Rmult_0_l a) at 1. apply (map_nth (fun c => c * a)). Qed.
Lemma vscale_opp x : vscale (-1) x = map Ropp x.
Proof. unfold vscale. apply map_ext. intros a. ring. Qed.
Lemma vstep_length x a p : length p = length x -> length (vstep x a p) = length x.
Proof. intros H. unfold vstep. rewrite map_length, combine_length. lia. Qed.
Lemma nth_vstep a x p i : length p = length x -> nth i (vstep x a p) 0 = nth i x 0 + a * nth i p 0.
Proof.
  revert p i. induction x as [|c x IH]; intros [|d p] i H; simpl in H; try discriminate.
  - destruct i; simpl; ring.
  - destruct i as [|i].
    + simpl. ring.
    + simpl. unfold vstep in IH. rewrite IH by lia. reflexivity.
Qed.
Lemma at_step_vstep x a p : length p = length x -> at_step x p a (vstep x a p).
Proof. intros H. split; [apply vstep_length, H | intros i; apply nth_vstep, H]. Qed.

(** * Loop induction *)
Section Loop.
  Variables (ls_fuel : nat) (e : env) (cfg : config) (orig_eps : vec) (orig_tol : R) (prev : nat).
  Let iteration := newton_iteration ls_fuel e cfg orig_eps orig_tol prev.
  Let loop := fun fuel it s => newton_loop fuel ls_fuel e cfg orig_eps orig_tol prev it s.

  Lemma continue_budget it s s' : iteration it s = Continue s' -> (S it < max_iter cfg)%nat.
  Proof.
    unfold iteration, newton_iteration. destruct s as [x eps tol m log].
    destruct (negb (o_callback e it x)); [discriminate|].
    destruct m as [mc|]; [|discriminate].
    destruct (linear_solve _ _ _ _ _ _) as [| |[p0|]]; try discriminate.
    destruct (line_search_step _ _ _ _ _ _ _ _ _ _) as [[r sr]|]; [|discriminate].
    unfold after_search. destruct (andb (dumps_debug_data _ _) _); [discriminate|].
    destruct (andb (o_converged _ _ _ _ _) _); [discriminate|].
    destruct (Nat.leb_spec (max_iter cfg) (S it)); [discriminate|]. lia.
  Qed.

  Lemma loop_ind (I : nat -> state -> Prop) (Q : result -> Prop) :
    (forall it s s', I it s -> iteration it s = Continue s' -> I (S it) s') ->
    (forall it s r, I it s -> iteration it s = Stop r -> Q r) ->
    forall s, I 0%nat s -> Q (loop (Nat.max 1 (max_iter cfg)) 0%nat s).
  Proof.
    intros Hc Hs.
    assert (G : forall fuel it s, I it s -> (it + fuel = Nat.max 1 (max_iter cfg))%nat -> (1 <= fuel)%nat -> Q (loop fuel it s)).
    { induction fuel as [|fuel IH]; intros it s Hi Hf H1; [lia|].
      unfold loop. cbn [newton_loop]. change (newton_iteration ls_fuel e cfg orig_eps orig_tol prev it s) with (iteration it s).
      destruct (iteration it s) as [r|s'] eqn:E.
      - exact (Hs _ _ _ Hi E).
      - apply IH; [exact (Hc _ _ _ Hi E)|lia|]. pose proof (continue_budget _ _ _ E). lia. }
    intros s Hi. apply G; [exact Hi|lia|lia].
  Qed.

  (** What the log says about iteration [it]. *)
  Definition entry_ok (it : nat) (t : entry) : Prop :=
    exists p0 r searched,
      linear_solve e cfg it (e_eps t) (e_prev t) (e_tol t) = Solution (Some p0) /\
      e_slope t = (if Rlt_dec (step_factor (search cfg)) 1 then o_slope e it (e_eps t) (e_prev t) (vscale (-1) p0) else Some 0) /\
      e_p t = (if is_positive (e_slope t) then vscale (-1) (vscale (-1) p0) else vscale (-1) p0) /\
      line_search_step ls_fuel e cfg it (e_eps t) (e_tol t) (e_prev t) (e_p t) (e_merit_cur t) (e_slope t) = Some (r, searched) /\
      e_alpha t = ls_alpha r /\ e_ls_count t = ls_count r /\ e_accepted t = ls_accepted r /\ e_x t = ls_x r /\ e_merit_next t = ls_merit r.

  Definition next_eps (it : nat) (t : entry) : vec := if adaptive cfg then reduce_epsilon e prev it orig_eps (e_eps t) else e_eps t.
  Definition next_merit (it : nat) (t : entry) : option R :=
    if andb (adaptive cfg) (any_above orig_eps (e_eps t)) then o_merit_update e it (next_eps it t) (e_x t) else e_merit_next t.

  (** The last entry of the log determines the state. *)
  Definition follows (s0 : state) (it : nat) (x eps : vec) (m : option R) (log : list entry) : Prop :=
    match it with
    | O => x = s_x s0 /\ eps = s_eps s0 /\ m = s_merit s0
    | S k => exists t, nth_error log k = Some t /\ x = e_x t /\ eps = next_eps k t /\ m = next_merit k t
    end.
  Definition log_ok (s0 : state) (log : list entry) : Prop :=
    (forall i t, nth_error log i = Some t -> entry_ok i t /\ follows s0 i (e_prev t) (e_eps t) (Some (e_merit_cur t)) log).
  Definition inv (s0 : state) (it : nat) (s : state) : Prop :=
    length (s_log s) = it /\ log_ok s0 (s_log s) /\ follows s0 it (s_x s) (s_eps s) (s_merit s) (s_log s).

  Lemma follows_app s0 it x eps m log t : (it <= length log)%nat -> follows s0 it x eps m log -> follows s0 it x eps m (log ++ [t]).
  Proof.
    destruct it as [|k]; intros Hl; [exact (fun H => H)|]. intros [u [Hu H]]. exists u. split; [|exact H].
    rewrite nth_error_app1 by lia. exact Hu.
  Qed.

  Lemma log_ok_app s0 log t :
    log_ok s0 log -> entry_ok (length log) t -> follows s0 (length log) (e_prev t) (e_eps t) (Some (e_merit_cur t)) log -> log_ok s0 (log ++ [t]).
  Proof.
    intros H He Hf i u Hu.
    destruct (Nat.lt_ge_cases i (length log)) as [Hi|Hi].
    - rewrite nth_error_app1 in Hu by lia. destruct (H i u Hu) as [H1 H2]. split; [exact H1|]. apply follows_app; [lia|exact H2].
    - rewrite nth_error_app2 in Hu by lia. destruct (i - length log)%nat as [|d] eqn:Ed; [|destruct d; discriminate].
      injection Hu as <-. assert (i = length log) by lia. subst i. split; [exact He|]. apply follows_app; [lia|exact Hf].
  Qed.

  Definition the_entry (x p : vec) (slope : option R) (mc tol : R) (eps : vec) (r : ls_result) : entry :=
    Entry x p slope mc tol eps (ls_alpha r) (ls_count r) (ls_accepted r) (ls_x r) (ls_merit r).

  (** Everything that can come out of one iteration. *)
  Lemma iteration_inversion it s :
    let tol1 := if iterative cfg then forcing_term orig_tol (s_tol s) (o_ratio e it) else s_tol s in
    (exists st tol, In st [Interrupted; Diverged; LinearSolveError; StepTooLarge] /\ (iterative cfg = false -> tol = s_tol s) /\
      iteration it s = Stop (finish cfg orig_tol st it (s_x s) (s_eps s) tol (s_log s))) \/
    (iterative cfg = false /\ iteration it s = Stop (Result (Ended FailedJacobianCheck) it (s_x s) (s_eps s) (s_tol s) prev (s_log s))) \/
    (exists mc p slope, s_merit s = Some mc /\ line_search_step ls_fuel e cfg it (s_eps s) tol1 (s_x s) p mc slope = None /\
      iteration it s = Stop (Result NoFuel it (s_x s) (s_eps s) tol1 prev (s_log s))) \/
    (exists mc p slope r searched, s_merit s = Some mc /\ entry_ok it (the_entry (s_x s) p slope mc tol1 (s_eps s) r) /\
      line_search_step ls_fuel e cfg it (s_eps s) tol1 (s_x s) p mc slope = Some (r, searched) /\
      iteration it s = after_search e cfg orig_eps orig_tol prev it (s_x s) p slope mc tol1 (s_eps s) (s_log s) r searched).
  Proof.
    intros tol1. subst tol1. unfold iteration, newton_iteration. destruct s as [x eps tol m log]. cbn [s_x s_eps s_tol s_merit s_log].
    destruct (negb (o_callback e it x)).
    { left. exists Interrupted, tol. split; [simpl; tauto|]. split; reflexivity. }
    destruct m as [mc|].
    2:{ left. exists Diverged, tol. split; [simpl; tauto|]. split; reflexivity. }
    destruct (linear_solve e cfg it eps x _) as [| |[p0|]] eqn:El.
    - right; left. unfold linear_solve in El. destruct (iterative cfg); [discriminate|]. split; reflexivity.
    - left. exists LinearSolveError, (if iterative cfg then forcing_term orig_tol tol (o_ratio e it) else tol).
      split; [simpl; tauto|]. split; [|reflexivity]. intros ->. reflexivity.
    - set (slope := if Rlt_dec (step_factor (search cfg)) 1 then _ else _).
      set (p := if is_positive slope then _ else _).
      destruct (line_search_step _ _ _ _ _ _ _ _ _ _) as [[r sr]|] eqn:Els.
      + right; right; right. exists mc, p, slope, r, sr. split; [reflexivity|]. split; [|split; [exact Els|reflexivity]].
        exists p0, r, sr. cbn [the_entry e_eps e_prev e_tol e_slope e_p e_merit_cur e_alpha e_ls_count e_accepted e_x e_merit_next].
        split; [exact El|]. split; [reflexivity|]. split; [reflexivity|]. split; [exact Els|].
        repeat (split; [reflexivity|]). reflexivity.
      + right; right; left. exists mc, p, slope. split; [reflexivity|]. split; [exact Els|reflexivity].
    - left. exists StepTooLarge, (if iterative cfg then forcing_term orig_tol tol (o_ratio e it) else tol).
      split; [simpl; tauto|]. split; [|reflexivity]. intros ->. reflexivity.
  Qed.

  Lemma after_search_inversion it x p slope mc tol eps log r searched :
    let out := after_search e cfg orig_eps orig_tol prev it x p slope mc tol eps log r searched in
    let t := the_entry x p slope mc tol eps r in
    let log' := log ++ [t] in
    let tol2 := if andb searched (iterative cfg) then 1 - ls_alpha r * (1 - tol) else tol in
    (out = Stop (Result Panicked it (ls_x r) eps tol2 prev log) /\ dumps_debug_data searched r = true /\ o_files e it = false) \/
    (out = Stop (finish cfg orig_tol Success (S it) (ls_x r) eps tol2 log') /\ o_converged e (S it) eps x (ls_x r) = true /\ all_restored orig_eps eps = true) \/
    (out = Stop (finish cfg orig_tol MaximumIterationsExceeded (S it) (ls_x r) eps tol2 log') /\ (max_iter cfg <= S it)%nat) \/
    (out = Continue (State (ls_x r) (next_eps it t) tol2 (next_merit it t) log') /\ (S it < max_iter cfg)%nat).
  Proof.
    intros out t log' tol2. subst out. unfold after_search. fold tol2. fold t. fold log'.
    destruct (dumps_debug_data searched r) eqn:Ed; cbn [andb].
    1: destruct (o_files e it) eqn:Ef; cbn [negb]; [|left; repeat split; reflexivity].
    all: right; destruct (o_converged e (S it) eps x (ls_x r)) eqn:Eo; cbn [andb];
      [destruct (all_restored orig_eps eps) eqn:Ea; [left; repeat split; reflexivity|]|]; right;
      (destruct (Nat.leb_spec (max_iter cfg) (S it)); [left|right]; split; try reflexivity; assumption).
  Qed.

  Lemma inv_step s0 it s s' : inv s0 it s -> iteration it s = Continue s' -> inv s0 (S it) s'.
  Proof.
    intros (Hl & Hlog & Hf) E.
    destruct (iteration_inversion it s) as [(st & tol & _ & _ & H)|[(_ & H)|[(mc & p & sl & _ & _ & H)|(mc & p & sl & r & sr & Hm & He & Hls & H)]]];
      try (rewrite H in E; discriminate E).
    rewrite H in E. clear H.
    match type of E with ?o = _ => set (out := o) in E end.
    destruct (after_search_inversion it (s_x s) p sl mc (if iterative cfg then forcing_term orig_tol (s_tol s) (o_ratio e it) else s_tol s)
       (s_eps s) (s_log s) r sr) as [(H & _)|[(H & _)|[(H & _)|(H & _)]]];
      fold out in H; rewrite H in E; try discriminate E. injection E as <-.
    split; [|split]; cbn [s_log s_x s_eps s_merit].
    - rewrite app_length. simpl. lia.
    - apply log_ok_app; [exact Hlog| |].
      + rewrite Hl. exact He.
      + rewrite Hl. cbn [the_entry e_prev e_eps e_merit_cur]. rewrite <- Hm. exact Hf.
    - eexists. split; [rewrite nth_error_app2 by lia; rewrite <- Hl, Nat.sub_diag; reflexivity|]. repeat split; reflexivity.
  Qed.

  Record outcome_ok (s0 : state) (r : result) : Prop := OutcomeOk {
    ok_count : length (r_log r) = r_iterations r;
    ok_log : log_ok s0 (r_log r);
    ok_success : r_ending r = Ended Success -> exists k t, r_iterations r = S k /\ nth_error (r_log r) k = Some t /\ r_x r = e_x t /\ r_eps r = e_eps t /\
      o_converged e (S k) (e_eps t) (e_prev t) (e_x t) = true /\ all_restored orig_eps (e_eps t) = true;
    ok_budget : (r_iterations r <= Nat.max 1 (max_iter cfg))%nat;
    ok_exceeded : r_ending r = Ended MaximumIterationsExceeded -> (max_iter cfg <= r_iterations r)%nat /\ (1 <= r_iterations r)%nat;
    ok_panic : r_ending r = Panicked -> exists it x p m slope tol eps lr, line_search_step ls_fuel e cfg it eps tol x p m slope = Some (lr, true) /\
      ls_alpha lr < alpha_min /\ (80 < ls_count lr)%nat /\ o_files e it = false;
    ok_fuel : r_ending r = NoFuel -> exists it x p m slope tol eps, line_search_step ls_fuel e cfg it eps tol x p m slope = None;
    ok_tol : iterative cfg = true -> forall st, r_ending r = Ended st -> r_tol r = orig_tol
  }.

  Lemma inv_stop s0 it s r : inv s0 it s -> (it <= Nat.max 1 (max_iter cfg) - 1)%nat -> iteration it s = Stop r -> outcome_ok s0 r.
  Proof.
    intros (Hl & Hlog & Hf) Hb E.
    destruct (iteration_inversion it s) as [(st & tol & Hst & _ & H)|[(Hd & H)|[(mc & p & sl & Hm & Hn & H)|(mc & p & sl & lr & sr & Hm & He & Hls & H)]]];
      rewrite H in E; clear H.
    - injection E as <-. unfold finish. split; cbn [r_log r_iterations r_ending r_x r_eps r_tol]; try assumption; try (intros Hx; exfalso; first [discriminate Hx | injection Hx as ->; simpl in Hst; intuition congruence]).
      + lia.
      + intros -> st' _. reflexivity.
    - injection E as <-. split; cbn [r_log r_iterations r_ending r_x r_eps r_tol]; try assumption; try discriminate.
      + lia.
      + rewrite Hd. discriminate.
    - injection E as <-. split; cbn [r_log r_iterations r_ending r_x r_eps r_tol]; try assumption; try discriminate.
      + lia.
      + intros _. eexists _, _, _, _, _, _, _. exact Hn.
    - match type of E with ?o = _ => set (out := o) in E end.
      set (tol1 := if iterative cfg then forcing_term orig_tol (s_tol s) (o_ratio e it) else s_tol s) in *.
      assert (Hlog' : log_ok s0 (s_log s ++ [the_entry (s_x s) p sl mc tol1 (s_eps s) lr])).
      { apply log_ok_app; [exact Hlog| |]; rewrite Hl; [exact He|]. cbn [the_entry e_prev e_eps e_merit_cur]. rewrite <- Hm. exact Hf. }
      assert (Hlast : nth_error (s_log s ++ [the_entry (s_x s) p sl mc tol1 (s_eps s) lr]) it = Some (the_entry (s_x s) p sl mc tol1 (s_eps s) lr)).
      { rewrite nth_error_app2 by lia. rewrite Hl, Nat.sub_diag. reflexivity. }
      destruct (after_search_inversion it (s_x s) p sl mc tol1 (s_eps s) (s_log s) lr sr) as [(H & Hd & Hfl)|[(H & Hc & Ha)|[(H & Hmx)|(H & _)]]];
        fold out in H; rewrite H in E; try discriminate E; injection E as <-.
      + split; cbn [r_log r_iterations r_ending r_x r_eps r_tol]; try assumption; try discriminate.
        * lia.
        * intros _. unfold dumps_debug_data in Hd. apply andb_true_iff in Hd. destruct Hd as [-> Hd]. apply andb_true_iff in Hd. destruct Hd as [Hd1 Hd2].
          exists it, (s_x s), p, mc, sl, tol1, (s_eps s), lr. split; [exact Hls|]. split; [|split; [apply Nat.ltb_lt, Hd2|exact Hfl]].
          destruct (Rlt_dec (ls_alpha lr) alpha_min); [assumption|discriminate].
      + unfold finish. split; cbn [r_log r_iterations r_ending r_x r_eps r_tol]; try assumption; try discriminate.
        * rewrite app_length. simpl. lia.
        * intros _. exists it. eexists. split; [reflexivity|]. split; [exact Hlast|]. cbn [the_entry e_prev e_eps e_x]. repeat split; assumption.
        * lia.
        * intros -> st' _. reflexivity.
      + unfold finish. split; cbn [r_log r_iterations r_ending r_x r_eps r_tol]; try assumption; try discriminate.
        * rewrite app_length. simpl. lia.
        * lia.
        * intros _. lia.
        * intros -> st' _. reflexivity.
  Qed.

  Lemma loop_outcome s0 : s_log s0 = [] -> outcome_ok s0 (loop (Nat.max 1 (max_iter cfg)) 0%nat s0).
  Proof.
    intros H0. apply (loop_ind (fun it s => inv s0 it s /\ (it <= Nat.max 1 (max_iter cfg) - 1)%nat)).
    - intros it s s' [Hi Hb] E. split; [exact (inv_step _ _ _ _ Hi E)|]. pose proof (continue_budget _ _ _ E). lia.
    - intros it s r [Hi Hb] E. exact (inv_stop _ _ _ _ Hi Hb E).
    - split; [|lia]. split; [rewrite H0; reflexivity|]. split; [|repeat split; reflexivity].
      intros i t Ht. rewrite H0 in Ht. destruct i; discriminate.
  Qed.

  (** Simple invariants of the state. *)
  Lemma loop_direct_tol s0 : iterative cfg = false -> r_tol (loop (Nat.max 1 (max_iter cfg)) 0%nat s0) = s_tol s0.
  Proof.
    intros Hd. apply (loop_ind (fun _ s => s_tol s = s_tol s0) (fun r => r_tol r = s_tol s0)); [| |reflexivity].
    - intros it s s' Hi E.
      destruct (iteration_inversion it s) as [(st & tol & Hst & _ & H)|[(_ & H)|[(mc & p & sl & Hm & Hn & H)|(mc & p & sl & lr & sr & Hm & He & Hls & H)]]];
        rewrite H in E; clear H; try discriminate E.
      match type of E with ?o = _ => set (out := o) in E end.
      destruct (after_search_inversion it (s_x s) p sl mc (if iterative cfg then forcing_term orig_tol (s_tol s) (o_ratio e it) else s_tol s) (s_eps s) (s_log s) lr sr)
        as [(H & _)|[(H & _)|[(H & _)|(H & _)]]]; fold out in H; rewrite H in E; try discriminate E; injection E as <-.
      cbn [s_tol]. rewrite Hd, andb_false_r. exact Hi.
    - intros it s r Hi E.
      destruct (iteration_inversion it s) as [(st & tol & Hst & Ht & H)|[(_ & H)|[(mc & p & sl & Hm & Hn & H)|(mc & p & sl & lr & sr & Hm & He & Hls & H)]]];
        rewrite H in E; clear H.
      + injection E as <-. unfold finish. cbn [r_tol]. rewrite Hd. rewrite (Ht Hd). exact Hi.
      + injection E as <-. exact Hi.
      + injection E as <-. cbn [r_tol]. rewrite Hd. exact Hi.
      + match type of E with ?o = _ => set (out := o) in E end.
        destruct (after_search_inversion it (s_x s) p sl mc (if iterative cfg then forcing_term orig_tol (s_tol s) (o_ratio e it) else s_tol s) (s_eps s) (s_log s) lr sr)
          as [(H & _)|[(H & _)|[(H & _)|(H & _)]]]; fold out in H; rewrite H in E; try discriminate E; injection E as <-;
          unfold finish; cbn [r_tol]; rewrite Hd, andb_false_r; exact Hi.
  Qed.

  (** The final epsilons are those of the initial state or come from a reduction. *)
  Lemma loop_eps (P : vec -> Prop) s0 :
    P (s_eps s0) -> (forall it v, P v -> P (if adaptive cfg then reduce_epsilon e prev it orig_eps v else v)) ->
    P (r_eps (loop (Nat.max 1 (max_iter cfg)) 0%nat s0)).
  Proof.
    intros H0 Hs. apply (loop_ind (fun _ s => P (s_eps s)) (fun r => P (r_eps r))); [| |exact H0].
    - intros it s s' Hi E.
      destruct (iteration_inversion it s) as [(st & tol & Hst & _ & H)|[(_ & H)|[(mc & p & sl & Hm & Hn & H)|(mc & p & sl & lr & sr & Hm & He & Hls & H)]]];
        rewrite H in E; clear H; try discriminate E.
      match type of E with ?o = _ => set (out := o) in E end.
      destruct (after_search_inversion it (s_x s) p sl mc (if iterative cfg then forcing_term orig_tol (s_tol s) (o_ratio e it) else s_tol s) (s_eps s) (s_log s) lr sr)
        as [(H & _)|[(H & _)|[(H & _)|(H & _)]]]; fold out in H; rewrite H in E; try discriminate E; injection E as <-.
      cbn [s_eps]. unfold next_eps. cbn [the_entry e_eps]. apply Hs, Hi.
    - intros it s r Hi E.
      destruct (iteration_inversion it s) as [(st & tol & Hst & Ht & H)|[(_ & H)|[(mc & p & sl & Hm & Hn & H)|(mc & p & sl & lr & sr & Hm & He & Hls & H)]]];
        rewrite H in E; clear H; try (injection E as <-; exact Hi).
      match type of E with ?o = _ => set (out := o) in E end.
      destruct (after_search_inversion it (s_x s) p sl mc (if iterative cfg then forcing_term orig_tol (s_tol s) (o_ratio e it) else s_tol s) (s_eps s) (s_log s) lr sr)
        as [(H & _)|[(H & _)|[(H & _)|(H & _)]]]; fold out in H; rewrite H in E; try discriminate E; injection E as <-; exact Hi.
  Qed.
End Loop.

(** * Line search *)
Section Search.
  Variables (e : env) (cfg : config) (it : nat) (eps : vec) (tol : R) (x_prev p : vec) (mc : R) (slope : option R).
  Let rho := step_factor (search cfg).
  Let bt := fun fuel count alpha x => backtrack fuel e cfg it eps tol x_prev p mc slope count alpha x.
  Let test := fun j alpha x m => test_alpha cfg tol (o_residual_sq e it j eps x) (o_residual_sq e it 0 eps x_prev) m mc slope alpha.

  Lemma bt_step fuel count alpha x : bt (S fuel) count alpha x =
    if test count alpha x (o_merit e it count eps x) then Some (LsResult true alpha count x (o_merit e it count eps x))
    else if andb (if Rlt_dec (alpha * rho) alpha_min then true else false) (Nat.ltb 2 count) then Some (LsResult false (alpha * rho) count x (o_merit e it count eps x))
    else bt fuel (S count) (alpha * rho) (vstep x_prev (alpha * rho) p).
  Proof. reflexivity. Qed.

  Lemma bt_some fuel count alpha x : 0 <= rho -> alpha * rho ^ fuel < alpha_min -> (1 <= fuel)%nat -> (4 <= fuel + count)%nat -> bt fuel count alpha x <> None.
  Proof.
    intros Hr. revert count alpha x. induction fuel as [|fuel IH]; intros count alpha x Ha H1 H4; [lia|].
    rewrite bt_step. destruct (test _ _ _ _); [discriminate|].
    destruct (Rlt_dec (alpha * rho) alpha_min) as [Hl|Hl]; cbn [andb].
    - destruct (Nat.ltb_spec 2 count) as [Hc|Hc]; [discriminate|]. apply IH; [|lia|lia].
      replace (alpha * rho * rho ^ fuel) with (alpha * rho ^ S fuel) by (simpl; ring). exact Ha.
    - destruct fuel as [|fuel]; [simpl in Ha; exfalso; rewrite Rmult_1_r in Ha; lra|].
      apply IH; [|lia|lia]. replace (alpha * rho * rho ^ S fuel) with (alpha * rho ^ S (S fuel)) by (simpl; ring). exact Ha.
  Qed.

  Lemma bt_result fuel count alpha x r : x = vstep x_prev alpha p -> bt fuel count alpha x = Some r ->
    (exists n, ls_alpha r = alpha * rho ^ n) /\
    (ls_accepted r = true -> ls_x r = vstep x_prev (ls_alpha r) p /\ test (ls_count r) (ls_alpha r) (ls_x r) (ls_merit r) = true) /\
    (ls_accepted r = false -> ls_alpha r < alpha_min /\ (2 < ls_count r)%nat /\ exists a, ls_alpha r = a * rho /\ ls_x r = vstep x_prev a p /\
        test (ls_count r) a (ls_x r) (ls_merit r) = false) /\
    ls_merit r = o_merit e it (ls_count r) eps (ls_x r) /\
    (count <= ls_count r)%nat /\
    (ls_count r = count \/ (ls_count r <= 3)%nat \/ alpha_min <= alpha * rho ^ (ls_count r - count)) /\
    (ls_accepted r = false -> alpha * rho ^ (S (ls_count r) - count) < alpha_min).
  Proof.
    revert count alpha x. induction fuel as [|fuel IH]; intros count alpha x Hx; [discriminate|].
    rewrite bt_step. destruct (test count alpha x _) eqn:Et.
    { intros H; injection H as <-. cbn [ls_alpha ls_accepted ls_x ls_count ls_merit].
      split; [exists 0%nat; simpl; ring|]. split; [intros _; split; [exact Hx|exact Et]|]. split; [discriminate|]. split; [reflexivity|]. split; [lia|].
      split; [left; reflexivity|discriminate]. }
    destruct (andb _ _) eqn:Eb.
    { intros H; injection H as <-. cbn [ls_alpha ls_accepted ls_x ls_count ls_merit].
      apply andb_true_iff in Eb. destruct Eb as [E1 E2]. apply Nat.ltb_lt in E2.
      destruct (Rlt_dec (alpha * rho) alpha_min) as [Hl|]; [|discriminate].
      split; [exists 1%nat; simpl; ring|]. split; [discriminate|]. split; [intros _; split; [exact Hl|]; split; [exact E2|]; exists alpha; split; [reflexivity|]; split; [exact Hx|exact Et]|].
      split; [reflexivity|]. split; [lia|]. split; [left; reflexivity|].
      intros _. replace (S count - count)%nat with 1%nat by lia. simpl. rewrite Rmult_1_r. exact Hl. }
    intros H. apply (IH (S count) (alpha * rho) _ eq_refl) in H.
    destruct H as ((n & Hn) & Ha & Hf & Hm & Hc & Hb & Hl).
    split; [exists (S n); rewrite Hn; simpl; ring|]. split; [exact Ha|]. split; [exact Hf|]. split; [exact Hm|]. split; [lia|].
    assert (Epow : forall k, (S count <= k)%nat -> alpha * rho ^ (k - count) = alpha * rho * rho ^ (k - S count)).
    { intros k Hk. replace (k - count)%nat with (S (k - S count)) by lia. simpl. ring. }
    split.
    - destruct Hb as [Hb|[Hb|Hb]].
      + rewrite Hb. replace (S count - count)%nat with 1%nat by lia. simpl. rewrite Rmult_1_r.
        apply andb_false_iff in Eb. destruct Eb as [Eb|Eb].
        * right; right. destruct (Rlt_dec (alpha * rho) alpha_min); [discriminate|lra].
        * right; left. apply Nat.ltb_ge in Eb. lia.
      + right; left; exact Hb.
      + right; right. rewrite Epow by lia. exact Hb.
    - intros Hac. rewrite Epow by lia. exact (Hl Hac).
  Qed.

  Let start := assisted_alpha e cfg it x_prev p (vstep x_prev 1 p).

  Lemma start_le_one : rho < 1 -> start <= 1.
  Proof.
    intros Hr. unfold start, assisted_alpha. destruct (is_assisted _); [|lra].
    destruct (Rlt_dec _ 1); [lra|]. fold rho. lra.
  Qed.
  Lemma start_nonneg : 0 <= rho -> (forall x, 0 <= o_contact_alpha e it x) -> (forall a x q, 0 <= a -> 0 <= o_friction_alpha e it a x q) -> 0 <= start.
  Proof.
    intros Hr Hc Hf. unfold start, assisted_alpha. destruct (is_assisted _); [|lra].
    destruct (Rlt_dec _ 1); [|fold rho; lra].
    destruct (is_contact_assisted _); [apply Hc|apply Hf, Hc].
  Qed.

  (** A line search either skips the backtracking loop or goes through it. *)
  Lemma search_cases fuel r searched :
    line_search_step fuel e cfg it eps tol x_prev p mc slope = Some (r, searched) ->
    (searched = false /\ r = LsResult true 1 1 (vstep x_prev 1 p) (o_merit e it 0 eps (vstep x_prev 1 p)) /\
      (rho < 1 -> test 1 1 (ls_x r) (ls_merit r) = true)) \/
    (searched = true /\ rho < 1 /\ bt fuel 1 start (vstep x_prev start p) = Some r).
  Proof.
    unfold line_search_step. cbv zeta. fold rho.
    destruct (Rlt_dec rho 1) as [Hr|Hr].
    - destruct (test_alpha _ _ _ _ _ _ _ _) eqn:Et.
      + intros H. injection H as <- <-. left. split; [reflexivity|]. split; [reflexivity|]. intros _. exact Et.
      + fold start. replace (if is_assisted (search cfg) then vstep x_prev start p else vstep x_prev 1 p) with (vstep x_prev start p).
        2:{ destruct (is_assisted (search cfg)) eqn:Ea; [reflexivity|]. unfold start, assisted_alpha. rewrite Ea. reflexivity. }
        fold (bt fuel 1 start (vstep x_prev start p)).
        destruct (bt fuel 1 start (vstep x_prev start p)) as [lr|] eqn:Eb; [|discriminate].
        intros H. injection H as <- <-. right. split; [reflexivity|]. split; [exact Hr|reflexivity].
    - intros H. injection H as <- <-. left. split; [reflexivity|]. split; [reflexivity|]. intros; lra.
  Qed.

  Lemma search_none fuel : line_search_step fuel e cfg it eps tol x_prev p mc slope = None -> rho < 1 /\ bt fuel 1 start (vstep x_prev start p) = None.
  Proof.
    unfold line_search_step. cbv zeta. fold rho.
    destruct (Rlt_dec rho 1) as [Hr|Hr]; [|discriminate].
    destruct (test_alpha _ _ _ _ _ _ _ _); [discriminate|].
    fold start. replace (if is_assisted (search cfg) then vstep x_prev start p else vstep x_prev 1 p) with (vstep x_prev start p).
    2:{ destruct (is_assisted (search cfg)) eqn:Ea; [reflexivity|]. unfold start, assisted_alpha. rewrite Ea. reflexivity. }
    fold (bt fuel 1 start (vstep x_prev start p)).
    destruct (bt fuel 1 start (vstep x_prev start p)); [discriminate|]. intros _. split; [exact Hr|reflexivity].
  Qed.

  Lemma search_accepted fuel r searched : rho < 1 ->
    line_search_step fuel e cfg it eps tol x_prev p mc slope = Some (r, searched) -> ls_accepted r = true ->
    ls_x r = vstep x_prev (ls_alpha r) p /\ test (ls_count r) (ls_alpha r) (ls_x r) (ls_merit r) = true.
  Proof.
    intros Hr H Ha. destruct (search_cases _ _ _ H) as [(_ & -> & Ht)|(_ & _ & Hb)].
    - split; [reflexivity|exact (Ht Hr)].
    - apply bt_result in Hb; [|reflexivity]. destruct Hb as (_ & Hb & _). exact (Hb Ha).
  Qed.

  Lemma search_rejected fuel r searched :
    line_search_step fuel e cfg it eps tol x_prev p mc slope = Some (r, searched) -> ls_accepted r = false ->
    ls_alpha r < alpha_min /\ (2 < ls_count r)%nat /\ exists a, ls_alpha r = a * rho /\ ls_x r = vstep x_prev a p /\
        test (ls_count r) a (ls_x r) (ls_merit r) = false.
  Proof.
    intros H Ha. destruct (search_cases _ _ _ H) as [(_ & -> & Ht)|(_ & _ & Hb)]; [discriminate|].
    apply bt_result in Hb; [|reflexivity]. destruct Hb as (_ & _ & Hb & _). exact (Hb Ha).
  Qed.

  Lemma search_alpha_range fuel r searched : 0 <= rho ->
    (forall x, 0 <= o_contact_alpha e it x) -> (forall a x q, 0 <= a -> 0 <= o_friction_alpha e it a x q) ->
    line_search_step fuel e cfg it eps tol x_prev p mc slope = Some (r, searched) -> 0 <= ls_alpha r <= 1.
  Proof.
    intros H0 Hc Hf H. destruct (search_cases _ _ _ H) as [(_ & -> & Ht)|(_ & Hr & Hb)]; [cbn; lra|].
    apply bt_result in Hb; [|reflexivity]. destruct Hb as ((n & ->) & _).
    pose proof (start_le_one Hr). pose proof (start_nonneg H0 Hc Hf).
    pose proof (pow_le rho n H0). pose proof (pow_incr rho 1 n (conj H0 (Rlt_le _ _ Hr))) as Hp. rewrite pow1 in Hp. split; [apply Rmult_le_pos; assumption|].
    replace 1 with (1 * 1) by ring. apply Rmult_le_compat; lra.
  Qed.

  (** More than 80 evaluations need a backtracking factor with [rho^80 >= 1e-20]. *)
  Lemma search_long fuel r : 0 <= rho ->
    line_search_step fuel e cfg it eps tol x_prev p mc slope = Some (r, true) -> (80 < ls_count r)%nat -> alpha_min <= rho ^ 80.
  Proof.
    intros H0 H Hc. destruct (search_cases _ _ _ H) as [(Hf & _)|(_ & Hr & Hb)]; [discriminate|].
    apply bt_result in Hb; [|reflexivity]. destruct Hb as (_ & _ & _ & _ & _ & Hb & _).
    destruct Hb as [Hb|[Hb|Hb]]; [lia|lia|].
    pose proof (start_le_one Hr) as Hs. assert (Hq : 0 <= rho ^ (ls_count r - 1)) by (apply pow_le, H0).
    assert (Hq2 : rho ^ (ls_count r - 1) <= rho ^ 80).
    { replace (ls_count r - 1)%nat with (80 + (ls_count r - 81))%nat by lia. rewrite pow_add.
      pose proof (pow_incr rho 1 (ls_count r - 81) (conj H0 (Rlt_le _ _ Hr))) as Hp. rewrite pow1 in Hp.
      pose proof (pow_le rho 80 H0). pose proof (pow_le rho (ls_count r - 81) H0).
      apply Rle_trans with (rho ^ 80 * 1); [apply Rmult_le_compat_l; assumption|lra]. }
    apply Rle_trans with (1 := Hb). apply Rle_trans with (2 := Hq2).
    apply Rle_trans with (1 * rho ^ (ls_count r - 1)); [apply Rmult_le_compat_r; assumption|lra].
  Qed.

  (** A line search that never accepts ends by failing; if [rho^80 >= 1e-20] after more than 80 evaluations. *)
  Lemma search_never fuel : 0 < rho < 1 -> is_assisted (search cfg) = false -> rho ^ fuel < alpha_min -> (3 <= fuel)%nat ->
    (forall j a, 0 < a <= 1 -> test j a (vstep x_prev a p) (o_merit e it j eps (vstep x_prev a p)) = false) -> test 1 1 (vstep x_prev 1 p) (o_merit e it 0 eps (vstep x_prev 1 p)) = false ->
    exists r, line_search_step fuel e cfg it eps tol x_prev p mc slope = Some (r, true) /\ ls_accepted r = false /\ 0 < ls_alpha r < alpha_min /\
      (alpha_min <= rho ^ 80 -> (80 < ls_count r)%nat).
  Proof.
    intros [H0 H1] Has Hf H3 Ht Ht0.
    destruct (line_search_step fuel e cfg it eps tol x_prev p mc slope) as [[r sr]|] eqn:E.
    - destruct (search_cases _ _ _ E) as [(_ & -> & Hx)|(-> & _ & Hb)].
      { exfalso. specialize (Hx H1). cbn [ls_x ls_merit] in Hx. congruence. }
      exists r. split; [reflexivity|].
      apply bt_result in Hb; [|reflexivity]. destruct Hb as ((n & Hn) & Hacc & Hrej & Hm & Hc & _ & Hl).
      assert (Es : start = 1) by (unfold start, assisted_alpha; rewrite Has; reflexivity).
      assert (Hal : 0 < ls_alpha r <= 1).
      { rewrite Hn, Es, Rmult_1_l. split; [apply pow_lt, H0|]. rewrite <- (pow1 n). apply pow_incr. lra. }
      destruct (ls_accepted r) eqn:Ea.
      { destruct (Hacc eq_refl) as [Hxe Hx]. rewrite Hm, Hxe in Hx. rewrite Ht in Hx by exact Hal. discriminate. }
      split; [reflexivity|]. destruct (Hrej eq_refl) as [Hmin _]. split; [lra|].
      intros H80. specialize (Hl eq_refl). rewrite Es, Rmult_1_l in Hl.
      destruct (Nat.lt_ge_cases 80 (ls_count r)) as [|Hle]; [assumption|exfalso].
      replace (S (ls_count r) - 1)%nat with (ls_count r) in Hl by lia.
      assert (rho ^ 80 <= rho ^ (ls_count r)); [|lra].
      replace 80%nat with (ls_count r + (80 - ls_count r))%nat by lia. rewrite pow_add.
      pose proof (pow_incr rho 1 (80 - ls_count r) (conj (Rlt_le _ _ H0) (Rlt_le _ _ H1))) as Hp. rewrite pow1 in Hp.
      pose proof (pow_le rho (ls_count r) (Rlt_le _ _ H0)).
      apply Rle_trans with (rho ^ ls_count r * 1); [apply Rmult_le_compat_l; assumption|lra].
    - exfalso. destruct (search_none _ E) as [_ Hn]. revert Hn. apply bt_some; [lra| |lia|lia].
      assert (Es : start = 1) by (unfold start, assisted_alpha; rewrite Has; reflexivity). rewrite Es. lra.
  Qed.
End Search.

(** * Whole solves *)
Definition solve_start (e : env) (cfg : config) (prev : nat) (x eps : vec) (tol : R) : state :=
  let eps1 := if adaptive cfg then map (initial_epsilon prev) eps else eps in
  State (fst (fst (initial_guess 10 e eps1 0 x))) eps1 tol (snd (fst (initial_guess 10 e eps1 0 x))) [].

Lemma solve_cases ls_fuel e cfg prev x eps tol :
  let r := newton_solve ls_fuel e cfg prev x eps tol in
  let s0 := solve_start e cfg prev x eps tol in
  ((r_ending r = Ended NothingToSolve \/ r_ending r = Ended FailedToInitializeJacobian) /\ r_iterations r = 0%nat /\ r_log r = [] /\ r_tol r = tol /\
     (r_eps r = eps \/ r_eps r = s_eps s0) /\ r_prev_count r = prev) \/
  r = newton_loop (Nat.max 1 (max_iter cfg)) ls_fuel e cfg eps tol prev 0 s0.
Proof.
  cbv zeta. unfold newton_solve. destruct x as [|x0 x].
  { left. cbn [r_ending r_iterations r_log r_tol r_eps r_prev_count]. split; [left; reflexivity|]. repeat (split; [reflexivity|]). split; [left; reflexivity|reflexivity]. }
  unfold solve_start. set (eps1 := if adaptive cfg then map (initial_epsilon prev) eps else eps).
  destruct (o_pattern_ok e); cbn [negb].
  - destruct (initial_guess 10 e eps1 0 (x0 :: x)) as [[x1 m] n]. cbn [fst snd]. destruct (o_pattern_empty e).
    + left. cbn [r_ending r_iterations r_log r_tol r_eps s_eps r_prev_count]. split; [left; reflexivity|]. repeat (split; [reflexivity|]). split; [right; reflexivity|reflexivity].
    + right. reflexivity.
  - left. cbn [r_ending r_iterations r_log r_tol r_eps s_eps r_prev_count]. split; [right; reflexivity|]. repeat (split; [reflexivity|]). split; [right; reflexivity|reflexivity].
Qed.

Lemma all_restored_eq orig eps : length eps = length orig -> all_restored orig eps = true -> eps = orig.
Proof.
  revert eps. induction orig as [|o orig IH]; intros [|v eps] Hl H; try discriminate Hl; [reflexivity|].
  unfold all_restored in H. cbn [combine forallb fst snd] in H. apply andb_true_iff in H. destruct H as [H1 H2].
  destruct (Req_EM_T v o) as [->|]; [|discriminate]. f_equal. apply IH; [simpl in Hl; lia|exact H2].
Qed.
Lemma reduce_length e prev it orig eps : length eps = length orig -> length (reduce_epsilon e prev it orig eps) = length orig.
Proof. intros H. unfold reduce_epsilon. rewrite map_length, combine_length. lia. Qed.

Lemma start_eps_length e cfg prev x eps tol : length (s_eps (solve_start e cfg prev x eps tol)) = length eps.
Proof. unfold solve_start. cbn [s_eps]. destruct (adaptive cfg); [apply map_length|reflexivity]. Qed.

Lemma solve_success ls_fuel e cfg prev x eps tol :
  let r := newton_solve ls_fuel e cfg prev x eps tol in
  r_ending r = Ended Success ->
  r_eps r = eps /\ (1 <= r_iterations r)%nat /\ exists t, nth_error (r_log r) (r_iterations r - 1) = Some t /\ e_x t = r_x r /\ e_eps t = eps /\
    o_converged e (r_iterations r) eps (e_prev t) (r_x r) = true.
Proof.
  cbv zeta. intros Hs. destruct (solve_cases ls_fuel e cfg prev x eps tol) as [([H|H] & _)|H]; try (rewrite H in Hs; discriminate Hs).
  rewrite H in *. set (s0 := solve_start e cfg prev x eps tol) in *.
  pose proof (loop_outcome ls_fuel e cfg eps tol prev s0 eq_refl) as Ho.
  assert (Hlen : length (r_eps (newton_loop (Nat.max 1 (max_iter cfg)) ls_fuel e cfg eps tol prev 0 s0)) = length eps).
  { apply (loop_eps ls_fuel e cfg eps tol prev (fun v => length v = length eps)); [apply start_eps_length|].
    intros it v Hv. destruct (adaptive cfg); [apply reduce_length, Hv|exact Hv]. }
  destruct Ho as [_ _ Hok _ _ _ _ _]. destruct (Hok Hs) as (k & t & Hk & Ht & Hx & He & Hc & Ha).
  rewrite He in Hlen. pose proof (all_restored_eq _ _ Hlen Ha) as Hee.
  split; [congruence|]. rewrite Hk. split; [lia|]. exists t. replace (S k - 1)%nat with k by lia.
  split; [exact Ht|]. split; [congruence|]. split; [exact Hee|]. rewrite Hx, <- Hee. exact Hc.
Qed.

Lemma solve_budget ls_fuel e cfg prev x eps tol :
  let r := newton_solve ls_fuel e cfg prev x eps tol in
  (r_iterations r <= Nat.max 1 (max_iter cfg))%nat /\ length (r_log r) = r_iterations r /\
  (r_ending r = Ended MaximumIterationsExceeded -> (max_iter cfg <= r_iterations r)%nat /\ (1 <= r_iterations r)%nat).
Proof.
  cbv zeta. destruct (solve_cases ls_fuel e cfg prev x eps tol) as [(Hend & Hi & Hl & _)|H].
  - rewrite Hi, Hl. split; [lia|]. split; [reflexivity|]. intros E. destruct Hend as [Hend|Hend]; rewrite Hend in E; discriminate E.
  - rewrite H. destruct (loop_outcome ls_fuel e cfg eps tol prev (solve_start e cfg prev x eps tol) eq_refl) as [H1 _ _ H2 H3 _ _ _].
    split; [exact H2|]. split; [exact H1|exact H3].
Qed.

Lemma pow_small (rho d : R) : 0 <= rho < 1 -> 0 < d -> exists N, forall n, (N <= n)%nat -> rho ^ n < d.
Proof.
  intros Hr Hd. destruct (pow_lt_1_zero rho) with (y := d) as [N HN]; [rewrite Rabs_pos_eq; lra|exact Hd|].
  exists N. intros n Hn. specialize (HN n Hn). rewrite Rabs_pos_eq in HN; [exact HN|apply pow_le; lra].
Qed.
Lemma alpha_min_pos : 0 < alpha_min.
Proof. unfold alpha_min. apply Rinv_0_lt_compat, pow_lt. lra. Qed.

Lemma solve_fuel (rho : R) : 0 <= rho -> exists N, forall ls_fuel e cfg prev x eps tol, step_factor (search cfg) = rho -> (N <= ls_fuel)%nat ->
  r_ending (newton_solve ls_fuel e cfg prev x eps tol) <> NoFuel.
Proof.
  intros H0. destruct (Rlt_dec rho 1) as [H1|H1].
  - destruct (pow_small rho alpha_min (conj H0 H1) alpha_min_pos) as [N HN]. exists (3 + N)%nat.
    intros ls_fuel e cfg prev x eps tol Hr Hf E.
    destruct (solve_cases ls_fuel e cfg prev x eps tol) as [([H|H] & _)|H]; try (rewrite H in E; discriminate E).
    rewrite H in E. destruct (loop_outcome ls_fuel e cfg eps tol prev (solve_start e cfg prev x eps tol) eq_refl) as [_ _ _ _ _ _ Hn _].
    destruct (Hn E) as (it & x' & p & m & sl & tl & ep & Hs). destruct (search_none _ _ _ _ _ _ _ _ _ _ Hs) as [Hr1 Hb].
    revert Hb. apply bt_some; [rewrite Hr; exact H0| |lia|lia]. rewrite Hr.
    pose proof (start_le_one e cfg it x' p Hr1) as Hst.
    pose proof (HN ls_fuel ltac:(lia)). pose proof (pow_le rho ls_fuel H0).
    apply Rle_lt_trans with (1 * rho ^ ls_fuel); [apply Rmult_le_compat_r; [assumption|exact Hst]|lra].
  - exists 0%nat. intros ls_fuel e cfg prev x eps tol Hr Hf E.
    destruct (solve_cases ls_fuel e cfg prev x eps tol) as [([H|H] & _)|H]; try (rewrite H in E; discriminate E).
    rewrite H in E. destruct (loop_outcome ls_fuel e cfg eps tol prev (solve_start e cfg prev x eps tol) eq_refl) as [_ _ _ _ _ _ Hn _].
    destruct (Hn E) as (it & x' & p & m & sl & tl & ep & Hs). destruct (search_none _ _ _ _ _ _ _ _ _ _ Hs) as [Hr1 Hb]. lra.
Qed.

Lemma solve_tolerance ls_fuel e cfg prev x eps tol st :
  r_ending (newton_solve ls_fuel e cfg prev x eps tol) = Ended st -> r_tol (newton_solve ls_fuel e cfg prev x eps tol) = tol.
Proof.
  intros E. destruct (solve_cases ls_fuel e cfg prev x eps tol) as [(_ & _ & _ & H & _)|H]; [exact H|].
  rewrite H in *. destruct (iterative cfg) eqn:Ei.
  - destruct (loop_outcome ls_fuel e cfg eps tol prev (solve_start e cfg prev x eps tol) eq_refl) as [_ _ _ _ _ _ _ Ht]. exact (Ht Ei _ E).
  - exact (loop_direct_tol ls_fuel e cfg eps tol prev (solve_start e cfg prev x eps tol) Ei).
Qed.

Lemma solve_eps_fixed ls_fuel e cfg prev x eps tol : adaptive cfg = false -> r_eps (newton_solve ls_fuel e cfg prev x eps tol) = eps.
Proof.
  intros Ha. destruct (solve_cases ls_fuel e cfg prev x eps tol) as [(_ & _ & _ & _ & H & _)|H].
  - unfold solve_start in H. cbn [s_eps] in H. rewrite Ha in H. destruct H; assumption.
  - rewrite H. apply (loop_eps ls_fuel e cfg eps tol prev (fun v => v = eps)).
    + unfold solve_start. cbn [s_eps]. rewrite Ha. reflexivity.
    + intros it v ->. rewrite Ha. reflexivity.
Qed.

Lemma solve_no_panic ls_fuel e cfg prev x eps tol : 0 <= step_factor (search cfg) ->
  (forall it, o_files e it = true) \/ step_factor (search cfg) ^ 80 < alpha_min ->
  r_ending (newton_solve ls_fuel e cfg prev x eps tol) <> Panicked.
Proof.
  intros H0 Hc E. destruct (solve_cases ls_fuel e cfg prev x eps tol) as [([H|H] & _)|H]; try (rewrite H in E; discriminate E).
  rewrite H in E. destruct (loop_outcome ls_fuel e cfg eps tol prev (solve_start e cfg prev x eps tol) eq_refl) as [_ _ _ _ _ Hp _ _].
  destruct (Hp E) as (it & x' & p & m & sl & tl & ep & lr & Hs & Hal & Hcnt & Hf).
  destruct Hc as [Hc|Hc]; [rewrite Hc in Hf; discriminate|].
  pose proof (search_long _ _ _ _ _ _ _ _ _ _ _ H0 Hs Hcnt). lra.
Qed.

(** * Initial guess *)
Lemma initial_guess_step fuel e eps k x : initial_guess (S fuel) e eps k x =
  match o_init_merit e k eps x with
  | Some m => (x, Some m, S k)
  | None => if Nat.ltb 9 k then (x, None, S k) else initial_guess fuel e eps (S k) (if Nat.ltb 8 k then map (fun _ => 0) x else vscale (1/2) x)
  end.
Proof. simpl. destruct (o_init_merit e k eps x); reflexivity. Qed.

Lemma nth_zeros (x : vec) i : nth i (map (fun _ => 0) x) 0 = 0.
Proof. revert i. induction x as [|a x IH]; intros [|i]; simpl; try reflexivity. apply IH. Qed.

(** From evaluation [k], with [k] halvings done, up to the zero guess at evaluation 10. *)
Lemma initial_guess_from e eps : forall fuel k x, (k + fuel = 10)%nat -> (k <= 9)%nat ->
  let r := initial_guess fuel e eps k x in
  length (fst (fst r)) = length x /\ (snd r <= 11)%nat /\ (exists j, snd r = S j /\ snd (fst r) = o_init_merit e j eps (fst (fst r))) /\
  (snd (fst r) = None -> snd r = 11%nat) /\
  ((exists j, (k + j <= 9)%nat /\ forall i, nth i (fst (fst r)) 0 = nth i x 0 / 2 ^ j) \/ (forall i, nth i (fst (fst r)) 0 = 0)).
Proof.
  induction fuel as [|fuel IH]; intros k x Hk Hk9; [lia|].
  cbv zeta. rewrite initial_guess_step. destruct (o_init_merit e k eps x) as [m|] eqn:E.
  - cbn [fst snd]. split; [reflexivity|]. split; [lia|]. split; [exists k; split; [reflexivity|symmetry; exact E]|]. split; [discriminate|].
    left. exists 0%nat. split; [lia|]. intros i. simpl. field.
  - destruct (Nat.ltb_spec 9 k); [lia|]. destruct (Nat.ltb_spec 8 k) as [H8|H8].
    + assert (k = 9%nat) by lia. subst k. assert (fuel = 0%nat) by lia. subst fuel.
      assert (Eg : initial_guess 0 e eps 10 (map (fun _ => 0) x) = (map (fun _ => 0) x, o_init_merit e 10 eps (map (fun _ => 0) x), 11%nat)).
      { simpl. destruct (o_init_merit e 10 eps (map (fun _ => 0) x)); reflexivity. }
      rewrite Eg. cbn [fst snd]. split; [apply map_length|]. split; [lia|]. split; [exists 10%nat; split; reflexivity|]. split; [reflexivity|].
      right. apply nth_zeros.
    + destruct (IH (S k) (vscale (1/2) x) ltac:(lia) ltac:(lia)) as (H1 & H2 & H3 & H4 & H5).
      rewrite vscale_length in H1. split; [exact H1|]. split; [exact H2|]. split; [exact H3|]. split; [exact H4|].
      destruct H5 as [(j & Hj & Hv)|Hv]; [left|right; exact Hv].
      exists (S j). split; [lia|]. intros i. rewrite Hv, nth_vscale. simpl. field. apply pow_nonzero. lra.
Qed.

(** * Log entries *)
Lemma solve_entry ls_fuel e cfg prev x eps tol i t :
  nth_error (r_log (newton_solve ls_fuel e cfg prev x eps tol)) i = Some t ->
  entry_ok ls_fuel e cfg i t /\ follows e cfg eps prev (solve_start e cfg prev x eps tol) i (e_prev t) (e_eps t) (Some (e_merit_cur t)) (r_log (newton_solve ls_fuel e cfg prev x eps tol)).
Proof.
  destruct (solve_cases ls_fuel e cfg prev x eps tol) as [(_ & _ & H & _)|H].
  - rewrite H. destruct i; discriminate.
  - rewrite H. intros Ht. destruct (loop_outcome ls_fuel e cfg eps tol prev (solve_start e cfg prev x eps tol) eq_refl) as [_ Hl _ _ _ _ _ _].
    exact (Hl i t Ht).
Qed.

Lemma loop_tols ls_fuel e cfg orig_eps orig_tol prev s0 : iterative cfg = true -> s_log s0 = [] ->
  List.Forall (fun t => exists tl q, e_tol t = forcing_term orig_tol tl q) (r_log (newton_loop (Nat.max 1 (max_iter cfg)) ls_fuel e cfg orig_eps orig_tol prev 0 s0)).
Proof.
  intros Hi H0.
  apply (loop_ind ls_fuel e cfg orig_eps orig_tol prev (fun _ s => List.Forall (fun t => exists tl q, e_tol t = forcing_term orig_tol tl q) (s_log s))
    (fun r => List.Forall (fun t => exists tl q, e_tol t = forcing_term orig_tol tl q) (r_log r))).
  - intros it s s' HI E.
    destruct (iteration_inversion ls_fuel e cfg orig_eps orig_tol prev it s) as [(st & tl & _ & _ & H)|[(_ & H)|[(mc & p & sl & _ & _ & H)|(mc & p & sl & lr & sr & _ & _ & _ & H)]]];
      rewrite H in E; clear H; try discriminate E.
    match type of E with ?o = _ => set (out := o) in E end.
    destruct (after_search_inversion e cfg orig_eps orig_tol prev it (s_x s) p sl mc (if iterative cfg then forcing_term orig_tol (s_tol s) (o_ratio e it) else s_tol s) (s_eps s) (s_log s) lr sr)
      as [(H & _)|[(H & _)|[(H & _)|(H & _)]]]; fold out in H; rewrite H in E; try discriminate E; injection E as <-.
    cbn [s_log]. apply Forall_app. split; [exact HI|]. constructor; [|constructor]. cbn [the_entry e_tol]. rewrite Hi. eexists _, _. reflexivity.
  - intros it s r HI E.
    destruct (iteration_inversion ls_fuel e cfg orig_eps orig_tol prev it s) as [(st & tl & _ & _ & H)|[(_ & H)|[(mc & p & sl & _ & _ & H)|(mc & p & sl & lr & sr & _ & _ & _ & H)]]];
      rewrite H in E; clear H; try (injection E as <-; exact HI).
    match type of E with ?o = _ => set (out := o) in E end.
    destruct (after_search_inversion e cfg orig_eps orig_tol prev it (s_x s) p sl mc (if iterative cfg then forcing_term orig_tol (s_tol s) (o_ratio e it) else s_tol s) (s_eps s) (s_log s) lr sr)
      as [(H & _)|[(H & _)|[(H & _)|(H & _)]]]; fold out in H; rewrite H in E; try discriminate E; injection E as <-.
    1: exact HI.
    all: unfold finish; cbn [r_log]; apply Forall_app; (split; [exact HI|]); constructor; [|constructor]; cbn [the_entry e_tol]; rewrite Hi; eexists _, _; reflexivity.
  - rewrite H0. constructor.
Qed.

Lemma forcing_term_range orig tol q : Rmin orig eps32 <= forcing_term orig tol q <= orig.
Proof.
  unfold forcing_term. split; [|apply Rmin_l].
  assert (H : eps32 <= (if Rlt_dec (/ 10) (tol * tol) then Rmax (Rmax eps32 q) (tol * tol) else Rmax eps32 q)).
  { destruct (Rlt_dec _ _); pose proof (Rmax_l eps32 q); pose proof (Rmax_l (Rmax eps32 q) (tol * tol)); lra. }
  unfold Rmin. destruct (Rle_dec _ _), (Rle_dec _ _); lra.
Qed.

Lemma solve_tols ls_fuel e cfg prev x eps tol t : iterative cfg = true -> In t (r_log (newton_solve ls_fuel e cfg prev x eps tol)) ->
  Rmin tol eps32 <= e_tol t <= tol.
Proof.
  intros Hi Ht. destruct (solve_cases ls_fuel e cfg prev x eps tol) as [(_ & _ & H & _)|H]; rewrite H in Ht; [destruct Ht|].
  pose proof (loop_tols ls_fuel e cfg eps tol prev (solve_start e cfg prev x eps tol) Hi eq_refl) as HF.
  rewrite Forall_forall in HF. destruct (HF t Ht) as (tl & q & ->). apply forcing_term_range.
Qed.

Lemma entry_direction ls_fuel e cfg n i t : sized n e -> length (e_prev t) = n -> entry_ok ls_fuel e cfg i t -> length (e_p t) = n /\ length (e_x t) = n.
Proof.
  intros [Hs1 Hs2] Hl (p0 & r & sr & Hlin & _ & Hp & Hls & _ & _ & Hacc & Hx & _).
  assert (Hp0 : length p0 = n).
  { unfold linear_solve in Hlin. destruct (iterative cfg); [injection Hlin as Hlin; exact (Hs1 _ _ _ _ _ Hl Hlin)|exact (Hs2 _ _ _ _ Hl Hlin)]. }
  assert (Hpl : length (e_p t) = n). { rewrite Hp. destruct (is_positive _); rewrite !vscale_length; exact Hp0. }
  split; [exact Hpl|]. rewrite Hx.
  destruct (search_cases _ _ _ _ _ _ _ _ _ _ _ _ Hls) as [(_ & -> & _)|(_ & _ & Hb)].
  - cbn [ls_x]. rewrite vstep_length by congruence. exact Hl.
  - apply bt_result in Hb; [|reflexivity]. destruct Hb as (_ & Ha & Hr & _). destruct (ls_accepted r).
    + destruct (Ha eq_refl) as [-> _]. rewrite vstep_length by congruence. exact Hl.
    + destruct (Hr eq_refl) as (_ & _ & a & _ & -> & _). rewrite vstep_length by congruence. exact Hl.
Qed.

Lemma initial_guess_length e eps x : length (fst (fst (initial_guess 10 e eps 0 x))) = length x.
Proof. destruct (initial_guess_from e eps 10 0 x ltac:(lia) ltac:(lia)) as [H _]. exact H. Qed.

Lemma solve_lengths ls_fuel e cfg prev x eps tol : sized (length x) e -> forall i t,
  nth_error (r_log (newton_solve ls_fuel e cfg prev x eps tol)) i = Some t -> length (e_prev t) = length x /\ length (e_p t) = length x /\ length (e_x t) = length x.
Proof.
  intros Hs. induction i as [i IH] using (well_founded_induction lt_wf). intros t Ht.
  destruct (solve_entry _ _ _ _ _ _ _ _ _ Ht) as [He Hf].
  assert (Hp : length (e_prev t) = length x).
  { destruct i as [|k]; cbn [follows] in Hf.
    - destruct Hf as (-> & _). unfold solve_start. cbn [s_x]. apply initial_guess_length.
    - destruct Hf as (u & Hu & -> & _). destruct (IH k ltac:(lia) u Hu) as (_ & _ & H). exact H. }
  split; [exact Hp|]. exact (entry_direction _ _ _ _ _ _ Hs Hp He).
Qed.

Lemma solve_step_taken ls_fuel e cfg prev x eps tol i t : sized (length x) e ->
  nth_error (r_log (newton_solve ls_fuel e cfg prev x eps tol)) i = Some t ->
  (e_accepted t = true -> at_step (e_prev t) (e_p t) (e_alpha t) (e_x t)) /\
  (e_accepted t = false -> e_alpha t < alpha_min /\ (2 < e_ls_count t)%nat /\ exists a, e_alpha t = a * step_factor (search cfg) /\ at_step (e_prev t) (e_p t) a (e_x t)).
Proof.
  intros Hs Ht. destruct (solve_lengths _ _ _ _ _ _ _ Hs _ _ Ht) as (H1 & H2 & _).
  destruct (solve_entry _ _ _ _ _ _ _ _ _ Ht) as [(p0 & r & sr & _ & _ & _ & Hls & Ha & Hc & Hacc & Hx & _) _].
  rewrite Hacc, Ha, Hx, Hc. split.
  - intros E. destruct (search_cases _ _ _ _ _ _ _ _ _ _ _ _ Hls) as [(_ & -> & _)|(_ & Hr & _)].
    + cbn [ls_alpha ls_x]. apply at_step_vstep. congruence.
    + destruct (search_accepted _ _ _ _ _ _ _ _ _ _ _ _ Hr Hls E) as [-> _]. apply at_step_vstep. congruence.
  - intros E. destruct (search_rejected _ _ _ _ _ _ _ _ _ _ _ _ Hls E) as (Hm & Hcnt & a & Hal & -> & _).
    split; [exact Hm|]. split; [exact Hcnt|]. exists a. split; [exact Hal|]. apply at_step_vstep. congruence.
Qed.

Lemma ole_some a b : ole a b = true -> exists u v, a = Some u /\ b = Some v /\ u <= v.
Proof. destruct a as [u|], b as [v|]; try discriminate. simpl. destruct (Rle_dec u v); [|discriminate]. intros _. exists u, v. repeat split; assumption. Qed.

Lemma solve_armijo ls_fuel e cfg prev x eps tol i t : iterative cfg = false -> step_factor (search cfg) < 1 ->
  nth_error (r_log (newton_solve ls_fuel e cfg prev x eps tol)) i = Some t -> e_accepted t = true ->
  exists s m, e_slope t = Some s /\ e_merit_next t = Some m /\ m <= e_merit_cur t + armijo_coeff (search cfg) * e_alpha t * s /\
    (s <= 0 -> o_slope e i (e_eps t) (e_prev t) (e_p t) = Some s).
Proof.
  intros Hd Hr Ht E. destruct (solve_entry _ _ _ _ _ _ _ _ _ Ht) as [(p0 & r & sr & _ & Hsl & Hp & Hls & Ha & Hc & Hacc & Hx & Hm) _].
  rewrite Hacc in E. destruct (search_accepted _ _ _ _ _ _ _ _ _ _ _ _ Hr Hls E) as [_ Htest].
  unfold test_alpha in Htest. rewrite Hd in Htest. cbv zeta in Htest. apply ole_some in Htest.
  destruct Htest as (u & v & Hu & Hv & Huv). rewrite Hm, Hu.
  destruct (e_slope t) as [s|] eqn:Es; [|discriminate Hv]. cbn [option_map] in Hv. injection Hv as <-.
  exists s, u. split; [reflexivity|]. split; [reflexivity|]. rewrite Ha. split; [exact Huv|].
  intros Hs. rewrite Hp. unfold is_positive. destruct (Rlt_dec 0 s); [lra|]. destruct (Rlt_dec (step_factor (search cfg)) 1); [|lra].
  symmetry. exact Hsl.
Qed.

Lemma solve_alpha_range ls_fuel e cfg prev x eps tol i t : 0 <= step_factor (search cfg) ->
  (forall it x, 0 <= o_contact_alpha e it x) -> (forall it a x q, 0 <= a -> 0 <= o_friction_alpha e it a x q) ->
  nth_error (r_log (newton_solve ls_fuel e cfg prev x eps tol)) i = Some t -> 0 <= e_alpha t <= 1.
Proof.
  intros H0 Hc Hf Ht. destruct (solve_entry _ _ _ _ _ _ _ _ _ Ht) as [(p0 & r & sr & _ & _ & _ & Hls & Ha & _) _].
  rewrite Ha. exact (search_alpha_range _ _ _ _ _ _ _ _ _ _ _ _ H0 (Hc i) (Hf i) Hls).
Qed.

Lemma solve_inexact ls_fuel e cfg prev x eps tol i t : iterative cfg = true -> use_obj_merit cfg = false -> step_factor (search cfg) < 1 ->
  nth_error (r_log (newton_solve ls_fuel e cfg prev x eps tol)) i = Some t -> e_accepted t = true ->
  exists m, e_merit_next t = Some m /\ m <= e_merit_cur t * (1 - armijo_coeff (search cfg) * e_alpha t * (1 - e_tol t)) ^ 2.
Proof.
  intros Hi Hu Hr Ht E. destruct (solve_entry _ _ _ _ _ _ _ _ _ Ht) as [(p0 & r & sr & _ & Hsl & Hp & Hls & Ha & Hc & Hacc & Hx & Hm) _].
  rewrite Hacc in E. destruct (search_accepted _ _ _ _ _ _ _ _ _ _ _ _ Hr Hls E) as [_ Htest].
  unfold test_alpha in Htest. rewrite Hi, Hu in Htest. cbv zeta in Htest. apply ole_some in Htest.
  destruct Htest as (u & v & Hu' & Hv & Huv). rewrite Hm, Hu'. cbn [option_map] in Hv. injection Hv as <-.
  exists u. split; [reflexivity|]. rewrite Ha. simpl. lra.
Qed.

(** Consecutive entries without adaptivity: the merit carries over. *)
Lemma solve_merit_chain ls_fuel e cfg prev x eps tol i t : adaptive cfg = false ->
  nth_error (r_log (newton_solve ls_fuel e cfg prev x eps tol)) (S i) = Some t ->
  exists u, nth_error (r_log (newton_solve ls_fuel e cfg prev x eps tol)) i = Some u /\ e_prev t = e_x u /\ e_merit_next u = Some (e_merit_cur t).
Proof.
  intros Ha Ht. destruct (solve_entry _ _ _ _ _ _ _ _ _ Ht) as [_ (u & Hu & Hp & _ & Hm)].
  exists u. split; [exact Hu|]. split; [exact Hp|]. unfold next_merit in Hm. rewrite Ha in Hm. cbn [andb] in Hm. symmetry. exact Hm.
Qed.

Lemma solve_merit_monotone ls_fuel e cfg prev x eps tol :
  let log := r_log (newton_solve ls_fuel e cfg prev x eps tol) in
  adaptive cfg = false ->
  (forall i t, nth_error log i = Some t -> exists m, e_merit_next t = Some m /\ m <= e_merit_cur t) ->
  forall d i t u, nth_error log i = Some t -> nth_error log (i + d) = Some u -> exists m, e_merit_next u = Some m /\ m <= e_merit_cur t.
Proof.
  intros log Ha Hstep. induction d as [|d IH]; intros i t u Ht Hu.
  - rewrite Nat.add_0_r in Hu. rewrite Ht in Hu. injection Hu as <-. exact (Hstep i t Ht).
  - replace (i + S d)%nat with (S (i + d)) in Hu by lia.
    destruct (solve_merit_chain _ _ _ _ _ _ _ _ _ Ha Hu) as (v & Hv & _ & Hm).
    destruct (IH i t v Ht Hv) as (m1 & E1 & L1). destruct (Hstep _ _ Hu) as (m2 & E2 & L2).
    exists m2. split; [exact E2|]. rewrite Hm in E1. injection E1 as <-. lra.
Qed.

(** * Adaptive epsilon *)
Lemma Rpower_ge_1 a b : 1 <= a -> 0 <= b -> 1 <= Rpower a b.
Proof.
  intros Ha Hb. unfold Rpower. rewrite <- exp_0. assert (0 <= b * ln a).
  { apply Rmult_le_pos; [exact Hb|]. rewrite <- ln_1. destruct (Req_dec a 1) as [->|]; [lra|]. left. apply ln_increasing; lra. }
  destruct (Req_dec (b * ln a) 0) as [->|]; [lra|]. left. apply exp_increasing. lra.
Qed.
Lemma Rpower_le_1 a b : 1 <= a -> b <= 0 -> Rpower a b <= 1.
Proof.
  intros Ha Hb. replace b with (- (- b)) by ring. rewrite Rpower_Ropp. pose proof (Rpower_ge_1 a (- b) Ha ltac:(lra)) as H.
  rewrite <- Rinv_1. apply Rinv_le_contravar; lra.
Qed.
Lemma Rpower_one b : Rpower 1 b = 1.
Proof. unfold Rpower. rewrite ln_1, Rmult_0_r. apply exp_0. Qed.
Lemma INR_prev prev : (3 < prev)%nat -> INR prev - 3 = INR (prev - 3) /\ 1 <= INR prev - 3.
Proof. intros H. rewrite minus_INR by lia. simpl INR. split; [ring|]. apply le_INR in H. simpl in H. lra. Qed.
Lemma INR_prev_neg prev : (prev < 3)%nat -> INR prev - 3 <= -1.
Proof. intros H. apply Nat.le_succ_l in H. apply le_INR in H. rewrite S_INR in H. simpl in H. lra. Qed.
Lemma base_ge_1 prev orig : 1 <= epsilon_base prev orig.
Proof. apply Rmax_r. Qed.

Lemma base_small_count prev orig : (prev < 3)%nat -> 0 < orig <= 1 -> epsilon_base prev orig = 1.
Proof.
  intros Hp Ho. pose proof (INR_prev_neg _ Hp). unfold epsilon_base. apply Rmax_right. apply Rpower_le_1.
  - unfold Rdiv. rewrite Rmult_1_l, <- Rinv_1. apply Rinv_le_contravar; lra.
  - unfold Rdiv. rewrite Rmult_1_l. left. apply Rinv_lt_0_compat. lra.
Qed.
Lemma base_power prev orig : (3 < prev)%nat -> 0 < orig <= 1 -> orig * epsilon_base prev orig ^ (prev - 3) = 1.
Proof.
  intros Hp Ho. destruct (INR_prev _ Hp) as [E H1]. unfold epsilon_base.
  assert (Hinv : 1 <= 1 / orig). { unfold Rdiv. rewrite Rmult_1_l. rewrite <- Rinv_1 at 1. apply Rinv_le_contravar; lra. }
  rewrite Rmax_left.
  - rewrite <- Rpower_pow by apply exp_pos. rewrite Rpower_mult, <- E. replace (1 / (INR prev - 3) * (INR prev - 3)) with 1 by (field; lra).
    rewrite Rpower_1 by lra. field. lra.
  - apply Rpower_ge_1; [exact Hinv|]. unfold Rdiv. rewrite Rmult_1_l. left. apply Rinv_0_lt_compat. lra.
Qed.

Lemma initial_epsilon_value prev orig : 0 < orig ->
  initial_epsilon prev orig = match Nat.compare prev 3 with Lt => Rmin orig 1 | Eq => orig | Gt => Rmax orig 1 end.
Proof.
  intros Ho. unfold initial_epsilon. destruct (Nat.compare_spec prev 3) as [->|Hlt|Hgt].
  - reflexivity.
  - destruct (Nat.eqb_spec prev 3); [lia|]. destruct (Rle_dec orig 1) as [H1|H1].
    + rewrite base_small_count by (try lia; lra). rewrite Rpower_one, Rmin_left by lra. ring.
    + rewrite Rmin_right by lra. pose proof (INR_prev_neg _ Hlt) as Hn. unfold epsilon_base.
      assert (E : Rpower (1 / orig) (1 / (INR prev - 3)) = Rpower orig (/ (3 - INR prev))).
      { unfold Rpower. f_equal. unfold Rdiv at 2. rewrite Rmult_1_l. rewrite ln_Rinv by lra. field. split; lra. }
      rewrite E. rewrite Rmax_left.
      * rewrite Rpower_mult. replace (/ (3 - INR prev) * (INR prev - 3)) with (- (1)) by (field; lra).
        rewrite Rpower_Ropp, Rpower_1 by lra. field. lra.
      * apply Rpower_ge_1; [lra|]. left. apply Rinv_0_lt_compat. lra.
  - destruct (Nat.eqb_spec prev 3); [lia|]. destruct (INR_prev _ Hgt) as [E H1]. destruct (Rle_dec orig 1) as [H2|H2].
    + rewrite Rmax_right by lra. rewrite E, Rpower_pow by (pose proof (base_ge_1 prev orig); lra). apply base_power; [exact Hgt|lra].
    + rewrite Rmax_left by lra. replace (epsilon_base prev orig) with 1; [rewrite Rpower_one; ring|].
      symmetry. apply Rmax_right. assert (Hle : 1 / orig <= 1) by (unfold Rdiv; rewrite Rmult_1_l, <- Rinv_1; apply Rinv_le_contravar; lra).
      replace (1 / orig) with (/ orig) by (unfold Rdiv; ring).
      unfold Rpower. rewrite ln_Rinv by lra. apply Rle_trans with (exp 0); [|rewrite exp_0; lra].
      assert (0 <= 1 / (INR prev - 3) * ln orig).
      { apply Rmult_le_pos; [left; unfold Rdiv; rewrite Rmult_1_l; apply Rinv_0_lt_compat; lra|]. rewrite <- ln_1. left. apply ln_increasing; lra. }
      replace (1 / (INR prev - 3) * - ln orig) with (- (1 / (INR prev - 3) * ln orig)) by ring.
      destruct (Req_dec (1 / (INR prev - 3) * ln orig) 0) as [E0|]; [rewrite E0, Ropp_0; lra|]. left. apply exp_increasing. lra.
Qed.

(** The base as used by the schedule, one when it is infinite (then the factor is not positive). *)
Lemma factor_le e prev it orig : epsilon_factor e prev it orig <= inverse_base prev orig.
Proof. unfold epsilon_factor. destruct (o_sqrt_ratio e it); [apply Rmin_r|lra]. Qed.

Definition schedule (prev : nat) (orig : R) (i : nat) (v : R) : Prop :=
  orig <= v /\ v <= 1 /\ v <= orig * (if Nat.leb prev 3 then 1 else epsilon_base prev orig ^ (prev - 3 - i)).

Lemma schedule_start prev orig : 0 < orig <= 1 -> schedule prev orig 0 (initial_epsilon prev orig).
Proof.
  intros Ho. unfold schedule. rewrite initial_epsilon_value by lra. rewrite Nat.sub_0_r.
  destruct (Nat.compare_spec prev 3) as [Heq|Hlt|Hgt]; destruct (Nat.leb_spec prev 3); try lia.
  - lra.
  - rewrite Rmin_left by lra. lra.
  - rewrite Rmax_right by lra. rewrite base_power by (try lia; lra). lra.
Qed.

Lemma schedule_step e prev it orig i v : 0 < orig <= 1 -> schedule prev orig i v -> schedule prev orig (S i) (Rmax orig (v * epsilon_factor e prev it orig)) /\
  Rmax orig (v * epsilon_factor e prev it orig) <= v.
Proof.
  intros Ho (H1 & H2 & H3). pose proof (factor_le e prev it orig) as Hf. set (f := epsilon_factor e prev it orig) in *.
  assert (Hib : inverse_base prev orig <= 1 /\ ((3 < prev)%nat -> inverse_base prev orig = / epsilon_base prev orig)).
  { unfold inverse_base. destruct (Nat.eqb_spec prev 3) as [->|Hne]; [split; [destruct (Rlt_dec orig 1); lra|lia]|].
    pose proof (base_ge_1 prev orig). split; [|intros; unfold Rdiv; ring]. unfold Rdiv. rewrite Rmult_1_l, <- Rinv_1. apply Rinv_le_contravar; lra. }
  destruct Hib as [Hib1 Hib2].
  assert (Hvf : v * f <= v * inverse_base prev orig) by (apply Rmult_le_compat_l; lra).
  assert (Hvi : v * inverse_base prev orig <= v) by (rewrite <- (Rmult_1_r v) at 2; apply Rmult_le_compat_l; lra).
  assert (Hdec : Rmax orig (v * f) <= v) by (apply Rmax_lub; lra).
  split; [|exact Hdec]. split; [apply Rmax_l|]. split; [lra|].
  destruct (Nat.leb_spec prev 3) as [Hp|Hp]; [lra|].
  pose proof (base_ge_1 prev orig) as Hb. set (b := epsilon_base prev orig) in *.
  assert (Hpow : forall n, 1 <= b ^ n) by (intros n; apply pow_R1_Rle, Hb).
  apply Rmax_lub.
  - rewrite <- (Rmult_1_r orig) at 1. apply Rmult_le_compat_l; [lra|apply Hpow].
  - apply Rle_trans with (1 := Hvf). rewrite (Hib2 Hp). destruct (prev - 3 - i)%nat as [|k] eqn:Ek.
    + replace (prev - 3 - S i)%nat with 0%nat by lia. simpl in *. assert (Hinv : / b <= 1) by (rewrite <- Rinv_1; apply Rinv_le_contravar; lra).
      apply Rle_trans with (v * 1); [apply Rmult_le_compat_l; lra|lra].
    + replace (prev - 3 - S i)%nat with k by lia. apply Rmult_le_reg_r with b; [lra|].
      replace (v * / b * b) with v by (field; lra). simpl in H3. lra.
Qed.

Lemma nth_map_combine (f : R * R -> R) : forall a b j, length b = length a -> (j < length a)%nat -> nth j (map f (combine a b)) 0 = f (nth j a 0, nth j b 0).
Proof.
  induction a as [|c a IH]; intros [|d b] j Hl Hj; simpl in *; try lia. destruct j as [|j]; [reflexivity|]. apply IH; lia.
Qed.


Lemma solve_schedule ls_fuel e cfg prev x eps tol : adaptive cfg = true -> user_range eps -> forall i t,
  nth_error (r_log (newton_solve ls_fuel e cfg prev x eps tol)) i = Some t ->
  length (e_eps t) = length eps /\ forall j, (j < length eps)%nat -> schedule prev (nth j eps 0) i (nth j (e_eps t) 0).
Proof.
  intros Ha Hu. induction i as [|k IH]; intros t Ht; destruct (solve_entry _ _ _ _ _ _ _ _ _ Ht) as [_ Hf]; cbn [follows] in Hf.
  - destruct Hf as (_ & -> & _). split; [apply start_eps_length|]. intros j Hj. unfold solve_start. cbn [s_eps]. rewrite Ha.
    rewrite (nth_indep (map (initial_epsilon prev) eps) 0 (initial_epsilon prev 0)) by (rewrite map_length; exact Hj). rewrite map_nth. apply schedule_start, Hu, Hj.
  - destruct Hf as (u & Hu' & _ & -> & _). destruct (IH u Hu') as [Hl Hs]. unfold next_eps. rewrite Ha.
    split; [apply reduce_length, Hl|]. intros j Hj. unfold reduce_epsilon. rewrite nth_map_combine by assumption. cbn [fst snd].
    destruct (schedule_step e prev k (nth j eps 0) k (nth j (e_eps u) 0) (Hu j Hj) (Hs j Hj)) as [H _]. exact H.
Qed.

Lemma solve_schedule_monotone ls_fuel e cfg prev x eps tol i t u : adaptive cfg = true -> user_range eps ->
  nth_error (r_log (newton_solve ls_fuel e cfg prev x eps tol)) i = Some u ->
  nth_error (r_log (newton_solve ls_fuel e cfg prev x eps tol)) (S i) = Some t -> below (e_eps t) (e_eps u).
Proof.
  intros Ha Hu H1 H2. destruct (solve_schedule _ _ _ _ _ _ _ Ha Hu _ _ H1) as [Hl Hs].
  destruct (solve_schedule _ _ _ _ _ _ _ Ha Hu _ _ H2) as [Hl2 _].
  destruct (solve_entry _ _ _ _ _ _ _ _ _ H2) as [_ (v & Hv & _ & He & _)]. rewrite H1 in Hv. injection Hv as <-.
  split; [congruence|]. intros j. destruct (Nat.lt_ge_cases j (length eps)) as [Hj|Hj].
  - rewrite He. unfold next_eps. rewrite Ha. unfold reduce_epsilon. rewrite nth_map_combine by assumption. cbn [fst snd].
    destruct (schedule_step e prev i (nth j eps 0) i (nth j (e_eps u) 0) (Hu j Hj) (Hs j Hj)) as [_ H]. exact H.
  - rewrite !nth_overflow by lia. lra.
Qed.

Lemma solve_schedule_end ls_fuel e cfg prev x eps tol i t : adaptive cfg = true -> user_range eps ->
  nth_error (r_log (newton_solve ls_fuel e cfg prev x eps tol)) i = Some t -> (prev - 3 <= i)%nat -> e_eps t = eps.
Proof.
  intros Ha Hu Ht Hi. destruct (solve_schedule _ _ _ _ _ _ _ Ha Hu _ _ Ht) as [Hl Hs].
  apply (nth_ext _ _ 0 0); [exact Hl|]. intros j Hj. rewrite Hl in Hj. destruct (Hs j Hj) as (H1 & _ & H3).
  destruct (Nat.leb prev 3); [lra|]. replace (prev - 3 - i)%nat with 0%nat in H3 by lia. simpl in H3. lra.
Qed.

(** After any solve with adaptivity the epsilons lie between the user's values and one. *)
Lemma solve_eps_bounds ls_fuel e cfg prev x eps tol : user_range eps ->
  length (r_eps (newton_solve ls_fuel e cfg prev x eps tol)) = length eps /\
  forall j, (j < length eps)%nat -> nth j eps 0 <= nth j (r_eps (newton_solve ls_fuel e cfg prev x eps tol)) 0 <= 1.
Proof.
  intros Hu. destruct (adaptive cfg) eqn:Ha.
  2:{ rewrite solve_eps_fixed by exact Ha. split; [reflexivity|]. intros j Hj. pose proof (Hu j Hj). lra. }
  assert (Hst : length (s_eps (solve_start e cfg prev x eps tol)) = length eps /\
    forall j, (j < length eps)%nat -> exists i, schedule prev (nth j eps 0) i (nth j (s_eps (solve_start e cfg prev x eps tol)) 0)).
  { split; [apply start_eps_length|]. intros j Hj. exists 0%nat. unfold solve_start. cbn [s_eps]. rewrite Ha.
    rewrite (nth_indep (map (initial_epsilon prev) eps) 0 (initial_epsilon prev 0)) by (rewrite map_length; exact Hj). rewrite map_nth. apply schedule_start, Hu, Hj. }
  assert (G : forall v, (length v = length eps /\ forall j, (j < length eps)%nat -> exists i, schedule prev (nth j eps 0) i (nth j v 0)) ->
    length v = length eps /\ forall j, (j < length eps)%nat -> nth j eps 0 <= nth j v 0 <= 1).
  { intros v [Hl Hv]. split; [exact Hl|]. intros j Hj. destruct (Hv j Hj) as (i & H1 & H2 & _). lra. }
  destruct (solve_cases ls_fuel e cfg prev x eps tol) as [(_ & _ & _ & _ & [H|H] & _)|H].
  - rewrite H. split; [reflexivity|]. intros j Hj. pose proof (Hu j Hj). lra.
  - rewrite H. apply G, Hst.
  - rewrite H. apply G. apply (loop_eps ls_fuel e cfg eps tol prev (fun v => length v = length eps /\ forall j, (j < length eps)%nat -> exists i, schedule prev (nth j eps 0) i (nth j v 0))); [exact Hst|].
    intros it v [Hl Hv]. rewrite Ha. split; [apply reduce_length, Hl|]. intros j Hj. destruct (Hv j Hj) as (i & Hs). exists (S i).
    unfold reduce_epsilon. rewrite nth_map_combine by assumption. cbn [fst snd]. apply (schedule_step e prev it _ i _ (Hu j Hj) Hs).
Qed.

(** * Examples used for refutations *)
Lemma solve_one ls_fuel e cfg prev x0 x eps tol x1 m n :
  max_iter cfg = 1%nat -> adaptive cfg = false -> o_pattern_ok e = true -> o_pattern_empty e = false ->
  initial_guess 10 e eps 0 (x0 :: x) = (x1, m, n) ->
  newton_solve ls_fuel e cfg prev (x0 :: x) eps tol =
    match newton_iteration ls_fuel e cfg eps tol prev 0 (State x1 eps tol m []) with Stop r => r | Continue s => Result NoFuel 1 (s_x s) (s_eps s) (s_tol s) prev (s_log s) end.
Proof.
  intros H1 H2 H3 H4 H5. unfold newton_solve. rewrite H2, H3, H4. cbn [negb]. rewrite H5, H1.
  change (Nat.max 1 1) with 1%nat. cbn [newton_loop]. reflexivity.
Qed.

(** Residual [r(x) = x], merit [x^2 / 2], but a Jacobian of the wrong sign (-1): the direction [-J^-1 r = x] is an ascent
    direction that looks like a descent direction. *)
Definition wrong_sign (files : bool) (conv : vec -> vec -> bool) : env :=
  Env (fun _ _ => true) true false (fun _ _ x => Some (nth 0 x 0 ^ 2 / 2)) (fun _ => 1) (fun _ _ _ _ => None)
    (fun _ _ x => Solution (Some [- nth 0 x 0])) (fun _ _ x p => Some (nth 0 x 0 * (- (1) * nth 0 p 0)))
    (fun _ _ _ x => Some (nth 0 x 0 ^ 2 / 2)) (fun _ _ _ x => Some (nth 0 x 0 ^ 2)) (fun _ _ => 1) (fun _ _ _ _ => 1)
    (fun _ _ x y => conv x y) (fun _ => None) (fun _ _ x => Some (nth 0 x 0 ^ 2 / 2)) (fun _ => files).
Definition default_config : config := Config 1 (BackTracking (/ 10000) (9 / 10)) false false false.

Lemma tenth_pow : alpha_min <= (9 / 10) ^ 80.
Proof.
  assert (H : / 10 <= (9 / 10) ^ 8) by (simpl; lra).
  assert (H2 : (/ 10) ^ 10 <= ((9 / 10) ^ 8) ^ 10) by (apply pow_incr; lra).
  rewrite <- pow_mult in H2. change (8 * 10)%nat with 80%nat in H2. apply Rle_trans with (2 := H2).
  unfold alpha_min. rewrite pow_inv. apply Rinv_le_contravar; [apply pow_lt; lra|]. apply Rle_pow; [lra|lia].
Qed.

Lemma wrong_sign_search files conv fuel tol : (9 / 10) ^ fuel < alpha_min -> (3 <= fuel)%nat ->
  exists r, line_search_step fuel (wrong_sign files conv) default_config 0 [] tol [1] [1] (1 / 2) (Some (- (1))) = Some (r, true) /\
    ls_accepted r = false /\ 0 < ls_alpha r < alpha_min /\ (80 < ls_count r)%nat /\ ls_x r = [1 + ls_alpha r / (9 / 10)].
Proof.
  intros Hf H3.
  assert (T : forall a q w, 0 < a <= 1 -> test_alpha default_config tol q w (Some (nth 0 (vstep [1] a [1]) 0 ^ 2 / 2)) (1 / 2) (Some (- (1))) a = false).
  { intros a q w Ha. unfold test_alpha, default_config. cbn [iterative search armijo_coeff option_map ole vstep combine map fst snd nth].
    destruct (Rle_dec _ _) as [H|]; [exfalso|reflexivity]. nra. }
  destruct (search_never (wrong_sign files conv) default_config 0 [] tol [1] [1] (1 / 2) (Some (- (1))) fuel) as (r & Hr & Ha & Hal & Hc).
  - cbn. lra.
  - reflexivity.
  - exact Hf.
  - exact H3.
  - intros j a Ha. apply T, Ha.
  - apply T. lra.
  - exists r. split; [exact Hr|]. split; [exact Ha|]. split; [exact Hal|]. split; [apply Hc, tenth_pow|].
    destruct (search_rejected _ _ _ _ _ _ _ _ _ _ _ _ Hr Ha) as (_ & _ & a & Haa & Hx & _). rewrite Hx. cbn [vstep combine map fst snd].
    cbn [step_factor default_config search] in Haa. f_equal. rewrite Haa. field.
Qed.

Lemma wrong_sign_solve files conv fuel tol : (9 / 10) ^ fuel < alpha_min -> (3 <= fuel)%nat ->
  exists r, line_search_step fuel (wrong_sign files conv) default_config 0 [] tol [1] [1] (1 / 2) (Some (- (1))) = Some (r, true) /\
    ls_accepted r = false /\ 0 < ls_alpha r < alpha_min /\ ls_x r = [1 + ls_alpha r / (9 / 10)] /\
    let t := Entry [1] [1] (Some (- (1))) (1 / 2) tol [] (ls_alpha r) (ls_count r) (ls_accepted r) (ls_x r) (ls_merit r) in
    newton_solve fuel (wrong_sign files conv) default_config 1 [1] [] tol =
    if files then Result (Ended (if conv [1] (ls_x r) then Success else MaximumIterationsExceeded)) 1 (ls_x r) [] tol 1 [t]
    else Result Panicked 0 (ls_x r) [] tol 1 [].
Proof.
  intros Hf H3. destruct (wrong_sign_search files conv fuel tol Hf H3) as (r & Hr & Ha & Hal & Hc & Hx).
  exists r. split; [exact Hr|]. split; [exact Ha|]. split; [exact Hal|]. split; [exact Hx|]. cbv zeta.
  rewrite (solve_one fuel (wrong_sign files conv) default_config 1 1 [] [] tol [1] (Some (1 ^ 2 / 2)) 1) by reflexivity.
  unfold newton_iteration. cbn [wrong_sign o_callback negb linear_solve default_config iterative o_direct search step_factor].
  unfold linear_solve. cbn [wrong_sign iterative o_direct default_config].
  destruct (Rlt_dec (9 / 10) 1) as [_|]; [|lra].
  cbn [vscale map nth o_slope wrong_sign].
  replace (- (1) * -1) with 1 by ring. replace (1 * (- (1) * 1)) with (- (1)) by ring. replace (1 ^ 2 / 2) with (1 / 2) by field.
  unfold is_positive. destruct (Rlt_dec 0 (- (1))); [lra|].
  fold default_config. rewrite Hr. unfold after_search. cbn [andb iterative default_config].
  assert (Hd : dumps_debug_data true r = true).
  { unfold dumps_debug_data. destruct (Rlt_dec (ls_alpha r) alpha_min); [|lra]. cbn [andb]. apply Nat.ltb_lt, Hc. }
  rewrite Hd. destruct files; cbn [wrong_sign o_files negb andb]; [|reflexivity].
  cbn [o_converged app max_iter]. unfold all_restored. cbn [combine forallb]. rewrite andb_true_r.
  change (o_converged (wrong_sign true conv) 1 [] [1] (ls_x r)) with (conv [1] (ls_x r)). destruct (conv [1] (ls_x r)); reflexivity.
Qed.

(** Residual [r(x) = x] with the right Jacobian, [conv] decides convergence. *)
Definition linear_env_with (conv : vec -> vec -> bool) (go : bool) : env :=
  Env (fun _ _ => go) true false (fun _ _ x => Some (nth 0 x 0 ^ 2 / 2)) (fun _ => 1) (fun _ _ x _ => Some [nth 0 x 0])
    (fun _ _ x => Solution (Some [nth 0 x 0])) (fun _ _ x p => Some (nth 0 x 0 * nth 0 p 0))
    (fun _ _ _ x => Some (nth 0 x 0 ^ 2 / 2)) (fun _ _ _ x => Some (nth 0 x 0 ^ 2)) (fun _ _ => 1) (fun _ _ _ _ => 1)
    (fun _ _ x y => conv x y) (fun _ => None) (fun _ _ x => Some (nth 0 x 0 ^ 2 / 2)) (fun _ => false).
Definition linear_env (conv go : bool) : env := linear_env_with (fun _ _ => conv) go.

Definition linear_entry (tol : R) (eps : vec) : entry := Entry [1] [-1] (Some (-1)) (1 / 2) tol eps 1 1 true [0] (Some 0).

Lemma linear_search fuel it eps tol iter ad conv go mi :
  0 <= tol < 1 ->
  line_search_step fuel (linear_env_with conv go) (Config mi (BackTracking (/ 10000) (9 / 10)) ad iter false) it eps tol [1] [-1] (1 / 2) (Some (-1)) =
    Some (LsResult true 1 1 [0] (Some 0), false).
Proof.
  intros Ht. unfold line_search_step. cbn [step_factor search]. destruct (Rlt_dec (9 / 10) 1); [|lra].
  cbv zeta. cbn [vstep combine map fst snd]. replace (-1 * 1 + 1) with 0 by ring.
  assert (T : test_alpha (Config mi (BackTracking (/ 10000) (9 / 10)) ad iter false) tol (o_residual_sq (linear_env_with conv go) it 1 eps [0])
     (o_residual_sq (linear_env_with conv go) it 0 eps [1]) (o_merit (linear_env_with conv go) it 0 eps [0]) (1 / 2) (Some (-1)) 1 = true).
  { unfold test_alpha. cbn [iterative use_obj_merit search armijo_coeff option_map linear_env_with o_merit nth]. destruct iter; cbn [ole].
    - destruct (Rle_dec _ _) as [|H]; [reflexivity|]. exfalso. apply H. match goal with |- _ <= 1 / 2 * ?f * ?f => pose proof (Rle_0_sqr f) as Hq; unfold Rsqr in Hq end. lra.
    - destruct (Rle_dec _ _) as [|H]; [reflexivity|]. exfalso. apply H. lra. }
  rewrite T. cbn [linear_env_with o_merit nth]. replace (0 ^ 2 / 2) with 0 by field. reflexivity.
Qed.

Lemma linear_solve_with ls_fuel conv ad iter prev eps tol : 0 < tol < 1 -> (ad = true -> prev = 3%nat) ->
  newton_solve ls_fuel (linear_env_with conv true) (Config 1 (BackTracking (/ 10000) (9 / 10)) ad iter false) prev [1] eps tol =
    Result (Ended (if conv [1] [0] then Success else MaximumIterationsExceeded)) 1 [0] eps tol 1 [linear_entry (if iter then forcing_term tol tol 1 else tol) eps].
Proof.
  intros Ht Had.
  assert (Ee : (if ad then map (initial_epsilon prev) eps else eps) = eps).
  { destruct ad; [|reflexivity]. rewrite (Had eq_refl). rewrite <- (map_id eps) at 2. apply map_ext. intros a. reflexivity. }
  unfold newton_solve. cbn [adaptive]. rewrite Ee.
  change (o_pattern_ok (linear_env_with conv true)) with true. change (o_pattern_empty (linear_env_with conv true)) with false. cbn [negb].
  change (initial_guess 10 _ eps 0 [1]) with ([1], Some (1 ^ 2 / 2), 1%nat). cbv iota beta.
  change (Nat.max 1 _) with 1%nat. cbn [newton_loop].
  unfold newton_iteration. change (o_callback (linear_env_with conv true) 0 [1]) with true. cbn [negb iterative search step_factor].
  set (tol1 := if iter then forcing_term tol tol _ else tol).
  assert (H1 : 0 <= tol1 < 1).
  { subst tol1. destruct iter; [|lra]. match goal with |- context [forcing_term tol tol ?q] => pose proof (forcing_term_range tol tol q) as H end.
    assert (0 <= Rmin tol eps32). { apply Rmin_glb; [lra|]. unfold eps32. left. apply Rinv_0_lt_compat. lra. } lra. }
  replace (linear_solve _ _ 0 eps [1] tol1) with (Solution (Some [1])) by (unfold linear_solve; destruct iter; reflexivity).
  destruct (Rlt_dec (9 / 10) 1) as [_|]; [|lra].
  cbn [vscale map]. change (o_slope (linear_env_with conv true) 0 eps [1] [1 * -1]) with (Some (1 * (1 * -1))). replace (1 * (1 * -1)) with (-1) by ring. replace (1 * -1) with (-1) by ring.
  unfold is_positive. destruct (Rlt_dec 0 (-1)); [lra|].
  replace (1 ^ 2 / 2) with (1 / 2) by field.
  rewrite (linear_search ls_fuel 0 eps tol1 iter ad conv true 1 H1).
  unfold after_search. cbn [andb dumps_debug_data ls_x ls_alpha ls_count ls_accepted ls_merit app].
  change (o_converged _ 1 eps [1] [0]) with (conv [1] [0]).
  replace (all_restored eps eps) with true.
  2:{ symmetry. unfold all_restored. clear. induction eps as [|a l IH]; [reflexivity|]. cbn [combine forallb fst snd]. rewrite IH. destruct (Req_EM_T a a); [reflexivity|congruence]. }
  rewrite andb_true_r. unfold linear_entry, finish. subst tol1. cbn [o_ratio].
  destruct (conv [1] [0]); [|change (Nat.leb _ 1) with true; cbv iota]; destruct iter; reflexivity.
Qed.

Lemma linear_solve_example ls_fuel conv ad iter prev eps tol : 0 < tol < 1 -> (ad = true -> prev = 3%nat) ->
  newton_solve ls_fuel (linear_env conv true) (Config 1 (BackTracking (/ 10000) (9 / 10)) ad iter false) prev [1] eps tol =
    Result (Ended (if conv then Success else MaximumIterationsExceeded)) 1 [0] eps tol 1 [linear_entry (if iter then forcing_term tol tol 1 else tol) eps].
Proof. exact (linear_solve_with ls_fuel (fun _ _ => conv) ad iter prev eps tol). Qed.

(** Objective [x - x^2/2 + 15001/10000 x^4] minimised from 0, where its second derivative is negative. *)
Definition saddle (x : R) : R := x - x ^ 2 / 2 + 15001 / 10000 * x ^ 4.
Definition saddle' (x : R) : R := 1 - x + 15001 / 2500 * x ^ 3.
Definition saddle'' (x : R) : R := -1 + 45003 / 2500 * x ^ 2.
Definition saddle_env : env :=
  Env (fun _ _ => true) true false (fun _ _ x => Some (saddle (nth 0 x 0))) (fun _ => 1) (fun _ _ _ _ => None)
    (fun _ _ x => Solution (Some [saddle' (nth 0 x 0) / saddle'' (nth 0 x 0)])) (fun _ _ x p => Some (saddle' (nth 0 x 0) * nth 0 p 0))
    (fun _ _ _ x => Some (saddle (nth 0 x 0))) (fun _ _ _ x => Some (saddle' (nth 0 x 0) ^ 2)) (fun _ _ => 1) (fun _ _ _ _ => 1)
    (fun _ _ x y => false) (fun _ => None) (fun _ _ x => Some (saddle (nth 0 x 0))) (fun _ => false).
Definition saddle_config : config := Config 1 (BackTracking (/ 10000) (9 / 10)) false false true.

Lemma saddle_solve ls_fuel tol :
  newton_solve ls_fuel saddle_env saddle_config 1 [0] [] tol =
    Result (Ended MaximumIterationsExceeded) 1 [-1] [] tol 1 [Entry [0] [-1] (Some 1) 0 tol [] 1 1 true [-1] (Some (/ 10000))].
Proof.
  rewrite (solve_one ls_fuel saddle_env saddle_config 1 0 [] [] tol [0] (Some (saddle 0)) 1) by reflexivity.
  unfold newton_iteration. change (o_callback saddle_env 0 [0]) with true. cbn [negb].
  change (iterative saddle_config) with false. cbv iota zeta.
  change (linear_solve saddle_env saddle_config 0 [] [0] tol) with (Solution (Some [saddle' 0 / saddle'' 0])). cbv iota.
  change (step_factor (search saddle_config)) with (9 / 10). destruct (Rlt_dec (9 / 10) 1) as [_|]; [|lra]. cbn [vscale map].
  change (o_slope saddle_env 0 [] [0] [saddle' 0 / saddle'' 0 * -1]) with (Some (saddle' 0 * (saddle' 0 / saddle'' 0 * -1))).
  replace (saddle' 0 / saddle'' 0 * -1) with 1 by (unfold saddle', saddle''; field).
  replace (saddle' 0 * 1) with 1 by (unfold saddle'; ring).
  unfold is_positive. destruct (Rlt_dec 0 1); [|lra]. replace (1 * -1) with (-1) by ring. replace (saddle 0) with 0 by (unfold saddle; field).
  assert (S : line_search_step ls_fuel saddle_env saddle_config 0 [] tol [0] [-1] 0 (Some 1) = Some (LsResult true 1 1 [-1] (Some (/ 10000)), false)).
  { unfold line_search_step. cbn [saddle_config search step_factor]. destruct (Rlt_dec (9 / 10) 1); [|lra]. cbv zeta. cbn [vstep combine map fst snd].
    replace (-1 * 1 + 0) with (-1) by ring. cbn [saddle_env o_merit nth]. replace (saddle (-1)) with (/ 10000) by (unfold saddle; field).
    unfold test_alpha. cbn [iterative search armijo_coeff option_map ole]. destruct (Rle_dec _ _) as [|H]; [reflexivity|]. exfalso. apply H. cbn [saddle_config search armijo_coeff]. lra. }
  rewrite S. reflexivity.
Qed.
