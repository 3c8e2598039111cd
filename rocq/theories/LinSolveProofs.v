(** Proofs for the iterative linear solvers. *)
From Coq Require Import Reals List Arith Bool Lra Lia Psatz.
From Verif Require Import RList LinSolveModel LinSolveSpec.
Import ListNotations.
Local Open Scope R_scope.

Lemma axpy_length a x b y n : length x = n -> length y = n -> length (axpy a x b y) = n.
Proof. intros H1 H2. unfold axpy. rewrite map_length, combine_length. lia. Qed.
Lemma axpy_nth a x b y i : length x = length y -> nth i (axpy a x b y) 0 = a * nth i x 0 + b * nth i y 0.
Proof.
  revert y i. induction x as [|x0 x IH]; intros [|y0 y] i H; simpl in *; try discriminate.
  - destruct i; ring.
  - destruct i; [reflexivity|]. apply IH. lia.
Qed.
Lemma list_eq (x y : list R) : length x = length y -> (forall i, (i < length x)%nat -> nth i x 0 = nth i y 0) -> x = y.
Proof. intros H1 H2. apply nth_ext with 0 0; assumption. Qed.
Lemma linear_axpy n A a x b y : linear_on n A -> length x = n -> length y = n -> A (axpy a x b y) = axpy a (A x) b (A y).
Proof.
  intros [HL HA] Hx Hy. apply list_eq.
  - rewrite HL by (apply axpy_length; assumption). symmetry. apply axpy_length; apply HL; assumption.
  - intros i Hi. rewrite axpy_nth by (rewrite !HL; auto). apply HA; assumption.
Qed.
Lemma dot_cons a x b y : dot (a :: x) (b :: y) = a * b + dot x y.
Proof. unfold dot. simpl. apply rsum_cons. Qed.
Lemma dot_axpy_l a x b y z : length x = length y -> length y = length z -> dot (axpy a x b y) z = a * dot x z + b * dot y z.
Proof.
  revert y z. induction x as [|x0 x IH]; intros [|y0 y] [|z0 z] H1 H2; simpl in *; try discriminate.
  - unfold dot; simpl. rewrite rsum_nil. ring.
  - change (axpy a (x0 :: x) b (y0 :: y)) with ((a * x0 + b * y0) :: axpy a x b y). rewrite !dot_cons, IH by lia. ring.
Qed.
Lemma dot_comm x y : length x = length y -> dot x y = dot y x.
Proof.
  revert y. induction x as [|x0 x IH]; intros [|y0 y] H; simpl in *; try discriminate; [reflexivity|].
  rewrite !dot_cons, IH by lia. ring.
Qed.
Lemma dot_axpy_r a x b y z : length x = length y -> length y = length z -> dot z (axpy a x b y) = a * dot z x + b * dot z y.
Proof.
  intros H1 H2. assert (length (axpy a x b y) = length z) by (apply axpy_length; lia).
  rewrite dot_comm by lia. rewrite dot_axpy_l by lia. rewrite (dot_comm x z), (dot_comm y z) by lia. reflexivity.
Qed.
Lemma dot_self_nonneg x : 0 <= dot x x.
Proof. induction x as [|a x IH]; [unfold dot; simpl; rewrite rsum_nil; lra|]. rewrite dot_cons. nra. Qed.
Lemma norm_diff b y : length y = length b -> norm_squared (axpy (- (1)) y 1 b) = sq_diff b y.
Proof.
  revert y. induction b as [|b0 b IH]; intros [|y0 y] H; simpl in *; try discriminate; [reflexivity|].
  unfold norm_squared in *. change (axpy (- (1)) (y0 :: y) 1 (b0 :: b)) with ((- (1) * y0 + 1 * b0) :: axpy (- (1)) y 1 b).
  rewrite dot_cons, IH by lia. ring.
Qed.
Lemma norm_sq_norm b : norm_squared b = sq_norm b.
Proof. unfold norm_squared. induction b as [|b0 b IH]; [reflexivity|]. rewrite dot_cons, IH. simpl. ring. Qed.
Lemma sq_diff_comm b y : length y = length b -> sq_diff b y = sq_diff y b.
Proof. revert y. induction b as [|b0 b IH]; intros [|y0 y] H; simpl in *; try discriminate; [reflexivity|]. rewrite IH by lia. ring. Qed.

(** The tracked residual after an update along [p]. *)
Lemma residual_update n A x p b c : linear_on n A -> length x = n -> length p = n -> length b = n ->
  axpy (- c) (A p) 1 (axpy (- (1)) (A x) 1 b) = axpy (- (1)) (A (axpy c p 1 x)) 1 b.
Proof.
  intros HA Hx Hp Hb. pose proof (proj1 HA) as HL. rewrite (linear_axpy n A) by assumption.
  assert (L1 : length (A x) = n) by auto. assert (L2 : length (A p) = n) by auto.
  assert (L3 : length (axpy (- (1)) (A x) 1 b) = n) by (apply axpy_length; auto).
  assert (L4 : length (axpy c (A p) 1 (A x)) = n) by (apply axpy_length; auto).
  apply list_eq.
  - rewrite !(axpy_length _ _ _ _ n); auto.
  - intros i _. rewrite !axpy_nth by lia. ring.
Qed.
(** [b - A x] recomputed by the restart. *)
Lemma residual_restart n A x b : linear_on n A -> length x = n -> length b = n -> axpy 1 b (- (1)) (A x) = axpy (- (1)) (A x) 1 b.
Proof.
  intros HA Hx Hb. pose proof (proj1 HA x Hx) as HL. apply list_eq.
  - rewrite !(axpy_length _ _ _ _ n); auto.
  - intros i _. rewrite !axpy_nth by lia. ring.
Qed.

(** Conjugate residuals. *)
Section CR.
Variables (n : nat) (mv : operator) (A : list R -> list R) (b : list R).
Hypotheses (HA : linear_on n A) (Hmv : computes n mv A) (Hb : length b = n).

Definition cr_good (max_iter : nat) (tol r0 : R) (res : lin_result) : Prop :=
  lin_status_of res <> LinOutOfFuel /\
  (lin_iterations res <= Nat.max 1 max_iter)%nat /\
  (lin_status_of res <> LinNan -> exists x, lin_x res = Some x /\ length x = n /\
     lin_residual res = sqrt (sq_diff b (A x)) /\ sq_diff b (A x) <= r0) /\
  (lin_status_of res = LinSuccess -> (0 < lin_iterations res)%nat /\ exists x, lin_x res = Some x /\ sq_diff b (A x) < tol * tol * sq_norm b) /\
  (lin_status_of res = LinMaxIter -> (max_iter <= lin_iterations res)%nat).

Lemma cr_loop_good fuel k max_iter tol iterations x r p Ar Ap rAr r0 :
  (0 < fuel)%nat -> (iterations = 0 \/ iterations < max_iter)%nat -> (max_iter - iterations <= fuel)%nat ->
  length x = n -> length p = n -> length Ar = n -> r = axpy (- (1)) (A x) 1 b -> Ap = A p -> dot r Ap = rAr -> norm_squared r <= r0 ->
  cr_good max_iter tol r0 (cr_loop fuel mv k max_iter tol (norm_squared b) iterations x r p Ar Ap rAr).
Proof.
  revert k iterations x r p Ar Ap rAr. induction fuel as [|fuel IH]; intros k it x r p Ar Ap rAr Hf Hit Hfm Hx Hp HAr Er EAp Ed Hr0; [lia|].
  simpl cr_loop. destruct (Req_EM_T (dot Ap Ap) 0) as [E0|E0].
  { split; [simpl; discriminate|]. split; [cbn [lin_iterations]; lia|]. split; [simpl; congruence|split; simpl; discriminate]. }
  set (alpha := rAr / dot Ap Ap). set (x' := axpy alpha p 1 x). set (r' := axpy (- alpha) Ap 1 r).
  pose proof (proj1 HA) as HL.
  assert (LAp : length Ap = n) by (subst Ap; auto).
  assert (Lr : length r = n) by (subst r; apply axpy_length; auto).
  assert (Lx' : length x' = n) by (apply axpy_length; auto).
  assert (Lr' : length r' = n) by (apply axpy_length; auto).
  assert (Er' : r' = axpy (- (1)) (A x') 1 b). { unfold r', x'. subst r Ap. apply (residual_update n); auto. }
  assert (Dpos : 0 < dot Ap Ap) by (pose proof (dot_self_nonneg Ap); lra).
  assert (Horth : dot r' Ap = 0).
  { unfold r'. rewrite dot_axpy_l by lia. rewrite Ed. unfold alpha. field. lra. }
  assert (Hdec : norm_squared r' <= norm_squared r).
  { unfold norm_squared. unfold r' at 2. rewrite dot_axpy_r by lia. rewrite Horth. unfold r'. rewrite dot_axpy_l by lia.
    rewrite (dot_comm Ap r) by lia. rewrite Ed. unfold alpha.
    assert (0 <= rAr / dot Ap Ap * rAr). { unfold Rdiv. rewrite Rmult_comm, <- Rmult_assoc. apply Rmult_le_pos; [nra|]. left. apply Rinv_0_lt_compat. exact Dpos. }
    lra. }
  assert (Hn : norm_squared r' = sq_diff b (A x')). { rewrite Er'. apply norm_diff. rewrite HL; auto. }
  destruct (Rlt_dec _ _) as [Hs|Hs].
  { split; [simpl; discriminate|]. split; [cbn [lin_iterations]; lia|]. split; [|split].
    - intros _. exists x'. simpl. split; [reflexivity|]. split; [exact Lx'|]. rewrite Hn. split; [reflexivity|]. lra.
    - intros _. simpl. split; [lia|]. exists x'. split; [reflexivity|]. rewrite <- Hn. rewrite <- norm_sq_norm. exact Hs.
    - simpl. discriminate. }
  destruct (Nat.leb_spec max_iter (S it)) as [Hm|Hm].
  { split; [simpl; discriminate|]. split; [cbn [lin_iterations]; lia|]. split; [|split; simpl; [discriminate|intros _; exact Hm]].
    intros _. exists x'. simpl. split; [reflexivity|]. split; [exact Lx'|]. rewrite Hn. split; [reflexivity|]. lra. }
  destruct (mv k r' Ar) as [Ar' go] eqn:Em. assert (EAr : Ar' = A r') by (rewrite <- (Hmv k r' Ar Lr' HAr), Em; reflexivity).
  destruct go; simpl negb; cbv iota.
  2:{ split; [simpl; discriminate|]. split; [cbn [lin_iterations]; lia|]. split; [|split; simpl; discriminate].
      intros _. exists x'. simpl. split; [reflexivity|]. split; [exact Lx'|]. rewrite Hn. split; [reflexivity|]. lra. }
  destruct (Req_EM_T rAr 0) as [Ez|Ez].
  { split; [simpl; discriminate|]. split; [cbn [lin_iterations]; lia|]. split; [simpl; congruence|split; simpl; discriminate]. }
  assert (LAr' : length Ar' = n) by (subst Ar'; auto).
  apply IH; try lia; auto.
  - apply axpy_length; auto.
  - subst Ap Ar'. symmetry. apply (linear_axpy n); auto.
  - rewrite dot_axpy_r by lia. rewrite Horth. ring.
  - lra.
Qed.
Lemma cr_solve_good max_iter tol p0 Ar0 Ap0 x : length p0 = n -> length Ar0 = n -> length x = n ->
  let res := cr_solve mv max_iter tol p0 Ar0 Ap0 x b in
  lin_status_of res <> LinOutOfFuel /\ (lin_iterations res <= Nat.max 1 max_iter)%nat /\
  (lin_status_of res = LinSuccess -> exists x', lin_x res = Some x' /\ lin_residual res = sqrt (sq_diff b (A x')) /\
     ((lin_iterations res = 0%nat /\ x' = x /\ sq_diff b (A x') <= eps64 * eps64) \/ sq_diff b (A x') < tol * tol * sq_norm b)) /\
  (lin_status_of res = LinMaxIter -> (max_iter <= lin_iterations res)%nat) /\
  (lin_status_of res = LinNan \/ (lin_status_of res = LinInterrupted /\ lin_iterations res = 0%nat /\ lin_x res = Some x) \/
   exists x', lin_x res = Some x' /\ lin_residual res = sqrt (sq_diff b (A x')) /\ sq_diff b (A x') <= sq_diff b (A x)).
Proof.
  intros Hp0 HAr0 Hx res. unfold res, cr_solve. pose proof (proj1 HA) as HL.
  destruct (mv 0%nat x p0) as [p go] eqn:Em. assert (Ep : p = A x) by (rewrite <- (Hmv 0%nat x p0 Hx Hp0), Em; reflexivity).
  destruct go; simpl negb; cbv iota.
  2:{ simpl. split; [discriminate|]. split; [lia|]. split; [discriminate|]. split; [discriminate|]. right; left. split; [reflexivity|]. split; reflexivity. }
  set (r := axpy (- (1)) p 1 b).
  assert (Lr : length r = n) by (apply axpy_length; subst; auto).
  assert (Hn : norm_squared r = sq_diff b (A x)). { unfold r. subst p. apply norm_diff. rewrite HL; auto. }
  destruct (Rle_dec _ _) as [Hs|Hs].
  { simpl. split; [discriminate|]. split; [lia|]. split.
    - intros _. exists x. split; [reflexivity|]. split; [rewrite Hn; reflexivity|]. left. split; [reflexivity|]. split; [reflexivity|lra].
    - split; [discriminate|]. right; right. exists x. split; [reflexivity|]. split; [rewrite Hn; reflexivity|lra]. }
  destruct (mv 1%nat r Ar0) as [Ar go] eqn:Em1. assert (EAr : Ar = A r) by (rewrite <- (Hmv 1%nat r Ar0 Lr HAr0), Em1; reflexivity).
  assert (LAr : length Ar = n) by (subst Ar; auto).
  pose proof (cr_loop_good (S max_iter) 2 max_iter tol 0 x r r Ar Ar (dot r Ar) (norm_squared r)) as G.
  destruct G as [G1 [G2 [G3 [G4 G5]]]]; try lia; auto; try lra. { unfold r. subst p. reflexivity. }
  remember (cr_loop (S max_iter) mv 2 max_iter tol (norm_squared b) 0 x r r Ar Ar (dot r Ar)) as res' eqn:Eres. clear Eres.
  split; [exact G1|]. split; [exact G2|]. split; [|split; [exact G5|]].
  - intros Hst. destruct (G4 Hst) as [_ [x' [Hx1 Hx2]]]. destruct (G3 ltac:(rewrite Hst; discriminate)) as [x'' [Hy1 [Hy2 [Hy3 _]]]].
    rewrite Hx1 in Hy1. injection Hy1 as <-. exists x'. split; [exact Hx1|]. split; [exact Hy3|right; exact Hx2].
  - destruct (lin_status_of res') eqn:Es; try (left; reflexivity); right; right;
      (destruct (G3 ltac:(congruence)) as [x'' [Hy1 [Hy2 [Hy3 Hy4]]]]; exists x''; split; [exact Hy1|split; [exact Hy3|rewrite <- Hn; exact Hy4]]).
Qed.

(** BiCGSTAB: as long as the residual is kept (either the corrected restart, or no restart of the first kind happened). *)
Definition bi_good (restore : bool) (max_iter start : nat) (tol_sq : R) (res : lin_result) : Prop :=
  lin_status_of res <> LinOutOfFuel /\
  (lin_iterations res <= Nat.max start max_iter)%nat /\
  (lin_status_of res = LinMaxIter -> (max_iter <= lin_iterations res)%nat) /\
  (restore = true \/ lin_restarts res = 0%nat -> lin_status_of res = LinSuccess -> 
    exists x, lin_x res = Some x /\ lin_residual res = sqrt (sq_diff b (A x)) /\ sq_diff b (A x) <= tol_sq).

Lemma bicgstab_loop_good restore fuel pc k max_iter tol_sq it rs x r r0s p t v y z rho q1 q2 :
  (forall a o, length a = n -> length (pc a o) = n) ->
  (1 <= it)%nat -> (0 < fuel)%nat -> (it = 1 \/ it <= max_iter)%nat -> (S max_iter - it <= fuel)%nat ->
  length x = n -> length r = n -> length p = n -> length t = n -> length y = n -> length r0s = n -> v = A y ->
  (restore = true \/ rs = 0%nat -> r = axpy (- (1)) (A x) 1 b) ->
  bi_good restore max_iter 1 tol_sq (bicgstab_loop restore fuel mv pc k max_iter tol_sq it rs b x r r0s p t v y z rho q1 q2).
Proof.
  intros Hpc. revert k it rs x r r0s p t v y z rho q1 q2.
  pose proof (proj1 HA) as HL.
  induction fuel as [|fuel IH]; intros k it rs x r r0s p t v y z rho q1 q2 Hit Hf Hit2 Hfm Lx Lr Lp Lt Ly Lr0 Ev Hinv; [lia|].
  assert (Lv : length v = n) by (subst v; auto).
  simpl bicgstab_loop.
  set (restart := if Rle_dec (Rabs (dot r0s v)) (eps64 * eps64 * q1) then true else false). clearbody restart.
  destruct (if restart then mv k x r else (r, true)) as [Ax go] eqn:E1.
  destruct go; simpl negb; cbv iota.
  2:{ split; [simpl; discriminate|]. split; [cbn [lin_iterations]; lia|]. split; simpl; [discriminate|intros _; discriminate]. }
  set (r1 := if restart then (if restore then axpy 1 b (- (1)) Ax else Ax) else r).
  set (rs1 := if restart then S rs else rs). set (r0s1 := if restart then v else r0s).
  set (r0sTv := if restart then norm_squared r0s1 else dot r0s v). set (q1' := if restart then r0sTv else q1).
  assert (Lr1 : length r1 = n).
  { unfold r1. destruct restart; [|exact Lr].
    assert (Ax = A x) by (rewrite <- (Hmv k x r Lx Lr), E1; reflexivity). subst Ax.
    destruct restore; [apply axpy_length|]; auto. }
  assert (Lr01 : length r0s1 = n) by (unfold r0s1; destruct restart; auto).
  assert (Hinv1 : restore = true \/ rs1 = 0%nat -> r1 = axpy (- (1)) (A x) 1 b).
  { unfold rs1, r1. destruct restart; [|exact Hinv].
    assert (Ax = A x) by (rewrite <- (Hmv k x r Lx Lr), E1; reflexivity). subst Ax.
    intros [->|]; [apply (residual_restart n); auto|discriminate]. }
  set (k1 := if restart then S k else k). clearbody r1 rs1 r0s1 r0sTv q1' k1.
  destruct (Req_EM_T r0sTv 0) as [E0|E0].
  { split; [simpl; discriminate|]. split; [cbn [lin_iterations]; lia|]. split; simpl; [discriminate|intros _; discriminate]. }
  set (alpha := rho / r0sTv). clearbody alpha.
  set (r2 := axpy (- alpha) v 1 r1). set (x2 := axpy alpha y 1 x).
  assert (Lr2 : length r2 = n) by (apply axpy_length; auto). assert (Lx2 : length x2 = n) by (apply axpy_length; auto).
  assert (Hinv2 : restore = true \/ rs1 = 0%nat -> r2 = axpy (- (1)) (A x2) 1 b).
  { intros Hk. unfold r2, x2. rewrite (Hinv1 Hk), Ev. apply (residual_update n); auto. }
  assert (Hn2 : restore = true \/ rs1 = 0%nat -> norm_squared r2 = sq_diff b (A x2)).
  { intros Hk. rewrite (Hinv2 Hk). apply norm_diff. rewrite HL; auto. }
  clearbody r2 x2.
  destruct (Rle_dec (norm_squared r2) tol_sq) as [Hs|Hs].
  { split; [simpl; discriminate|]. split; [cbn [lin_iterations]; lia|]. split; simpl; [discriminate|].
    intros Hk _. exists x2. split; [reflexivity|]. rewrite (Hn2 Hk) in *. split; [reflexivity|exact Hs]. }
  set (z2 := pc r2 z). assert (Lz2 : length z2 = n) by (apply Hpc, Lr2). clearbody z2.
  destruct (mv k1 z2 t) as [t2 go] eqn:E2. assert (Et2 : t2 = A z2) by (rewrite <- (Hmv k1 z2 t Lz2 Lt), E2; reflexivity).
  assert (Lt2 : length t2 = n) by (subst t2; auto).
  destruct go; simpl negb; cbv iota.
  2:{ split; [simpl; discriminate|]. split; [cbn [lin_iterations]; lia|]. split; simpl; [discriminate|intros _; discriminate]. }
  destruct (Rle_dec (dot t2 t2) 0) as [Ht|Ht].
  { split; [simpl; discriminate|]. split; [cbn [lin_iterations]; lia|]. split; simpl; [discriminate|intros _; discriminate]. }
  set (w := dot r2 t2 / dot t2 t2). clearbody w.
  set (x3 := axpy w z2 1 x2). set (r3 := axpy (- w) t2 1 r2).
  assert (Lr3 : length r3 = n) by (apply axpy_length; auto). assert (Lx3 : length x3 = n) by (apply axpy_length; auto).
  assert (Hinv3 : restore = true \/ rs1 = 0%nat -> r3 = axpy (- (1)) (A x3) 1 b).
  { intros Hk. unfold r3, x3. rewrite (Hinv2 Hk), Et2. apply (residual_update n); auto. }
  assert (Hn3 : restore = true \/ rs1 = 0%nat -> norm_squared r3 = sq_diff b (A x3)).
  { intros Hk. rewrite (Hinv3 Hk). apply norm_diff. rewrite HL; auto. }
  clearbody r3 x3.
  destruct (Rle_dec (norm_squared r3) tol_sq) as [Hs3|Hs3].
  { split; [simpl; discriminate|]. split; [cbn [lin_iterations]; lia|]. split; simpl; [discriminate|].
    intros Hk _. exists x3. split; [reflexivity|]. rewrite (Hn3 Hk) in *. split; [reflexivity|exact Hs3]. }
  destruct (Nat.leb_spec max_iter it) as [Hm|Hm].
  { split; [simpl; discriminate|]. split; [cbn [lin_iterations]; lia|]. split; simpl; [intros _; exact Hm|intros _; discriminate]. }
  set (reset := if Rle_dec (Rabs (dot r0s1 r3)) (eps64 * eps64 * q1') then true else false). clearbody reset.
  destruct (if reset then mv (S k1) x3 r3 else (r3, true)) as [Ax3 go] eqn:E3.
  destruct go; simpl negb; cbv iota.
  2:{ split; [simpl; discriminate|]. split; [cbn [lin_iterations]; lia|]. split; simpl; [discriminate|intros _; discriminate]. }
  set (r4 := if reset then axpy 1 b (- (1)) Ax3 else r3).
  assert (Lr4 : length r4 = n /\ (restore = true \/ rs1 = 0%nat -> r4 = axpy (- (1)) (A x3) 1 b)).
  { unfold r4. destruct reset; [|split; [exact Lr3|exact Hinv3]].
    assert (Ax3 = A x3) by (rewrite <- (Hmv (S k1) x3 r3 Lx3 Lr3), E3; reflexivity). subst Ax3.
    split; [apply axpy_length; auto|]. intros _. apply (residual_restart n); auto. }
  destruct Lr4 as [Lr4 Hinv4].
  set (r0s4 := if reset then r4 else r0s1). assert (Lr04 : length r0s4 = n) by (unfold r0s4; destruct reset; assumption).
  set (rho4 := if reset then norm_squared r0s4 else dot r0s1 r3). set (q4 := if reset then rho4 else q1').
  set (k4 := if reset then S (S k1) else S k1). clearbody k4 q4 rho4 r0s4 r4.
  destruct (Req_EM_T rho 0) as [Er|Er].
  { split; [simpl; discriminate|]. split; [cbn [lin_iterations]; lia|]. split; simpl; [discriminate|intros _; discriminate]. }
  destruct (Req_EM_T w 0) as [Ew|Ew].
  { split; [simpl; discriminate|]. split; [cbn [lin_iterations]; lia|]. split; simpl; [discriminate|intros _; discriminate]. }
  set (p4 := axpy 1 r4 (rho4 / rho * (alpha / w)) (axpy (- w) v 1 p)).
  assert (Lp4 : length p4 = n) by (apply axpy_length; [exact Lr4|apply axpy_length; auto]). clearbody p4.
  set (y4 := pc p4 y). assert (Ly4 : length y4 = n) by (apply Hpc, Lp4). clearbody y4.
  destruct (mv k4 y4 v) as [v4 go] eqn:E4. assert (Ev4 : v4 = A y4) by (rewrite <- (Hmv k4 y4 v Ly4 Lv), E4; reflexivity).
  destruct go; simpl negb; cbv iota.
  2:{ split; [simpl; discriminate|]. split; [cbn [lin_iterations]; lia|]. split; simpl; [discriminate|intros _; discriminate]. }
  apply IH; auto; lia.
Qed.

Lemma bicgstab_solve_good restore pc max_iter tol ws x :
  (forall a o, length a = n -> length (pc a o) = n) ->
  length (ws_p ws) = n -> length (ws_v ws) = n -> length (ws_t ws) = n -> length x = n ->
  linear_on n A ->
  let res := bicgstab_solve restore mv pc max_iter tol ws x b in
  lin_status_of res <> LinOutOfFuel /\ (lin_iterations res <= Nat.max 1 max_iter)%nat /\
  (lin_status_of res = LinMaxIter -> (max_iter <= lin_iterations res)%nat) /\
  (restore = true \/ lin_restarts res = 0%nat -> lin_status_of res = LinSuccess ->
    exists x', lin_x res = Some x' /\ lin_residual res = sqrt (sq_diff b (A x')) /\ sq_diff b (A x') <= sq_norm b * (tol * tol)).
Proof.
  intros Hpc Lwp Lwv Lwt Lx _ res. unfold res, bicgstab_solve. pose proof (proj1 HA) as HL.
  destruct (Req_EM_T (norm_squared b) 0) as [E0|E0].
  { simpl. split; [discriminate|]. split; [lia|]. split; [discriminate|]. intros _ _.
    assert (Hz : forall i, nth i b 0 = 0).
    { assert (Hs : sq_norm b = 0) by (rewrite <- norm_sq_norm; exact E0). clear E0 Hb res.
      induction b as [|b0 b' IHb]; intros i; [destruct i; reflexivity|]. simpl in Hs.
      assert (Hb' : 0 <= sq_norm b') by (rewrite <- norm_sq_norm; apply dot_self_nonneg).
      assert (b0 = 0) by nra. destruct i; [assumption|]. simpl. apply IHb. nra. }
    set (x0 := map (fun _ => 0) x). assert (Lx0 : length x0 = n) by (unfold x0; rewrite map_length; exact Lx).
    assert (HA0 : A x0 = b).
    { apply list_eq; [rewrite HL; auto|]. intros i _. rewrite Hz.
      assert (Ex : x0 = map (fun p => 0 * fst p + 0 * snd p) (combine x0 x0)).
      { apply list_eq; [rewrite map_length, combine_length; lia|]. intros j Hj.
        change (map (fun p => 0 * fst p + 0 * snd p) (combine x0 x0)) with (axpy 0 x0 0 x0).
        rewrite axpy_nth by reflexivity.
        assert (Hn0 : nth j x0 0 = 0). { unfold x0. exact (map_nth (fun _ => 0) x 0 j). }
        rewrite Hn0. ring. }
      rewrite Ex. rewrite (proj2 HA) by assumption. ring. }
    assert (Hd : forall c : list R, sq_diff c c = 0). { induction c as [|c0 c IHc]; simpl; [reflexivity|rewrite IHc; ring]. }
    exists x0. split; [reflexivity|]. rewrite HA0, Hd, <- norm_sq_norm, E0. split; [symmetry; apply sqrt_0|lra]. }
  destruct (mv 0%nat x (ws_p ws)) as [p go] eqn:E1. assert (Ep : p = A x) by (rewrite <- (Hmv 0%nat x (ws_p ws) Lx Lwp), E1; reflexivity).
  destruct go; simpl negb; cbv iota.
  2:{ simpl. split; [discriminate|]. split; [lia|]. split; [discriminate|intros _; discriminate]. }
  assert (Lr : length (axpy (- (1)) p 1 b) = n) by (apply axpy_length; subst; auto).
  set (r := axpy (- (1)) p 1 b) in *.
  assert (Er : r = axpy (- (1)) (A x) 1 b) by (unfold r; rewrite Ep; reflexivity). clearbody r.
  set (y := pc r (ws_y ws)). assert (Ly : length y = n) by (apply Hpc, Lr).
  destruct (mv 1%nat y (ws_v ws)) as [v go] eqn:E2. assert (Ev : v = A y) by (rewrite <- (Hmv 1%nat y (ws_v ws) Ly Lwv), E2; reflexivity).
  pose proof (bicgstab_loop_good restore (S max_iter) pc 2 max_iter (norm_squared b * (tol * tol)) 1 0 x r r r (ws_t ws) v y (ws_z ws) 1 (norm_squared r) (norm_squared r)) as G.
  destruct G as [G1 [G2 [G3 G4]]]; auto; try lia.
  rewrite norm_sq_norm in *. split; [exact G1|]. split; [exact G2|]. split; [exact G3|exact G4].
Qed.
End CR.

(** Independence of stale workspace contents. *)
Lemma cr_loop_stale n mv A fuel k max_iter tol bn it x r p Ar Ar' Ap rAr :
  linear_on n A -> computes n mv A -> (forall k x o o', snd (mv k x o) = snd (mv k x o')) ->
  length r = n -> length Ar = n -> length Ar' = n -> length Ap = n ->
  cr_loop fuel mv k max_iter tol bn it x r p Ar Ap rAr = cr_loop fuel mv k max_iter tol bn it x r p Ar' Ap rAr.
Proof.
  intros HA Hmv Hgo Lr L1 L2 L3. destruct fuel as [|fuel]; [reflexivity|]. simpl cr_loop.
  destruct (Req_EM_T _ _); [reflexivity|]. destruct (Rlt_dec _ _); [reflexivity|]. destruct (Nat.leb _ _); [reflexivity|].
  set (r' := axpy _ Ap 1 r). assert (Lr' : length r' = n) by (apply axpy_length; auto).
  pose proof (Hmv k r' Ar Lr' L1) as E1. pose proof (Hmv k r' Ar' Lr' L2) as E2. pose proof (Hgo k r' Ar Ar') as E3.
  destruct (mv k r' Ar) as [a go], (mv k r' Ar') as [a' go']. simpl in *. subst. reflexivity.
Qed.
Lemma cr_solve_stale n mv A max_iter tol p0 p0' Ar0 Ar0' Ap0 Ap0' x b :
  linear_on n A -> computes n mv A -> (forall k x o o', snd (mv k x o) = snd (mv k x o')) ->
  length x = n -> length b = n -> length p0 = n -> length p0' = n -> length Ar0 = n -> length Ar0' = n ->
  cr_solve mv max_iter tol p0 Ar0 Ap0 x b = cr_solve mv max_iter tol p0' Ar0' Ap0' x b.
Proof.
  intros HA Hmv Hgo Lx Lb L1 L2 L3 L4. unfold cr_solve.
  pose proof (Hmv 0%nat x p0 Lx L1) as E1. pose proof (Hmv 0%nat x p0' Lx L2) as E2. pose proof (Hgo 0%nat x p0 p0') as E3.
  destruct (mv 0%nat x p0) as [p go], (mv 0%nat x p0') as [p' go']. simpl in E1, E2, E3. subst p p' go'.
  destruct go; simpl negb; cbv iota; [|reflexivity].
  set (r := axpy (- (1)) (A x) 1 b). assert (Lr : length r = n) by (apply axpy_length; [apply HA|]; auto).
  destruct (Rle_dec _ _); [reflexivity|].
  pose proof (Hmv 1%nat r Ar0 Lr L3) as F1. pose proof (Hmv 1%nat r Ar0' Lr L4) as F2.
  destruct (mv 1%nat r Ar0) as [a g], (mv 1%nat r Ar0') as [a' g']. simpl in F1, F2. subst. reflexivity.
Qed.
Lemma bicgstab_loop_stale n mv A restore fuel pc k max_iter tol_sq it rs rhs x r r0s p t t' v y y' z z' rho q1 q2 :
  linear_on n A -> computes n mv A -> (forall k x o o', snd (mv k x o) = snd (mv k x o')) ->
  (forall a o o', pc a o = pc a o') -> (forall a o, length a = n -> length (pc a o) = n) ->
  length x = n -> length r = n -> length rhs = n -> length v = n -> length t = n -> length t' = n -> y = y' ->
  bicgstab_loop restore fuel mv pc k max_iter tol_sq it rs rhs x r r0s p t v y z rho q1 q2
  = bicgstab_loop restore fuel mv pc k max_iter tol_sq it rs rhs x r r0s p t' v y' z' rho q1 q2.
Proof.
  intros HA Hmv Hgo Hpc Lpc Lx Lr Lrhs Lv Lt Lt' <-. destruct fuel as [|fuel]; [reflexivity|]. simpl bicgstab_loop.
  set (restart := if Rle_dec (Rabs (dot r0s v)) (eps64 * eps64 * q1) then true else false). clearbody restart.
  destruct (if restart then mv k x r else (r, true)) as [Ax go] eqn:E1.
  destruct go; simpl negb; cbv iota; [|reflexivity].
  set (r1 := if restart then (if restore then axpy 1 rhs (- (1)) Ax else Ax) else r).
  assert (Lr1 : length r1 = n).
  { unfold r1. destruct restart; [|exact Lr].
    assert (Ax = A x) by (rewrite <- (Hmv k x r Lx Lr), E1; reflexivity). subst Ax.
    pose proof (proj1 HA x Lx). destruct restore; [apply axpy_length|]; auto. }
  clearbody r1. destruct (Req_EM_T _ _); [reflexivity|]. destruct (Rle_dec (norm_squared (axpy _ v 1 r1)) tol_sq); [reflexivity|].
  set (r2 := axpy _ v 1 r1). assert (Lr2 : length r2 = n) by (apply axpy_length; auto). clearbody r2.
  rewrite (Hpc r2 z z'). set (z2 := pc r2 z'). assert (Lz2 : length z2 = n) by (apply Lpc, Lr2). clearbody z2.
  set (k1 := if restart then S k else k). clearbody k1.
  pose proof (Hmv k1 z2 t Lz2 Lt) as F1. pose proof (Hmv k1 z2 t' Lz2 Lt') as F2. pose proof (Hgo k1 z2 t t') as F3.
  destruct (mv k1 z2 t) as [t2 go], (mv k1 z2 t') as [t2' go']. simpl in F1, F2, F3. subst t2 t2' go'. reflexivity.
Qed.
Lemma bicgstab_solve_stale n mv A restore pc max_iter tol ws ws' x b :
  linear_on n A -> computes n mv A -> (forall k x o o', snd (mv k x o) = snd (mv k x o')) ->
  (forall a o o', pc a o = pc a o') -> (forall a o, length a = n -> length (pc a o) = n) ->
  length x = n -> length b = n -> 
  length (ws_p ws) = n -> length (ws_v ws) = n -> length (ws_t ws) = n -> length (ws_p ws') = n -> length (ws_v ws') = n -> length (ws_t ws') = n ->
  bicgstab_solve restore mv pc max_iter tol ws x b = bicgstab_solve restore mv pc max_iter tol ws' x b.
Proof.
  intros HA Hmv Hgo Hpc Lpc Lx Lb L1 L2 L3 L4 L5 L6. unfold bicgstab_solve. destruct (Req_EM_T _ _); [reflexivity|].
  pose proof (Hmv 0%nat x _ Lx L1) as E1. pose proof (Hmv 0%nat x _ Lx L4) as E2. pose proof (Hgo 0%nat x (ws_p ws) (ws_p ws')) as E3.
  destruct (mv 0%nat x (ws_p ws)) as [p go], (mv 0%nat x (ws_p ws')) as [p' go']. simpl in E1, E2, E3. subst p p' go'.
  destruct go; simpl negb; cbv iota; [|reflexivity].
  set (r := axpy (- (1)) (A x) 1 b). assert (Lr : length r = n) by (apply axpy_length; [apply HA|]; auto). clearbody r.
  rewrite (Hpc r (ws_y ws) (ws_y ws')). set (y := pc r (ws_y ws')). assert (Ly : length y = n) by (apply Lpc, Lr). clearbody y.
  pose proof (Hmv 1%nat y _ Ly L2) as F1. pose proof (Hmv 1%nat y _ Ly L5) as F2.
  destruct (mv 1%nat y (ws_v ws)) as [a g], (mv 1%nat y (ws_v ws')) as [a' g']. simpl in F1, F2. subst a a'.
  eapply bicgstab_loop_stale; eauto. apply HA, Ly.
Qed.

(** Starting at the exact solution. *)
Lemma cr_exact_start n mv A max_iter tol p0 Ar0 Ap0 x b :
  computes n mv A -> (forall k x o, snd (mv k x o) = true) -> length x = n -> length p0 = n -> A x = b ->
  cr_solve mv max_iter tol p0 Ar0 Ap0 x b = LinResult LinSuccess 0 0 (Some x) 0.
Proof.
  intros Hmv Hgo Lx Lp E. unfold cr_solve. pose proof (Hmv 0%nat x p0 Lx Lp) as E1. pose proof (Hgo 0%nat x p0) as E2.
  destruct (mv 0%nat x p0) as [p go]. simpl in E1, E2. subst p go. simpl negb. cbv iota. rewrite E.
  assert (Hz : norm_squared (axpy (- (1)) b 1 b) = 0).
  { rewrite norm_diff by reflexivity. clear E. induction b as [|b0 b IH]; simpl; [reflexivity|]. rewrite IH. ring. }
  rewrite Hz. assert (0 <= eps64 * eps64) by (unfold eps64; pose proof (Rinv_0_lt_compat 4503599627370496 ltac:(lra)); nra).
  destruct (Rle_dec 0 _); [|lra]. rewrite sqrt_0. reflexivity.
Qed.
Lemma dot_zero_l x y : (forall i, nth i x 0 = 0) -> dot x y = 0.
Proof.
  revert y. induction x as [|a x IH]; intros [|b y] H; try (unfold dot; simpl; apply rsum_nil).
  rewrite dot_cons, IH. { specialize (H O). simpl in H. rewrite H. ring. } intros i. apply (H (S i)).
Qed.
Lemma bicgstab_restart_zero restore fuel mv pc k max_iter tol_sq it rs rhs x r r0s p t v y z rho q1 q2 Ax :
  Rabs (dot r0s v) <= eps64 * eps64 * q1 -> mv k x r = (Ax, true) -> norm_squared v = 0 ->
  bicgstab_loop restore (S fuel) mv pc k max_iter tol_sq it rs rhs x r r0s p t v y z rho q1 q2 = LinResult LinNan it 0 None (S rs).
Proof.
  intros H1 H2 H3. simpl bicgstab_loop. destruct (Rle_dec _ _) as [_|C]; [|contradiction]. rewrite H2. simpl negb. cbv iota.
  destruct (Req_EM_T _ 0) as [_|C]; [reflexivity|contradiction].
Qed.
Lemma bicgstab_restart_success (restore : bool) fuel mv pc k max_iter tol_sq it rs rhs x r r0s p t v y z rho q1 q2 Ax alpha :
  Rabs (dot r0s v) <= eps64 * eps64 * q1 -> mv k x r = (Ax, true) -> norm_squared v <> 0 -> alpha = rho / norm_squared v ->
  norm_squared (axpy (- alpha) v 1 (if restore then axpy 1 rhs (- (1)) Ax else Ax)) <= tol_sq ->
  bicgstab_loop restore (S fuel) mv pc k max_iter tol_sq it rs rhs x r r0s p t v y z rho q1 q2 =
  LinResult LinSuccess it (sqrt (norm_squared (axpy (- alpha) v 1 (if restore then axpy 1 rhs (- (1)) Ax else Ax)))) (Some (axpy alpha y 1 x)) (S rs).
Proof.
  intros H1 H2 H3 -> H5. simpl bicgstab_loop. destruct (Rle_dec _ _) as [_|C]; [|contradiction]. rewrite H2. simpl negb. cbv iota.
  destruct (Req_EM_T _ 0) as [C|_]; [contradiction|]. destruct (Rle_dec _ tol_sq) as [_|C]; [reflexivity|contradiction].
Qed.
Lemma bicgstab_exact_start n mv A restore max_iter tol ws x b :
  linear_on n A -> computes n mv A -> (forall k x o, snd (mv k x o) = true) -> length x = n -> length (ws_p ws) = n -> length (ws_v ws) = n ->
  A x = b -> sq_norm b <> 0 ->
  lin_status_of (bicgstab_solve restore mv (fun input _ => input) max_iter tol ws x b) = LinNan /\
  lin_x (bicgstab_solve restore mv (fun input _ => input) max_iter tol ws x b) = None.
Proof.
  intros HA Hmv Hgo Lx Lp Lv E Hb. unfold bicgstab_solve.
  rewrite norm_sq_norm. destruct (Req_EM_T (sq_norm b) 0); [contradiction|].
  pose proof (Hmv 0%nat x _ Lx Lp) as E1. pose proof (Hgo 0%nat x (ws_p ws)) as E2.
  destruct (mv 0%nat x (ws_p ws)) as [p go]. simpl in E1, E2. subst p go. simpl negb. cbv iota. rewrite E.
  assert (Lb : length b = n) by (rewrite <- E; apply HA, Lx).
  set (r := axpy (- (1)) b 1 b). assert (Lr : length r = n) by (apply axpy_length; exact Lb).
  assert (Hr : forall i, nth i r 0 = 0) by (intros i; unfold r; rewrite axpy_nth by reflexivity; ring).
  assert (Er : r = axpy 0 r 0 r).
  { apply list_eq; [symmetry; rewrite Lr; apply axpy_length; exact Lr|]. intros i _. rewrite axpy_nth by reflexivity. rewrite Hr. ring. }
  assert (HAr : forall i, nth i (A r) 0 = 0).
  { intros i. rewrite Er, (linear_axpy n A) by assumption. rewrite axpy_nth by reflexivity. ring. }
  clearbody r. pose proof (Hmv 1%nat r _ Lr Lv) as F1.
  destruct (mv 1%nat r (ws_v ws)) as [v go]. simpl in F1. subst v.
  pose proof (Hgo 2%nat x r) as G. destruct (mv 2%nat x r) as [Ax go'] eqn:E3. simpl in G. subst go'.
  rewrite (bicgstab_restart_zero restore max_iter mv _ 2 max_iter _ 1 0 b x r r r _ (A r) r _ 1 _ _ Ax).
  - split; reflexivity.
  - rewrite (dot_zero_l r (A r) Hr), Rabs_R0. unfold norm_squared. rewrite (dot_zero_l r r Hr). lra.
  - exact E3.
  - apply dot_zero_l, HAr.
Qed.

(** One ordinary pass of the BiCGSTAB loop, for computing concrete runs. *)
Lemma bicgstab_ordinary_step restore fuel mv pc k max_iter tol_sq it rs rhs x r r0s p t v y z rho q1 q2 alpha r2 z2 t2 w x3 r3 rho4 p4 y4 v4 :
  ~ (Rabs (dot r0s v) <= eps64 * eps64 * q1) -> dot r0s v <> 0 -> alpha = rho / dot r0s v -> r2 = axpy (- alpha) v 1 r ->
  ~ norm_squared r2 <= tol_sq -> z2 = pc r2 z -> mv k z2 t = (t2, true) -> ~ dot t2 t2 <= 0 -> w = dot r2 t2 / dot t2 t2 ->
  x3 = axpy w z2 1 (axpy alpha y 1 x) -> r3 = axpy (- w) t2 1 r2 -> ~ norm_squared r3 <= tol_sq -> 
  (it < max_iter)%nat -> rho4 = dot r0s r3 -> ~ (Rabs rho4 <= eps64 * eps64 * q1) -> rho <> 0 -> w <> 0 ->
  p4 = axpy 1 r3 (rho4 / rho * (alpha / w)) (axpy (- w) v 1 p) -> y4 = pc p4 y -> mv (S k) y4 v = (v4, true) ->
  bicgstab_loop restore (S fuel) mv pc k max_iter tol_sq it rs rhs x r r0s p t v y z rho q1 q2
  = bicgstab_loop restore fuel mv pc (S (S k)) max_iter tol_sq (S it) rs rhs x3 r3 r0s p4 t2 v4 y4 z2 rho4 q1 (norm_squared r3).
Proof.
  intros H1 H2 -> -> H5 -> H7 H8 -> -> -> H12 H13 -> H15 H16 H17 -> -> H20.
  simpl bicgstab_loop. destruct (Rle_dec _ _) as [C|_]; [contradiction|]. simpl negb. cbv iota.
  destruct (Req_EM_T _ _) as [C|_]; [contradiction|]. destruct (Rle_dec _ tol_sq) as [C|_]; [contradiction|].
  rewrite H7. simpl negb. cbv iota. destruct (Rle_dec (dot t2 t2) 0) as [C|_]; [contradiction|].
  destruct (Rle_dec _ tol_sq) as [C|_]; [contradiction|]. destruct (Nat.leb_spec max_iter it) as [C|_]; [exfalso; lia|].
  destruct (Rle_dec _ _) as [C|_]; [contradiction|]. simpl negb. cbv iota.
  destruct (Req_EM_T rho 0) as [C|_]; [contradiction|]. destruct (Req_EM_T _ 0) as [C|_]; [contradiction|].
  rewrite H20. simpl negb. cbv iota. reflexivity.
Qed.
Lemma bicgstab_last_step restore fuel mv pc k max_iter tol_sq it rs rhs x r r0s p t v y z rho q1 q2 alpha r2 z2 t2 w x3 r3 :
  ~ (Rabs (dot r0s v) <= eps64 * eps64 * q1) -> dot r0s v <> 0 -> alpha = rho / dot r0s v -> r2 = axpy (- alpha) v 1 r ->
  ~ norm_squared r2 <= tol_sq -> z2 = pc r2 z -> mv k z2 t = (t2, true) -> ~ dot t2 t2 <= 0 -> w = dot r2 t2 / dot t2 t2 ->
  x3 = axpy w z2 1 (axpy alpha y 1 x) -> r3 = axpy (- w) t2 1 r2 -> ~ norm_squared r3 <= tol_sq -> 
  (max_iter <= it)%nat ->
  bicgstab_loop restore (S fuel) mv pc k max_iter tol_sq it rs rhs x r r0s p t v y z rho q1 q2
  = LinResult LinMaxIter it (sqrt (norm_squared r3)) (Some x3) rs.
Proof.
  intros H1 H2 -> -> H5 -> H7 H8 -> -> -> H12 H13.
  simpl bicgstab_loop. destruct (Rle_dec _ _) as [C|_]; [contradiction|]. simpl negb. cbv iota.
  destruct (Req_EM_T _ _) as [C|_]; [contradiction|]. destruct (Rle_dec _ tol_sq) as [C|_]; [contradiction|].
  rewrite H7. simpl negb. cbv iota. destruct (Rle_dec (dot t2 t2) 0) as [C|_]; [contradiction|].
  destruct (Rle_dec _ tol_sq) as [C|_]; [contradiction|]. destruct (Nat.leb_spec max_iter it) as [_|C]; [|exfalso; lia].
  reflexivity.
Qed.
(** A successful pass of the conjugate residual loop, for computing concrete runs. *)
Lemma cr_loop_success fuel mv k max_iter tol bn it x r p Ar Ap rAr alpha :
  dot Ap Ap <> 0 -> alpha = rAr / dot Ap Ap -> norm_squared (axpy (- alpha) Ap 1 r) < tol * tol * bn ->
  cr_loop (S fuel) mv k max_iter tol bn it x r p Ar Ap rAr
  = LinResult LinSuccess (S it) (sqrt (norm_squared (axpy (- alpha) Ap 1 r))) (Some (axpy alpha p 1 x)) 0.
Proof.
  intros H1 -> H3. simpl cr_loop. destruct (Req_EM_T _ 0) as [C|_]; [contradiction|]. destruct (Rlt_dec _ _) as [_|C]; [reflexivity|contradiction].
Qed.
