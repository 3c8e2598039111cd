(** Property theorems for the iterative linear solvers. *)
From Coq Require Import Reals List Arith Bool Lra Lia Psatz.
From Verif Require Import RList LinSolveModel LinSolveSpec LinSolveProofs.
Import ListNotations.
Local Open Scope R_scope.

(** Matrices used in the examples. *)
Definition mat2 (a b c d : R) (x : list R) : list R := match x with [x0; x1] => [a * x0 + b * x1; c * x0 + d * x1] | _ => x end.
Definition mv2 (a b c d : R) : operator := fun _ x _ => (mat2 a b c d x, true).
Lemma mat2_linear a b c d : linear_on 2 (mat2 a b c d).
Proof.
  split.
  - intros [|x0 [|x1 [|x2 x]]] H; simpl in *; try discriminate; reflexivity.
  - intros s [|x0 [|x1 [|x2 x]]] t [|y0 [|y1 [|y2 y]]] H1 H2 i; simpl in *; try discriminate.
    destruct i as [|[|i]]; simpl; [ring|ring|destruct i; ring].
Qed.
Lemma mv2_computes a b c d : computes 2 (mv2 a b c d) (mat2 a b c d).
Proof. intros k x old _ _. reflexivity. Qed.

(** C31. Conjugate residuals: success means the true residual of the returned vector is below the tolerance (or the start was
    already exact to rounding), the reported residual is the true one, at most [max 1 max_iter] iterations are used, the budget
    status is truthful, and every vector handed back is no worse than the start. *)
Theorem conjugate_residual_correct (n max_iter : nat) (mv : operator) (A : list R -> list R) (tol : R) (p0 Ar0 Ap0 x b : list R) :
  linear_on n A -> computes n mv A -> length b = n -> length p0 = n -> length Ar0 = n -> length x = n ->
  let res := cr_solve mv max_iter tol p0 Ar0 Ap0 x b in
  lin_status_of res <> LinOutOfFuel /\ (lin_iterations res <= Nat.max 1 max_iter)%nat /\
  (lin_status_of res = LinSuccess -> exists x', lin_x res = Some x' /\ lin_residual res = sqrt (sq_diff b (A x')) /\
     ((lin_iterations res = 0%nat /\ x' = x /\ sq_diff b (A x') <= eps64 * eps64) \/ sq_diff b (A x') < tol * tol * sq_norm b)) /\
  (lin_status_of res = LinMaxIter -> (max_iter <= lin_iterations res)%nat) /\
  (lin_status_of res = LinNan \/ (lin_status_of res = LinInterrupted /\ lin_iterations res = 0%nat /\ lin_x res = Some x) \/
   exists x', lin_x res = Some x' /\ lin_residual res = sqrt (sq_diff b (A x')) /\ sq_diff b (A x') <= sq_diff b (A x)).
Proof. intros HA Hmv Hb L1 L2 L3. exact (cr_solve_good n mv A b HA Hmv Hb max_iter tol p0 Ar0 Ap0 x L1 L2 L3). Qed.
Print Assumptions conjugate_residual_correct.
(** One step solves 2 x = (2, 4) exactly. *)
Example conjugate_residual_nonvacuous :
  cr_solve (mv2 2 0 0 2) 5 (1/10) [0;0] [0;0] [0;0] [0;0] [2;4] = LinResult LinSuccess 1 0 (Some [1;2]) 0.
Proof.
  unfold cr_solve, mv2. cbn [mat2 negb fst snd].
  assert (Ez : forall a b, norm_squared [a; b] = a * a + b * b).
  { intros. unfold norm_squared. rewrite !dot_cons. unfold dot. simpl. rewrite rsum_nil. ring. }
  assert (Ed : forall a b c d, dot [a; b] [c; d] = a * c + b * d). { intros. rewrite !dot_cons. unfold dot; simpl. rewrite rsum_nil. ring. }
  assert (E : axpy (- (1)) [2 * 0 + 0 * 0; 0 * 0 + 2 * 0] 1 [2; 4] = [2; 4]) by (unfold axpy; simpl; repeat (f_equal; try lra)).
  rewrite E. rewrite Ez.
  assert (P : eps64 * eps64 < 1). { unfold eps64. rewrite <- Rinv_mult. rewrite <- Rinv_1. apply Rinv_lt_contravar; lra. }
  destruct (Rle_dec _ _); [lra|].
  rewrite (cr_loop_success 5 (fun _ x _ => (mat2 2 0 0 2 x, true)) 2 5 (1/10) _ 0 [0;0] [2;4] [2;4] _ _ _ (1/2)).
  - match goal with |- context [axpy ?a ?p 1 [2; 4]] => replace (axpy a p 1 [2; 4]) with [0; 0] by (unfold axpy; simpl; repeat (f_equal; try (field; lra))) end.
    rewrite Ez. replace (0 * 0 + 0 * 0) with 0 by ring. rewrite sqrt_0.
    f_equal. f_equal. unfold axpy. simpl. repeat (f_equal; try (field; lra)).
  - cbn [mat2]. rewrite Ed. lra.
  - cbn [mat2]. rewrite !Ed. field.
  - cbn [mat2]. match goal with |- context [axpy ?a ?p 1 [2; 4]] => replace (axpy a p 1 [2; 4]) with [0; 0] by (unfold axpy; simpl; repeat (f_equal; try (field; lra))) end.
    rewrite !Ez. lra.
Qed.

(** C32 (partial: runs without a restart of the first kind, or with the residual recomputed there as in the commented-out line).
    Success means the true residual is within tolerance. *)
Theorem bicgstab_success_partial (restore : bool) (n max_iter : nat) (mv : operator) (pc : preconditioner) (A : list R -> list R) (tol : R)
    (ws : bicgstab_ws) (x b : list R) :
  linear_on n A -> computes n mv A -> length b = n -> (forall a o, length a = n -> length (pc a o) = n) ->
  length (ws_p ws) = n -> length (ws_v ws) = n -> length (ws_t ws) = n -> length x = n ->
  let res := bicgstab_solve restore mv pc max_iter tol ws x b in
  lin_status_of res <> LinOutOfFuel /\ (lin_iterations res <= Nat.max 1 max_iter)%nat /\
  (lin_status_of res = LinMaxIter -> (max_iter <= lin_iterations res)%nat) /\
  (restore = true \/ lin_restarts res = 0%nat -> lin_status_of res = LinSuccess ->
    exists x', lin_x res = Some x' /\ lin_residual res = sqrt (sq_diff b (A x')) /\ sq_diff b (A x') <= sq_norm b * (tol * tol)).
Proof. intros HA Hmv Hb Hpc L1 L2 L3 L4. exact (bicgstab_solve_good n mv A b HA Hmv Hb restore pc max_iter tol ws x Hpc L1 L2 L3 L4 HA). Qed.
Print Assumptions bicgstab_success_partial.
(** A zero right-hand side succeeds at once (the only success without an iteration). *)
Example bicgstab_success_partial_nonvacuous :
  bicgstab_solve false (mv2 1 2 3 4) (fun a _ => a) 7 (1/10) (BicgWs [0;0] [0;0] [0;0] [0;0] [0;0] [0;0] [0;0]) [5;6] [0;0]
  = LinResult LinSuccess 0 0 (Some [0;0]) 0.
Proof.
  unfold bicgstab_solve. replace (norm_squared [0;0]) with 0; [destruct (Req_EM_T 0 0); [reflexivity|lra]|].
  unfold norm_squared. rewrite !dot_cons. unfold dot. simpl. rewrite rsum_nil. ring.
Qed.

(** C32 refuted: with a rotation matrix the solver restarts, forgets the right-hand side, and reports success with residual zero
    although the true residual is (1, -1), for every tolerance. *)
Theorem bicgstab_success_refuted (tol : R) (max_iter : nat) :
  let res := bicgstab_solve false (mv2 0 (-1) 1 0) (fun a _ => a) max_iter tol (BicgWs [0;0] [0;0] [0;0] [0;0] [0;0] [0;0] [0;0]) [1;0] [1;1] in
  lin_status_of res = LinSuccess /\ lin_residual res = 0 /\ lin_x res = Some [2;0] /\ sq_diff [1;1] (mat2 0 (-1) 1 0 [2;0]) = 2.
Proof.
  assert (Ez : forall a b, norm_squared [a; b] = a * a + b * b).
  { intros. unfold norm_squared. rewrite !dot_cons. unfold dot. simpl. rewrite rsum_nil. ring. }
  assert (Ed : forall a b c d, dot [a; b] [c; d] = a * c + b * d). { intros. rewrite !dot_cons. unfold dot; simpl. rewrite rsum_nil. ring. }
  assert (P : 0 < eps64 * eps64) by (unfold eps64; pose proof (Rinv_0_lt_compat 4503599627370496 ltac:(lra)); nra).
  intros res. unfold res, bicgstab_solve. rewrite Ez. destruct (Req_EM_T _ 0) as [C|_]; [lra|].
  change (mv2 0 (-1) 1 0 0%nat) with (fun x (_ : list R) => (mat2 0 (-1) 1 0 x, true)).
  change (mv2 0 (-1) 1 0 1%nat) with (fun x (_ : list R) => (mat2 0 (-1) 1 0 x, true)).
  cbn [mat2 negb ws_p ws_v ws_t ws_z ws_y].
  replace (axpy (- (1)) [0 * 1 + -1 * 0; 1 * 1 + 0 * 0] 1 [1; 1]) with [1; 0] by (unfold axpy; simpl; repeat (f_equal; try lra)).
  rewrite (bicgstab_restart_success false max_iter (mv2 0 (-1) 1 0) _ 2 max_iter _ 1 0 [1;1] [1;0] [1;0] [1;0] [1;0] [0;0] _ [1;0] [0;0] 1 _ _ (mat2 0 (-1) 1 0 [1;0]) 1).
  - cbn [lin_status_of lin_residual lin_x mat2].
    match goal with |- context [sqrt (norm_squared ?e)] => replace e with [0; 0] by (unfold axpy; simpl; repeat (f_equal; try lra)) end.
    rewrite Ez. replace (0 * 0 + 0 * 0) with 0 by ring. split; [reflexivity|]. split; [apply sqrt_0|]. split.
    + unfold axpy. simpl. repeat (f_equal; try lra).
    + simpl. ring.
  - cbn [mat2]. rewrite Ed, Ez. match goal with |- Rabs ?e <= _ => replace e with 0 by ring end. rewrite Rabs_R0. lra.
  - reflexivity.
  - cbn [mat2]. rewrite Ez. lra.
  - cbn [mat2]. rewrite Ez. field.
  - cbn [mat2]. match goal with |- norm_squared ?e <= _ => replace e with [0; 0] by (unfold axpy; simpl; repeat (f_equal; try lra)) end.
    rewrite Ez. assert (0 <= tol * tol) by nra. nra.
Qed.
Print Assumptions bicgstab_success_refuted.

(** C61. Solving again with used workspace gives the same result as with any other workspace of the right size: CR and BiCGSTAB. *)
Theorem conjugate_residual_ignores_stale_workspace (n max_iter : nat) (mv : operator) (A : list R -> list R) (tol : R) (p0 p0' Ar0 Ar0' Ap0 Ap0' x b : list R) :
  linear_on n A -> computes n mv A -> (forall k x o o', snd (mv k x o) = snd (mv k x o')) ->
  length x = n -> length b = n -> length p0 = n -> length p0' = n -> length Ar0 = n -> length Ar0' = n ->
  cr_solve mv max_iter tol p0 Ar0 Ap0 x b = cr_solve mv max_iter tol p0' Ar0' Ap0' x b.
Proof. exact (cr_solve_stale n mv A max_iter tol p0 p0' Ar0 Ar0' Ap0 Ap0' x b). Qed.
Print Assumptions conjugate_residual_ignores_stale_workspace.
Theorem bicgstab_ignores_stale_workspace (restore : bool) (n max_iter : nat) (mv : operator) (pc : preconditioner) (A : list R -> list R) (tol : R)
    (ws ws' : bicgstab_ws) (x b : list R) :
  linear_on n A -> computes n mv A -> (forall k x o o', snd (mv k x o) = snd (mv k x o')) ->
  (forall a o o', pc a o = pc a o') -> (forall a o, length a = n -> length (pc a o) = n) ->
  length x = n -> length b = n ->
  length (ws_p ws) = n -> length (ws_v ws) = n -> length (ws_t ws) = n -> length (ws_p ws') = n -> length (ws_v ws') = n -> length (ws_t ws') = n ->
  bicgstab_solve restore mv pc max_iter tol ws x b = bicgstab_solve restore mv pc max_iter tol ws' x b.
Proof. exact (bicgstab_solve_stale n mv A restore pc max_iter tol ws ws' x b). Qed.
Print Assumptions bicgstab_ignores_stale_workspace.
Example stale_workspace_nonvacuous :
  linear_on 2 (mat2 0 (-1) 1 0) /\ computes 2 (mv2 0 (-1) 1 0) (mat2 0 (-1) 1 0) /\
  (forall k x o o', snd (mv2 0 (-1) 1 0 k x o) = snd (mv2 0 (-1) 1 0 k x o')) /\ length [7;8] = 2%nat.
Proof. split; [apply mat2_linear|]. split; [apply mv2_computes|]. split; [reflexivity|reflexivity]. Qed.

(** C67. Started at the exact solution the conjugate residual solver keeps it and reports success without iterating. *)
Theorem conjugate_residual_exact_start (n max_iter : nat) (mv : operator) (A : list R -> list R) (tol : R) (p0 Ar0 Ap0 x b : list R) :
  computes n mv A -> (forall k x o, snd (mv k x o) = true) -> length x = n -> length p0 = n -> A x = b ->
  cr_solve mv max_iter tol p0 Ar0 Ap0 x b = LinResult LinSuccess 0 0 (Some x) 0.
Proof. exact (cr_exact_start n mv A max_iter tol p0 Ar0 Ap0 x b). Qed.
Print Assumptions conjugate_residual_exact_start.
(** C67 refuted for BiCGSTAB: for every operator and every right-hand side other than zero, starting at the exact solution ends with
    the NaN status and a solution vector that is not finite. *)
Theorem bicgstab_exact_start_refuted (n max_iter : nat) (mv : operator) (A : list R -> list R) (tol : R) (ws : bicgstab_ws) (x b : list R) :
  linear_on n A -> computes n mv A -> (forall k x o, snd (mv k x o) = true) -> length x = n -> length (ws_p ws) = n -> length (ws_v ws) = n ->
  A x = b -> sq_norm b <> 0 ->
  lin_status_of (bicgstab_solve false mv (fun input _ => input) max_iter tol ws x b) = LinNan /\
  lin_x (bicgstab_solve false mv (fun input _ => input) max_iter tol ws x b) = None.
Proof. exact (bicgstab_exact_start n mv A false max_iter tol ws x b). Qed.
Print Assumptions bicgstab_exact_start_refuted.
Example exact_start_nonvacuous : mat2 1 2 3 4 [1;1] = [3;7] /\ sq_norm [3;7] <> 0 /\ linear_on 2 (mat2 1 2 3 4).
Proof. split; [simpl; repeat (f_equal; try lra)|]. split; [simpl; lra|apply mat2_linear]. Qed.

(** C66 refuted: the solver is documented as BiCGSTAB, which ends on an n-dimensional system after at most n iterations in exact arithmetic unless it
    breaks down.  Because [rho] starts at one instead of [(r0s, r0)] (bicgstab.rs:171), the positive definite system diag(1, 2) x = (2, 2)
    is not solved after two iterations from zero: the relative residual is still above one half. *)
Theorem bicgstab_two_iterations_refuted :
  let res := bicgstab_solve false (mv2 1 0 0 2) (fun a _ => a) 2 (1/10) (BicgWs [0;0] [0;0] [0;0] [0;0] [0;0] [0;0] [0;0]) [0;0] [2;2] in
  lin_status_of res = LinMaxIter /\ lin_restarts res = 0%nat /\ (exists x, lin_x res = Some x /\ sq_norm [2;2] / 4 < sq_diff [2;2] (mat2 1 0 0 2 x)).
Proof.
  assert (Ez : forall a b, norm_squared [a; b] = a * a + b * b).
  { intros. unfold norm_squared. rewrite !dot_cons. unfold dot. simpl. rewrite rsum_nil. ring. }
  assert (Ed : forall a b c d, dot [a; b] [c; d] = a * c + b * d). { intros. rewrite !dot_cons. unfold dot; simpl. rewrite rsum_nil. ring. }
  assert (Ea : forall s a b t c d, axpy s [a; b] t [c; d] = [s * a + t * c; s * b + t * d]) by reflexivity.
  assert (P : 0 < eps64 * eps64 < 1/1000).
  { unfold eps64. rewrite <- Rinv_mult. split; [apply Rinv_0_lt_compat; lra|]. unfold Rdiv. rewrite Rmult_1_l. apply Rinv_lt_contravar; lra. }
  intros res. unfold res, bicgstab_solve. rewrite Ez. destruct (Req_EM_T _ 0) as [C|_]; [lra|].
  change (mv2 1 0 0 2 0%nat) with (fun x (_ : list R) => (mat2 1 0 0 2 x, true)).
  change (mv2 1 0 0 2 1%nat) with (fun x (_ : list R) => (mat2 1 0 0 2 x, true)).
  cbn [mat2 negb ws_p ws_v ws_t ws_z ws_y].
  replace (axpy (- (1)) [1 * 0 + 0 * 0; 0 * 0 + 2 * 0] 1 [2; 2]) with [2; 2] by (rewrite Ea; repeat (f_equal; try lra)).
  cbn [mat2]. replace [1 * 2 + 0 * 2; 0 * 2 + 2 * 2] with [2; 4] by (repeat (f_equal; try lra)).
  rewrite (bicgstab_ordinary_step false 2 (mv2 1 0 0 2) _ 2 2 _ 1 0 [2;2] [0;0] [2;2] [2;2] [2;2] [0;0] [2;4] [2;2] [0;0] 1 _ _
    (1/12) [(11/6); (5/3)] [(11/6); (5/3)] [(11/6); (10/3)] (321/521) [(2026/1563); (3731/3126)] [(1100/1563); (-(605/1563))] (330/521)
    [(42900/55747); (-(71390/167241))] [(42900/55747); (-(71390/167241))] [(42900/55747); (-(142780/167241))]).
  1: rewrite (bicgstab_last_step false 1 (mv2 1 0 0 2) _ 4 2 _ 2 0 [2;2] [(2026/1563); (3731/3126)] [(1100/1563); (-(605/1563))] [2;2]
     [(42900/55747); (-(71390/167241))] [(11/6); (10/3)] [(42900/55747); (-(142780/167241))] [(42900/55747); (-(71390/167241))] [(11/6); (5/3)] (330/521) _ _
     (-(963/256)) [(359975/100032); (-(359975/100032))] [(359975/100032); (-(359975/100032))] [(359975/100032); (-(359975/50016))] (3/5)
     [(28037/50016); (128069/200064)] [(71995/50016); (71995/100032)]).
  1: { cbn [lin_status_of lin_restarts lin_x]. split; [reflexivity|]. split; [reflexivity|]. eexists. split; [reflexivity|].
       cbn [sq_norm sq_diff mat2]. lra. }
  all: rewrite ?Ez, ?Ed, ?Ea; unfold mv2; cbn [mat2]; try lia; try lra; try reflexivity; try solve [field; repeat split; lra]; repeat (f_equal; try lra).
  all: try (rewrite ?Ez, ?Ed; unfold Rabs; destruct (Rcase_abs _); lra).
Qed.
Print Assumptions bicgstab_two_iterations_refuted.
