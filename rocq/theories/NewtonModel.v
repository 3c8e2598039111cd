(** Control flow of the damped Newton solver: Newton::solve_with, /repo/softy/src/fem/nl/newton.rs:850-1901.
    Exact reals, vectors as lists.  Everything the loop obtains from outside is an oracle in [env]: callbacks, residual-based
    merit values, the linear solvers, the line-search assistance, the convergence test, the file system.  Oracles receive the
    iteration number (and the evaluation number inside the line search), so they may depend on hidden state that changes between
    calls.  A merit value that is not finite is [None].  Timings, logging and the contents of the debug files are not modelled;
    diagonal scaling (newton.rs:773-791) is inside the oracles, it is the subject of McpModel. *)
From Coq Require Import Reals List Arith Bool.
From Verif Require Import LinSolveModel.
Import ListNotations.
Local Open Scope R_scope.

Definition vec := list R.

(** LineSearch, newton.rs:2260-2281; step_factor l.2317-2324; armijo_coeff l.2327-2334; is_assisted and is_contact_assisted l.2300-2306. *)
Inductive line_search := BackTracking (c rho : R) | AssistedBackTracking (c rho : R) | ContactAssistedBackTracking (c rho : R) | NoLineSearch.
Definition step_factor (ls : line_search) : R :=
  match ls with BackTracking _ rho | AssistedBackTracking _ rho | ContactAssistedBackTracking _ rho => rho | NoLineSearch => 1 end.
Definition armijo_coeff (ls : line_search) : R :=
  match ls with BackTracking c _ | AssistedBackTracking c _ | ContactAssistedBackTracking c _ => c | NoLineSearch => 1 end.
Definition is_assisted (ls : line_search) : bool :=
  match ls with AssistedBackTracking _ _ | ContactAssistedBackTracking _ _ => true | _ => false end.
Definition is_contact_assisted (ls : line_search) : bool := match ls with ContactAssistedBackTracking _ _ => true | _ => false end.

(** The part of NewtonParams and of the problem that steers the loop: max_iter, line_search, adaptive_epsilon, whether the
    linear solver is iterative (newton.rs:906-937) and NonLinearProblem::use_obj_merit. *)
Record config := Config { max_iter : nat; search : line_search; adaptive : bool; iterative : bool; use_obj_merit : bool }.

(** Status, /repo/softy/src/fem/nl.rs:107-125 (without MaximumContactIterationsExceeded, which only Solver::step returns). *)
Inductive status := Success | MaximumIterationsExceeded | LinearSolveError | Diverged | StepTooLarge | NothingToSolve
  | FailedToInitializeJacobian | Interrupted | FailedJacobianCheck.
(** A solve ends with a status or panics; [NoFuel] marks that the line-search fuel of the model ran out. *)
Inductive ending := Ended (s : status) | Panicked | NoFuel.

(** Outcome of the direct branch, newton.rs:1230-1411: the optional derivative check failed, the factorisation failed, or a vector came back
    ([None]: its squared norm is not finite). *)
Inductive direct_outcome := CheckFailed | SolveFailed | Solution (p : option vec).

Record env := Env {
  o_callback : nat -> vec -> bool;                        (* outer_callback, l.1157 *)
  o_pattern_ok : bool;                                    (* update_jacobian_indices, l.891 *)
  o_pattern_empty : bool;                                 (* sparse_jacobian.j_rows.is_empty(), l.1110 *)
  o_init_merit : nat -> vec -> vec -> option R;           (* merit of the k-th trial initial guess, l.1061-1068: k, epsilon, x *)
  o_ratio : nat -> R;                                     (* (merit_cur / merit_prev)^(power / 2), l.1187 *)
  o_iterative : nat -> vec -> vec -> R -> option vec;     (* solve_precond, l.1206: iteration, epsilon, x, tolerance *)
  o_direct : nat -> vec -> vec -> direct_outcome;         (* l.1230-1411: iteration, epsilon, x *)
  o_slope : nat -> vec -> vec -> vec -> option R;         (* merit_jac_prod, l.963-1015: iteration, epsilon, x, p *)
  o_merit : nat -> nat -> vec -> vec -> option R;         (* merit, l.939-961: iteration, evaluation, epsilon, x *)
  o_residual_sq : nat -> nat -> vec -> vec -> option R;   (* squared norm of the scaled residual: iteration, evaluation (0: r_cur) *)
  o_contact_alpha : nat -> vec -> R;                      (* assist_line_search_for_contact, l.1492 *)
  o_friction_alpha : nat -> R -> vec -> vec -> R;         (* assist_line_search_for_friction, l.1507 *)
  o_converged : nat -> vec -> vec -> vec -> bool;         (* problem.converged, l.1775: iterations so far, epsilon, x_prev, x *)
  o_sqrt_ratio : nat -> option R;                         (* (merit_cur / merit_prev).sqrt(), l.1824 ([None]: NaN) *)
  o_merit_update : nat -> vec -> vec -> option R;         (* merit after epsilon changed, l.1836-1840 *)
  o_files : nat -> bool                                   (* every file operation of l.1609-1745 succeeds *)
}.

(** x_prev + alpha p, newton.rs:1519-1521, 1560-1562 ([mul_add]). *)
Definition vstep (x : vec) (alpha : R) (p : vec) : vec := map (fun q => snd q * alpha + fst q) (combine x p).
(** In-place scaling, newton.rs:1078 and 1456. *)
Definition vscale (a : R) (x : vec) : vec := map (fun c => c * a) x.

(** Comparison [a <= b] of floats that may be non-finite. *)
Definition ole (a b : option R) : bool :=
  match a, b with Some a, Some b => if Rle_dec a b then true else false | _, _ => false end.

(** test_alpha, newton.rs:1122-1154.  [rsq_next] and [rsq_cur] are the squared residual norms used with an objective merit. *)
Definition test_alpha (cfg : config) (tol : R) (rsq_next rsq_cur merit_next : option R) (merit_cur : R) (slope : option R) (alpha : R) : bool :=
  if iterative cfg then
    let g_cur := if use_obj_merit cfg then rsq_next else merit_next in
    let g_prev := if use_obj_merit cfg then rsq_cur else Some merit_cur in
    let factor := 1 - armijo_coeff (search cfg) * alpha * (1 - tol) in
    ole g_cur (option_map (fun g => g * factor * factor) g_prev)
  else
    let increment := armijo_coeff (search cfg) * alpha in
    ole merit_next (option_map (fun s => merit_cur + increment * s) slope).

(** Smallest step length, the literal 1e-20 of newton.rs:1555 and 1595. *)
Definition alpha_min : R := / 10 ^ 20.

Record ls_result := LsResult { ls_accepted : bool; ls_alpha : R; ls_count : nat; ls_x : vec; ls_merit : option R }.

(** The backtracking loop, newton.rs:1533-1571. [None]: out of fuel. *)
Fixpoint backtrack (fuel : nat) (e : env) (cfg : config) (it : nat) (eps : vec) (tol : R) (x_prev p : vec) (merit_cur : R)
    (slope : option R) (count : nat) (alpha : R) (x : vec) : option ls_result :=
  match fuel with
  | O => None
  | S fuel' =>
      let m := o_merit e it count eps x in
      if test_alpha cfg tol (o_residual_sq e it count eps x) (o_residual_sq e it 0 eps x_prev) m merit_cur slope alpha
      then Some (LsResult true alpha count x m)
      else
        let alpha := alpha * step_factor (search cfg) in
        if andb (if Rlt_dec alpha alpha_min then true else false) (Nat.ltb 2 count) then Some (LsResult false alpha count x m)
        else backtrack fuel' e cfg it eps tol x_prev p merit_cur slope (S count) alpha (vstep x_prev alpha p)
  end.

(** Starting step length of the backtracking loop, newton.rs:1486-1528. *)
Definition assisted_alpha (e : env) (cfg : config) (it : nat) (x_prev p x_full : vec) : R :=
  if is_assisted (search cfg) then
    let contact := o_contact_alpha e it x_full in
    let candidate := if is_contact_assisted (search cfg) then contact else o_friction_alpha e it contact x_prev p in
    if Rlt_dec candidate 1 then candidate else 1 * step_factor (search cfg)
  else 1.

(** The whole line search, newton.rs:1459-1593, from the direction [p] after a possible reversal.  The flag tells whether
    the branch at l.1485 was entered. *)
Definition line_search_step (fuel : nat) (e : env) (cfg : config) (it : nat) (eps : vec) (tol : R) (x_prev p : vec) (merit_cur : R)
    (slope : option R) : option (ls_result * bool) :=
  let x_full := vstep x_prev 1 p in
  let m := o_merit e it 0 eps x_full in
  if Rlt_dec (step_factor (search cfg)) 1 then
    if test_alpha cfg tol (o_residual_sq e it 1 eps x_full) (o_residual_sq e it 0 eps x_prev) m merit_cur slope 1
    then Some (LsResult true 1 1 x_full m, false)
    else
      let alpha := assisted_alpha e cfg it x_prev p x_full in
      let x := if is_assisted (search cfg) then vstep x_prev alpha p else x_full in
      match backtrack fuel e cfg it eps tol x_prev p merit_cur slope 1 alpha x with
      | Some r => Some (r, true)
      | None => None
      end
  else Some (LsResult true 1 1 x_full m, false).

(** One entry of the iteration log (IterationInfo, newton.rs:1758-1771, with the data needed to state properties). *)
Record entry := Entry { e_prev : vec; e_p : vec; e_slope : option R; e_merit_cur : R; e_tol : R; e_eps : vec;
  e_alpha : R; e_ls_count : nat; e_accepted : bool; e_x : vec; e_merit_next : option R }.

Record result := Result { r_ending : ending; r_iterations : nat; r_x : vec; r_eps : vec; r_tol : R; r_prev_count : nat; r_log : list entry }.

(** Forcing term, newton.rs:1184-1199. *)
Definition forcing_term (orig_tol tol ratio : R) : R :=
  let eta := Rmax eps32 ratio in
  let eta := if Rlt_dec (/ 10) (tol * tol) then Rmax eta (tol * tol) else eta in
  Rmin orig_tol eta.

(** Initial value of one epsilon, newton.rs:870-889, for a positive user value; [prev] is prev_iteration_count.  With
    [count = 0] the exponent [1 / count] is infinite, the base infinite or one, and [base.powf(0.0)] is one. *)
Definition epsilon_base (prev : nat) (orig : R) : R := Rmax (Rpower (1 / orig) (1 / (INR prev - 3))) 1.
Definition initial_epsilon (prev : nat) (orig : R) : R :=
  if Nat.eqb prev 3 then orig else orig * Rpower (epsilon_base prev orig) (INR prev - 3).
(** [1.0 / base] of newton.rs:1823-1824, zero when the base is infinite. *)
Definition inverse_base (prev : nat) (orig : R) : R :=
  if Nat.eqb prev 3 then (if Rlt_dec orig 1 then 0 else 1) else 1 / epsilon_base prev orig.
(** epsilon_factor, newton.rs:1824; Rust's [f64::min] returns the other argument when one is NaN. *)
Definition epsilon_factor (e : env) (prev it : nat) (orig : R) : R :=
  match o_sqrt_ratio e it with Some q => Rmin q (inverse_base prev orig) | None => inverse_base prev orig end.
(** Reduced epsilons, newton.rs:1817-1830. *)
Definition reduce_epsilon (e : env) (prev it : nat) (orig eps : vec) : vec :=
  map (fun q => Rmax (fst q) (snd q * epsilon_factor e prev it (fst q))) (combine orig eps).
(** Any epsilon above the user's one, newton.rs:1826 and 1829. *)
Definition any_above (orig eps : vec) : bool := existsb (fun q => if Rlt_dec (fst q) (snd q) then true else false) (combine orig eps).
(** All epsilons at the user's ones, newton.rs:1785-1788. *)
Definition all_restored (orig eps : vec) : bool := forallb (fun q => if Req_EM_T (fst q) (snd q) then true else false) (combine eps orig).

Definition is_positive (s : option R) : bool := match s with Some s => if Rlt_dec 0 s then true else false | None => false end.

(** Loop-carried state of l.1156-1843: x, epsilon, tolerance, merit_cur and the log. *)
Record state := State { s_x : vec; s_eps : vec; s_tol : R; s_merit : option R; s_log : list entry }.
Inductive iteration_outcome := Stop (r : result) | Continue (s : state).

(** Exits by [break] go through l.1871-1900: the tolerance is restored and the iteration count remembered. *)
Definition finish (cfg : config) (orig_tol : R) (s : status) (it : nat) (x eps : vec) (tol : R) (log : list entry) : result :=
  Result (Ended s) it x eps (if iterative cfg then orig_tol else tol) it log.

(** The linear solve, l.1180-1411, before the negation. *)
Definition linear_solve (e : env) (cfg : config) (it : nat) (eps x : vec) (tol : R) : direct_outcome :=
  if iterative cfg then Solution (o_iterative e it eps x tol) else o_direct e it eps x.

(** Conditions of the debug block, l.1595. *)
Definition dumps_debug_data (searched : bool) (r : ls_result) : bool :=
  andb searched (andb (if Rlt_dec (ls_alpha r) alpha_min then true else false) (Nat.ltb 80 (ls_count r))).

(** The rest of an iteration after the line search, l.1583-1842. *)
Definition after_search (e : env) (cfg : config) (orig_eps : vec) (orig_tol : R) (prev_count it : nat) (x p : vec) (slope : option R)
    (mc tol : R) (epsv : vec) (log : list entry) (r : ls_result) (searched : bool) : iteration_outcome :=
  let tol2 := if andb searched (iterative cfg) then 1 - ls_alpha r * (1 - tol) else tol in
  if andb (dumps_debug_data searched r) (negb (o_files e it))
  then Stop (Result Panicked it (ls_x r) epsv tol2 prev_count log)
  else
    let log := log ++ [Entry x p slope mc tol epsv (ls_alpha r) (ls_count r) (ls_accepted r) (ls_x r) (ls_merit r)] in
    if andb (o_converged e (S it) epsv x (ls_x r)) (all_restored orig_eps epsv)
    then Stop (finish cfg orig_tol Success (S it) (ls_x r) epsv tol2 log)
    else if Nat.leb (max_iter cfg) (S it) then Stop (finish cfg orig_tol MaximumIterationsExceeded (S it) (ls_x r) epsv tol2 log)
    else
      let eps' := if adaptive cfg then reduce_epsilon e prev_count it orig_eps epsv else epsv in
      let mc' := if andb (adaptive cfg) (any_above orig_eps epsv) then o_merit_update e it eps' (ls_x r) else ls_merit r in
      Continue (State (ls_x r) eps' tol2 mc' log).

(** One iteration of the main loop, newton.rs:1156-1843.  [ls_fuel] bounds the backtracking loop. *)
Definition newton_iteration (ls_fuel : nat) (e : env) (cfg : config) (orig_eps : vec) (orig_tol : R) (prev_count it : nat) (s : state) : iteration_outcome :=
  let (x, eps, tol, merit_cur, log) := s in
  if negb (o_callback e it x) then Stop (finish cfg orig_tol Interrupted it x eps tol log) else
  match merit_cur with
  | None => Stop (finish cfg orig_tol Diverged it x eps tol log)
  | Some mc =>
      let tol1 := if iterative cfg then forcing_term orig_tol tol (o_ratio e it) else tol in
      match linear_solve e cfg it eps x tol1 with
      | CheckFailed => Stop (Result (Ended FailedJacobianCheck) it x eps tol1 prev_count log)
      | SolveFailed => Stop (finish cfg orig_tol LinearSolveError it x eps tol1 log)
      | Solution None => Stop (finish cfg orig_tol StepTooLarge it x eps tol1 log)
      | Solution (Some p0) =>
          let p := vscale (-1) p0 in
          let slope := if Rlt_dec (step_factor (search cfg)) 1 then o_slope e it eps x p else Some 0 in
          let p := if is_positive slope then vscale (-1) p else p in
          match line_search_step ls_fuel e cfg it eps tol1 x p mc slope with
          | None => Stop (Result NoFuel it x eps tol1 prev_count log)
          | Some (r, searched) => after_search e cfg orig_eps orig_tol prev_count it x p slope mc tol1 eps log r searched
          end
      end
  end.

(** The main loop; [fuel] is at least the number of iterations allowed by l.1803, see [newton_solve]. *)
Fixpoint newton_loop (fuel ls_fuel : nat) (e : env) (cfg : config) (orig_eps : vec) (orig_tol : R) (prev_count it : nat) (s : state) : result :=
  match fuel with
  | O => Result NoFuel it (s_x s) (s_eps s) (s_tol s) prev_count (s_log s)
  | S fuel' =>
      match newton_iteration ls_fuel e cfg orig_eps orig_tol prev_count it s with
      | Stop r => r
      | Continue s' => newton_loop fuel' ls_fuel e cfg orig_eps orig_tol prev_count (S it) s'
      end
  end.

(** The initial guess loop, newton.rs:1059-1084: final guess, its merit and the number of evaluations. *)
Fixpoint initial_guess (fuel : nat) (e : env) (eps : vec) (k : nat) (x : vec) : vec * option R * nat :=
  let m := o_init_merit e k eps x in
  match m with
  | Some _ => (x, m, S k)
  | None =>
      if Nat.ltb 9 k then (x, m, S k)
      else match fuel with
           | O => (x, m, S k)
           | S fuel' => initial_guess fuel' e eps (S k) (if Nat.ltb 8 k then map (fun _ => 0) x else vscale (1/2) x)
           end
  end.

(** Newton::solve_with, newton.rs:850-1901: [prev] is the stored iteration count of the previous solve, [tol] the tolerance held by the
    iterative linear solver. *)
Definition newton_solve (ls_fuel : nat) (e : env) (cfg : config) (prev : nat) (x eps : vec) (tol : R) : result :=
  match x with
  | [] => Result (Ended NothingToSolve) 0 x eps tol prev []
  | _ =>
      let eps1 := if adaptive cfg then map (initial_epsilon prev) eps else eps in
      if negb (o_pattern_ok e) then Result (Ended FailedToInitializeJacobian) 0 x eps1 tol prev []
      else
        let '(x1, m, _) := initial_guess 10 e eps1 0 x in
        if o_pattern_empty e then Result (Ended NothingToSolve) 0 x1 eps1 tol prev []
        else newton_loop (Nat.max 1 (max_iter cfg)) ls_fuel e cfg eps tol prev 0 (State x1 eps1 tol m [])
  end.
