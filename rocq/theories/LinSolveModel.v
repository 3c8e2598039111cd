(** Iterative linear solvers: /repo/softy/src/fem/nl/linsolve/cr.rs and bicgstab.rs.  Exact reals, vectors as lists.
    The operator callback is [mv k x old]: the contents of the output buffer after the [k]-th call (counting from zero) on
    input [x] with previous buffer contents [old], and whether the caller wants to go on.  Where the floating-point code would
    divide by zero and go on with infinities or NaN the model stops with solution [None]. *)
From Coq Require Import Reals List Arith Bool.
From Verif Require Import RList.
Import ListNotations.
Local Open Scope R_scope.

(** nalgebra: [y.axpy(a, x, b)] sets [y] to [a * x + b * y]. *)
Definition axpy (a : R) (x : list R) (b : R) (y : list R) : list R := map (fun p => a * fst p + b * snd p) (combine x y).
Definition dot (x y : list R) : R := rsum (map (fun p => fst p * snd p) (combine x y)).
Definition norm_squared (x : list R) : R := dot x x.

(** linsolve.rs:9-23. *)
Inductive lin_status := LinSuccess | LinMaxIter | LinInterrupted | LinNan | LinSingular | LinOutOfFuel.
(** linsolve.rs:31-43 with the final contents of [x] ([None]: not finite). [lin_restarts] is a ghost counter (BiCGSTAB only). *)
Record lin_result := LinResult { lin_status_of : lin_status; lin_iterations : nat; lin_residual : R; lin_x : option (list R); lin_restarts : nat }.

Definition operator := nat -> list R -> list R -> list R * bool.
Definition eps64 : R := / 4503599627370496.
(** [f32::EPSILON], the floor applied to the tolerance in both constructors (cr.rs:33, bicgstab.rs:62). *)
Definition eps32 : R := / 8388608.

(** The loop of ConjugateResidual::solve, cr.rs:97-153. *)
Fixpoint cr_loop (fuel : nat) (mv : operator) (k max_iter : nat) (tol b_norm_sq : R) (iterations : nat)
    (x r p Ar Ap : list R) (rAr : R) : lin_result :=
  match fuel with
  | O => LinResult LinOutOfFuel iterations 0 (Some x) 0
  | S fuel' =>
      let ApAp := dot Ap Ap in
      if Req_EM_T ApAp 0 then LinResult LinNan iterations 0 None 0 else
      let alpha := rAr / ApAp in
      let x := axpy alpha p 1 x in
      let r := axpy (- alpha) Ap 1 r in
      let iterations := S iterations in
      let r_norm_sq := norm_squared r in
      if Rlt_dec r_norm_sq (tol * tol * b_norm_sq) then LinResult LinSuccess iterations (sqrt r_norm_sq) (Some x) 0
      else if Nat.leb max_iter iterations then LinResult LinMaxIter iterations (sqrt r_norm_sq) (Some x) 0
      else
        let (Ar, go) := mv k r Ar in
        if negb go then LinResult LinInterrupted iterations (sqrt r_norm_sq) (Some x) 0 else
        let rAr_new := dot r Ar in
        if Req_EM_T rAr 0 then LinResult LinNan iterations 0 None 0 else
        let beta := rAr_new / rAr in
        cr_loop fuel' mv (S k) max_iter tol b_norm_sq iterations x r (axpy 1 r beta p) Ar (axpy 1 Ar beta Ap) rAr_new
  end.

(** ConjugateResidual::solve, cr.rs:45-155; [p0], [Ar0], [Ap0] are the workspace vectors left by earlier solves, [tol] the clamped tolerance.
    [Ap0] is overwritten by [copy_from_slice].  The initial check uses [EPSILON * EPSILON]. *)
Definition cr_solve (mv : operator) (max_iter : nat) (tol : R) (p0 Ar0 Ap0 x b : list R) : lin_result :=
  let b_norm_sq := norm_squared b in
  let (p, go) := mv 0%nat x p0 in
  if negb go then LinResult LinInterrupted 0 0 (Some x) 0 else
  let r := axpy (- (1)) p 1 b in
  let r_norm_sq := norm_squared r in
  if Rle_dec r_norm_sq (eps64 * eps64) then LinResult LinSuccess 0 (sqrt r_norm_sq) (Some x) 0 else
  let p := r in
  let (Ar, _) := mv 1%nat r Ar0 in
  let Ap := Ar in
  cr_loop (S max_iter) mv 2 max_iter tol b_norm_sq 0 x r p Ar Ap (dot r Ar).

(** The right preconditioner callback: buffer contents after applying it to [input] (for the unpreconditioned variant the input itself). *)
Definition preconditioner := list R -> list R -> list R.

(** The loop of BiCGSTAB::solve_precond, bicgstab.rs:241-383.  [restore] selects whether line 259, commented out in the code,
    is executed: the code is [restore = false]. *)
Fixpoint bicgstab_loop (restore : bool) (fuel : nat) (mv : operator) (pc : preconditioner) (k max_iter : nat) (tol_sq : R) (iterations restarts : nat)
    (rhs x r r0s p t v y z : list R) (rho r0s_norm_sq r_norm_sq : R) : lin_result :=
  match fuel with
  | O => LinResult LinOutOfFuel iterations 0 (Some x) restarts
  | S fuel' =>
      let r0sTv := dot r0s v in
      (* lines 246-266 *)
      let restart := if Rle_dec (Rabs r0sTv) (eps64 * eps64 * r0s_norm_sq) then true else false in
      let (Ax, go) := if restart then mv k x r else (r, true) in
      let k := if restart then S k else k in
      if negb go then LinResult LinInterrupted iterations (sqrt r_norm_sq) (Some x) restarts else
      let r := if restart then (if restore then axpy 1 rhs (- (1)) Ax else Ax) else r in
      let restarts := if restart then S restarts else restarts in
      let r0s := if restart then v else r0s in
      let r0sTv := if restart then norm_squared r0s else r0sTv in
      let r0s_norm_sq := if restart then r0sTv else r0s_norm_sq in
      if Req_EM_T r0sTv 0 then LinResult LinNan iterations 0 None restarts else
      (* lines 268-280 *)
      let alpha := rho / r0sTv in
      let r := axpy (- alpha) v 1 r in
      let r_norm_sq := norm_squared r in
      if Rle_dec r_norm_sq tol_sq then LinResult LinSuccess iterations (sqrt r_norm_sq) (Some (axpy alpha y 1 x)) restarts else
      (* lines 282-314 *)
      let z := pc r z in
      let (t, go) := mv k z t in
      let k := S k in
      if negb go then LinResult LinInterrupted iterations (sqrt (norm_squared r)) (Some x) restarts else
      let t_norm_sq := dot t t in
      if Rle_dec t_norm_sq 0 then LinResult LinSingular iterations (sqrt r_norm_sq) (Some x) restarts else
      let w := dot r t / t_norm_sq in
      (* lines 318-343 *)
      let x := axpy w z 1 (axpy alpha y 1 x) in
      let r := axpy (- w) t 1 r in
      let r_norm_sq := norm_squared r in
      if Rle_dec r_norm_sq tol_sq then LinResult LinSuccess iterations (sqrt r_norm_sq) (Some x) restarts else
      if Nat.leb max_iter iterations then LinResult LinMaxIter iterations (sqrt r_norm_sq) (Some x) restarts else
      (* reset_r0s, lines 199-233, called in 352-364 *)
      let rho_new := dot r0s r in
      let reset := if Rle_dec (Rabs rho_new) (eps64 * eps64 * r0s_norm_sq) then true else false in
      let (Ax, go) := if reset then mv k x r else (r, true) in
      let k := if reset then S k else k in
      if negb go then LinResult LinInterrupted iterations (sqrt r_norm_sq) (Some x) restarts else
      let r := if reset then axpy 1 rhs (- (1)) Ax else r in
      let r0s := if reset then r else r0s in
      let rho_new := if reset then norm_squared r0s else rho_new in
      let r0s_norm_sq := if reset then rho_new else r0s_norm_sq in
      (* lines 366-382 *)
      if Req_EM_T rho 0 then LinResult LinNan iterations 0 None restarts else
      if Req_EM_T w 0 then LinResult LinNan iterations 0 None restarts else
      let beta := (rho_new / rho) * (alpha / w) in
      let p := axpy 1 r beta (axpy (- w) v 1 p) in
      let y := pc p y in
      let (v, go) := mv k y v in
      if negb go then LinResult LinInterrupted iterations (sqrt r_norm_sq) (Some x) restarts else
      bicgstab_loop restore fuel' mv pc (S k) max_iter tol_sq (S iterations) restarts rhs x r r0s p t v y z rho_new r0s_norm_sq r_norm_sq
  end.

(** Workspace of BiCGSTAB, bicgstab.rs:41-48. *)
Record bicgstab_ws := BicgWs { ws_r0s : list R; ws_rhs : list R; ws_p : list R; ws_t : list R; ws_v : list R; ws_y : list R; ws_z : list R }.

(** BiCGSTAB::solve_precond, bicgstab.rs:101-384.  [tol] is the clamped tolerance.  The initial value of [rho] is one (line 171). *)
Definition bicgstab_solve (restore : bool) (mv : operator) (pc : preconditioner) (max_iter : nat) (tol : R) (ws : bicgstab_ws) (x b : list R) : lin_result :=
  let rhs := b in
  let b_norm_sq := norm_squared rhs in
  if Req_EM_T b_norm_sq 0 then LinResult LinSuccess 0 0 (Some (map (fun _ => 0) x)) 0 else
  let tol_sq := b_norm_sq * (tol * tol) in
  let (p, go) := mv 0%nat x (ws_p ws) in
  if negb go then LinResult LinInterrupted 0 0 (Some x) 0 else
  let r := axpy (- (1)) p 1 b in
  let r0s := r in
  let r0s_norm_sq := norm_squared r0s in
  let p := r in
  let y := pc p (ws_y ws) in
  let (v, _) := mv 1%nat y (ws_v ws) in
  bicgstab_loop restore (S max_iter) mv pc 2 max_iter tol_sq 1 0 rhs x r r0s p (ws_t ws) v y (ws_z ws) 1 r0s_norm_sq (norm_squared r).
