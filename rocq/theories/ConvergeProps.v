(** Property theorems for the stopping condition. *)
From Coq Require Import Reals List Arith Bool Lra Lia Psatz.
From Verif Require Import Vec3 RList ConvergeModel ConvergeSpec ConvergeProofs.
Import ListNotations.
Local Open Scope R_scope.

(** C57. The test accepts exactly when one enabled tolerance is met. *)
Theorem converged_iff_enabled_criterion (n : nat) (x_prev x r r_unscaled mass_inv rel_mesh_size : list R) (dt factor x_tol r_tol a_tol : R) :
  length x_prev = (3 * n)%nat -> length x = (3 * n)%nat -> length r_unscaled = (3 * n)%nat ->
  (n <= length mass_inv)%nat -> (n <= length rel_mesh_size)%nat -> (forall i, 0 <= nth i mass_inv 0) ->
  converged x_prev x r r_unscaled mass_inv rel_mesh_size dt factor x_tol r_tol a_tol = true <->
  (0 < r_tol /\ force_small r r_tol) \/ (0 < x_tol /\ step_small x_prev x x_tol) \/
  (0 < a_tol /\ acceleration_small n x r_unscaled mass_inv rel_mesh_size (dt * factor) a_tol).
Proof. exact (converged_spec n x_prev x r r_unscaled mass_inv rel_mesh_size dt factor x_tol r_tol a_tol). Qed.
Print Assumptions converged_iff_enabled_criterion.
Example converged_nonvacuous :
  converged [0;0;0] [1;0;0] [1/2;0;0] [1/2;0;0] [1] [1] 1 1 0 1 0 = true /\ force_small [1/2;0;0] 1.
Proof.
  assert (F : force_small [1/2;0;0] 1).
  { intros i Hi. destruct i as [|[|[|i]]]; simpl in *; try lia; rewrite Rabs_pos_eq; lra. }
  split; [|exact F]. apply (converged_spec 1); simpl; try lia; [|left; split; [lra|exact F]].
  intros [|[|i]]; simpl; lra.
Qed.

(** C57. With every tolerance disabled (zero, the default of each unset tolerance in builder.rs:871-875) the test never accepts, whatever the iterate, so a
    solve can only end by exhausting its budget or by an error. *)
Theorem converged_never_when_disabled (x_prev x r r_unscaled mass_inv rel_mesh_size : list R) (dt factor x_tol r_tol a_tol : R) :
  x_tol <= 0 -> r_tol <= 0 -> a_tol <= 0 ->
  converged x_prev x r r_unscaled mass_inv rel_mesh_size dt factor x_tol r_tol a_tol = false.
Proof.
  intros H1 H2 H3. unfold converged, r_criterion, x_criterion, a_criterion, Rltb.
  destruct (Rlt_dec 0 r_tol); [lra|]. destruct (Rlt_dec 0 x_tol); [lra|]. destruct (Rlt_dec 0 a_tol); [lra|]. reflexivity.
Qed.
Print Assumptions converged_never_when_disabled.
(** Even at an exact solution that did not move. *)
Example converged_never_when_disabled_nonvacuous : converged [0;0;0] [0;0;0] [0;0;0] [0;0;0] [1] [1] 1 1 0 0 0 = false.
Proof. apply converged_never_when_disabled; lra. Qed.
