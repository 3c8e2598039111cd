(** Property theorems for the mixed complementarity wrapper and the diagonal scaling. *)
From Coq Require Import Reals List Arith Bool Lra Lia Psatz.
From Verif Require Import RList McpModel McpSpec McpProofs.
Import ListNotations.
Local Open Scope R_scope.

(** C19. The residual vanishes in every component exactly when every component meets the complementarity condition. *)
Theorem mcp_residual_zero_iff_complementary (F x : list R) (l u : list bound) :
  length F = length x -> length l = length x -> length u = length x ->
  (forall i, (i < length x)%nat -> ordered (nth i l None) (nth i u None)) ->
  (forall i, (i < length x)%nat -> nth i (mcp_residual F x l u) 0 = 0) <->
  (forall i, (i < length x)%nat -> complementary (nth i F 0) (nth i x 0) (nth i l None) (nth i u None)).
Proof. exact (mcp_residual_zero F x l u). Qed.
Print Assumptions mcp_residual_zero_iff_complementary.
(** Three regimes at once: pushed against the lower bound, free, pushed against the upper bound, one unbounded. *)
Example mcp_residual_zero_iff_complementary_nonvacuous :
  mcp_residual [3; 0; -2; 0] [1; 5; 4; 7] [Some 1; Some 0; None; None] [Some 9; Some 9; Some 4; None] = [0; 0; 0; 0] /\
  mcp_residual [-3] [1] [Some 1] [Some 9] = [-3].
Proof.
  unfold mcp_residual, mcp_component, min_lower, max_upper. split; repeat (f_equal); unfold Rmin, Rmax; repeat destruct Rle_dec; lra.
Qed.

(** C20 (partial: rows whose bounds are not active).  With the wrapped product consistent with the wrapped triplets, matrix
    and product agree in every row where neither active test fires. *)
Theorem mcp_jacobian_agree_inactive_partial (x r jp p : list R) (l u : list bound) (ts : list (nat * nat * R)) (i : nat) :
  (i < length x)%nat -> length l = length x -> length u = length x -> length r = length x -> length jp = length x ->
  nth i jp 0 = triplet_product ts p i ->
  upper_active (nth i r 0) (nth i x 0) (nth i u None) = false -> lower_active (nth i r 0) (nth i x 0) (nth i l None) = false ->
  triplet_product (with_values ts (mcp_jacobian_values x r l u ts)) p i = nth i (mcp_jacobian_product x l u r jp) 0.
Proof.
  intros Hi Hl Hu Hr Hj Hjp H1 H2. assert (Ha : active x r l u i = false) by (unfold active; rewrite H1, H2; reflexivity).
  unfold mcp_jacobian_values. rewrite (mcp_loop_inactive x r l u [] ts p i Ha), mcp_product_nth by assumption. symmetry. exact Hjp.
Qed.
Print Assumptions mcp_jacobian_agree_inactive_partial.
Example mcp_jacobian_agree_inactive_nonvacuous :
  upper_active (-1) 2 (Some 9) = false /\ lower_active (-1) 2 (Some 0) = false /\
  nth 0 [8] 0 = triplet_product [(0%nat, 0%nat, 4)] [2] 0.
Proof.
  unfold upper_active, lower_active, Rleb, triplet_product. simpl. rewrite rsum_cons, rsum_nil.
  split; [destruct Rle_dec; [lra|reflexivity]|split; [destruct Rle_dec; [lra|reflexivity]|lra]].
Qed.

(** C20. Rows of the assembled matrix with an active bound are rows of the identity (when the diagonal is in the pattern). *)
Theorem mcp_jacobian_active_row_is_identity (x r p : list R) (l u : list bound) (ts : list (nat * nat * R)) (i : nat) :
  (forall a c v, In (a, c, v) ts -> (a < length l)%nat /\ (c < length l)%nat) ->
  (exists v, In (i, i, v) ts) ->
  upper_active (nth i r 0) (nth i x 0) (nth i u None) || lower_active (nth i r 0) (nth i x 0) (nth i l None) = true ->
  triplet_product (with_values ts (mcp_jacobian_values x r l u ts)) p i = nth i p 0.
Proof.
  intros Hin [v Hv] Ha. unfold mcp_jacobian_values. rewrite (mcp_loop_active x r l u [] ts p i Ha Hin). simpl.
  replace (existsb _ ts) with true; [reflexivity|]. symmetry. apply existsb_exists. exists (i, i, v). split; [exact Hv|].
  simpl. rewrite Nat.eqb_refl. reflexivity.
Qed.
Print Assumptions mcp_jacobian_active_row_is_identity.
(** Repeated diagonal and off-diagonal triplets in an active row. *)
Example mcp_jacobian_active_row_nonvacuous :
  mcp_jacobian_values [3; 0] [1; 5] [None; None] [Some 2; None] [(0%nat, 0%nat, 4); (0%nat, 1%nat, 6); (0%nat, 0%nat, 2); (1%nat, 1%nat, 7)] = [1; 0; 0; 7].
Proof.
  unfold mcp_jacobian_values. cbn -[Rle_dec Rleb]. unfold Rleb. destruct (Rle_dec 1 (3 - 2)); [|lra]. simpl. reflexivity.
Qed.

(** C20 refuted: on an active bound the product returns the residual [x - u] instead of the direction's component, whatever the
    direction; matrix and product differ. *)
Theorem mcp_jacobian_agree_refuted :
  exists (x r jp p : list R) (l u : list bound) (ts : list (nat * nat * R)),
    r = mcp_residual [-3] x l u /\ (forall i, (i < 1)%nat -> nth i jp 0 = triplet_product ts p i) /\
    triplet_product (with_values ts (mcp_jacobian_values x r l u ts)) p 0 = 1 /\
    nth 0 (mcp_jacobian_product x l u r jp) 0 = 0.
Proof.
  exists [1], [0], [2], [1], [None], [Some 1], [(0%nat, 0%nat, 2)].
  split; [|split; [|split]].
  - simpl. unfold mcp_component, min_lower, max_upper, Rmax. f_equal. destruct Rle_dec; lra.
  - intros i Hi. assert (i = 0%nat) by lia. subst i. unfold triplet_product. simpl. rewrite rsum_cons, rsum_nil. lra.
  - unfold mcp_jacobian_values. cbn -[Rle_dec Rleb triplet_product]. unfold Rleb. destruct Rle_dec; [|lra].
    unfold triplet_product. simpl. rewrite rsum_cons, rsum_nil. lra.
  - simpl. unfold Rleb. destruct Rle_dec; [|lra]. lra.
Qed.
Print Assumptions mcp_jacobian_agree_refuted.

(** C65. Applied to the unscaled residual, the active tests of the Jacobian select exactly the components in which the bound
    term (and not the force) is the residual. *)
Theorem mcp_active_tests_exact_unscaled (F x : R) (l u : bound) : separated l u ->
  (upper_active (mcp_component F x l u) x u = true <-> exists b, u = Some b /\ F <= x - b) /\
  (lower_active (mcp_component F x l u) x l = true <-> exists b, l = Some b /\ x - b <= F).
Proof. intros H. split; [exact (upper_active_spec F x l u H)|exact (lower_active_spec F x l u H)]. Qed.
Print Assumptions mcp_active_tests_exact_unscaled.
Example mcp_active_tests_exact_unscaled_nonvacuous : separated (Some 0) (Some 2) /\ (exists b, Some 2 = Some b /\ -5 <= 1 - b).
Proof. split; [simpl; lra|]. exists 2. split; [reflexivity|lra]. Qed.

(** C65 refuted for the residual the Newton loop passes (newton.rs:1065, 1173, 1247-1253: [r_cur] is the residual scaled by the
    diagonal preconditioner): a free component is treated as being at its bound, and an active one as free. *)
Theorem mcp_active_tests_scaled_refuted :
  (exists F x b p, 0 < p /\ ~ F <= x - b /\ upper_active (mcp_component F x None (Some b) * p) x (Some b) = true) /\
  (exists F x b p, 0 < p /\ F <= x - b /\ upper_active (mcp_component F x None (Some b) * p) x (Some b) = false).
Proof.
  split.
  - exists (-1/2), 0, 1, 10. split; [lra|split; [lra|]]. unfold upper_active, mcp_component, min_lower, max_upper, Rleb, Rmax.
    repeat destruct Rle_dec; try reflexivity; lra.
  - exists (-5), 0, 1, (1/10). split; [lra|split; [lra|]]. unfold upper_active, mcp_component, min_lower, max_upper, Rleb, Rmax.
    repeat destruct Rle_dec; try reflexivity; lra.
Qed.
Print Assumptions mcp_active_tests_scaled_refuted.

(** C27. Every entry of the finished diagonal scaling is positive and bounded, whatever the diagonal, and away from the guard
    symmetric scaling normalises the diagonal. *)
Theorem preconditioner_entries_positive_finite (diag : list R) (p : R) :
  In p (finish_preconditioner diag) -> 0 < p <= 4503599627370496.
Proof.
  intros H. apply in_map_iff in H. destruct H as [x [<- _]]. split; [apply precond_entry_pos|apply precond_entry_le].
Qed.
Print Assumptions preconditioner_entries_positive_finite.
Theorem preconditioner_normalises_diagonal (x : R) :
  f64_epsilon <= sqrt (Rabs x) -> precond_entry x * Rabs x * precond_entry x = 1.
Proof. exact (precond_entry_scales x). Qed.
Print Assumptions preconditioner_normalises_diagonal.
Example preconditioner_entries_nonvacuous : finish_preconditioner [0; -4] = [1; 1 / 2] /\ f64_epsilon <= sqrt (Rabs (-4)).
Proof.
  assert (E : sqrt (Rabs (-4)) = 2). { rewrite Rabs_left by lra. replace (- -4) with (2 * 2) by lra. apply sqrt_square. lra. }
  assert (E0 : sqrt (Rabs 0) = 0) by (rewrite Rabs_R0; apply sqrt_0).
  assert (P : 0 < f64_epsilon < 1). { unfold f64_epsilon. split; [apply Rinv_0_lt_compat; lra|]. rewrite <- Rinv_1. apply Rinv_lt_contravar; lra. }
  split; [|rewrite E; lra]. unfold finish_preconditioner, precond_entry. simpl. rewrite E, E0.
  destruct (Rlt_dec 0 _); [|lra]. destruct (Rlt_dec 2 _); [lra|]. reflexivity.
Qed.

(** C27. Scaling and unscaling by the finished preconditioner are mutually inverse on every vector. *)
Theorem diagonal_scaling_round_trip (diag r : list R) :
  unscale_vector (finish_preconditioner diag) (rescale_vector (finish_preconditioner diag) r) = r /\
  rescale_vector (finish_preconditioner diag) (unscale_vector (finish_preconditioner diag) r) = r.
Proof.
  assert (H : forall x, In x (finish_preconditioner diag) -> x <> 0).
  { intros x Hx. apply preconditioner_entries_positive_finite in Hx. lra. }
  split; [exact (scale_unscale _ r H)|exact (unscale_scale _ r H)].
Qed.
Print Assumptions diagonal_scaling_round_trip.
Example diagonal_scaling_round_trip_nonvacuous : rescale_vector [1; 1 / 2] [6; 8; 9] = [6; 4; 9] /\ unscale_vector [1; 1 / 2] [6; 4; 9] = [6; 8; 9].
Proof. simpl. split; repeat (f_equal; try lra). Qed.

(** C27. The scaled triplets represent the scaled matrix: each row of the product is scaled like the right-hand side. *)
Theorem jacobian_scaling_matches_vector_scaling (p v : list R) (ts : list (nat * nat * R)) (i : nat) :
  (i < length p)%nat ->
  triplet_product (with_values ts (rescale_jacobian_values p (map (fun t => fst (fst t)) ts) (map snd ts))) v i
  = triplet_product ts v i * nth i p 0.
Proof. exact (rescale_values_product p v ts i). Qed.
Print Assumptions jacobian_scaling_matches_vector_scaling.
Example jacobian_scaling_nonvacuous : rescale_jacobian_values [2; 3] [1; 0; 5]%nat [10; 20; 30] = [30; 40; 30].
Proof. unfold rescale_jacobian_values. simpl. repeat (f_equal; try lra). Qed.
