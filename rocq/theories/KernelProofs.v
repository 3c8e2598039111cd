(** Lemmas about the radial kernels (statements of record are in KernelProps.v). *)
From Coq Require Import Reals Lra Psatz.
From Coquelicot Require Import Coquelicot.
From Verif Require Import Calc Dual Vec3 KernelModel KernelSpec.
Local Open Scope R_scope.

Ltac in_support r x :=
  destruct (Rlt_dec r x) as [?H|?H]; [exfalso; lra|].
Ltac out_support r x :=
  destruct (Rlt_dec r x) as [?H|?H]; [|exfalso; lra].

Ltac unk := unfold global_ddf, global_df, global_df_gen, global_f, global_f_gen,
  interp_ddf, interp_df, interp_df_gen, interp_f, interp_f_gen, cubic_f, cubic_f_gen in *; simpl in *.

Lemma sq_pos (x : R) : x <> 0 -> 0 < x * x.
Proof. intros H. nra. Qed.

(** Non-zeroness side conditions. *)
Ltac nz := repeat split; try lra; try nra;
  repeat (apply Rmult_integral_contrapositive_currified); try lra; try nra.

Lemma global_spec (e x : R) :
  0 < e -> is_derive (global_f e) x (global_df e x) /\ is_derive (global_df e) x (global_ddf e x).
Proof.
  intros He. assert (Hq : forall y, 0 < y * y + e * e) by (intros y; nra).
  pose proof (Hq x) as Hx.
  split.
  - unk. auto_derive; [nz|]. field. nz.
  - unk. auto_derive; [nz|]. field. nz.
Qed.

Lemma cubic_in (r y : R) : y <= r -> cubic_f r y = 1 - 3 * y * y / (r * r) + 2 * y * y * y / (r * r * r).
Proof. intros H. unk. in_support r y. reflexivity. Qed.
Lemma cubic_out (r y : R) : r < y -> cubic_f r y = 0.
Proof. intros H. unk. out_support r y. reflexivity. Qed.

Lemma cubic_spec (r x : R) : 0 < r -> x <> r ->
  is_derive (cubic_f r) x (cubic_df r x) /\ is_derive (cubic_df r) x (cubic_ddf r x).
Proof.
  intros Hr Hx. destruct (Rlt_dec r x) as [Ho|Ho].
  - unfold cubic_ddf, cubic_df at 1. out_support r x. split.
    + apply is_derive_right with r; [exact Ho|]. apply cubic_out.
    + apply is_derive_right with r; [exact Ho|]. intros y Hy. unfold cubic_df. out_support r y. reflexivity.
  - assert (Hlt : x < r) by lra. unfold cubic_ddf, cubic_df at 1. in_support r x. split.
    + eapply is_derive_left; [exact Hlt|apply cubic_in|]. auto_derive; [nz|]. field. nz.
    + eapply is_derive_left with (g := fun y => 6 * (y * y / (r * r * r) - y / (r * r))); [exact Hlt| |].
      * intros y Hy. unfold cubic_df. in_support r y. reflexivity.
      * auto_derive; [nz|]. field. nz.
Qed.

Lemma interp_spec (r c x : R) : 0 < r -> x <> r -> x <> 0 ->
  is_derive (interp_f r c) x (interp_df r c x) /\ is_derive (interp_df r c) x (interp_ddf r c x).
Proof.
  intros Hr Hx H0. destruct (Rlt_dec r x) as [Ho|Ho].
  - split.
    + replace (interp_df r c x) with 0 by (unk; out_support r x; reflexivity).
      apply is_derive_right with r; [exact Ho|]. intros y Hy. unk. out_support r y. reflexivity.
    + replace (interp_ddf r c x) with 0 by (unk; out_support r x; reflexivity).
      apply is_derive_right with r; [exact Ho|]. intros y Hy. unk. out_support r y. reflexivity.
  - assert (Hlt : x < r) by lra.
    assert (Hx2 : x * x <> 0) by nra.
    split.
    + eapply is_derive_left with (g := fun y =>
        (1 - 3 * y * y / (r * r) + 2 * y * y * y / (r * r * r)) * (c / r) * (c / r) * (1 / ((y / r) * (y / r)) - 1));
        [exact Hlt| |].
      * intros y Hy. unk. in_support r y. reflexivity.
      * unk. in_support r x. simpl. auto_derive.
        { nz. apply Rinv_neq_0_compat; lra. apply Rinv_neq_0_compat; lra. }
        field. nz.
    + eapply is_derive_left; [exact Hlt| |].
      * intros y Hy. unk. in_support r y. simpl. reflexivity.
      * unk. in_support r x. simpl. auto_derive.
        { nz; try (apply Rinv_neq_0_compat; lra). }
        field. nz.
Qed.

Lemma smooth_spec (r t x : R) : 0 < r -> 0 < t -> x <> r ->
  is_derive (smooth_f r t) x (smooth_df r t x) /\ is_derive (smooth_df r t) x (smooth_ddf r t x).
Proof.
  intros Hr Ht Hx. destruct (Rlt_dec r x) as [Ho|Ho].
  - unfold smooth_ddf, smooth_df at 1. out_support r x. split.
    + apply is_derive_right with r; [exact Ho|]. intros y Hy. unfold smooth_f. out_support r y. reflexivity.
    + apply is_derive_right with r; [exact Ho|]. intros y Hy. unfold smooth_df. out_support r y. reflexivity.
  - assert (Hlt : x < r) by lra. unfold smooth_ddf, smooth_df at 1. in_support r x. cbv zeta.
    assert (Hd : 0 < t + x / r * (x / r)) by nra.
    assert (Hri : / r <> 0) by (apply Rinv_neq_0_compat; lra).
    assert (Hd2 : t + x * / r * (x * / r) <> 0) by (unfold Rdiv in Hd; lra).
    assert (Hd3 : 0 < t * (r * r) + x * x) by (assert (0 < t * (r * r)) by (apply Rmult_lt_0_compat; nra); nra).
    assert (Hq : forall d, t * t + 2 * t * (d * d) + d * d * d * d = (t + d * d) * (t + d * d)) by (intros; ring).
    split.
    + eapply is_derive_left with (g := fun y =>
         t * (2 * (y / r * (y / r) * (y / r)) - 3 * (y / r * (y / r)) + 1) / (t + y / r * (y / r))); [exact Hlt| |].
      * intros y Hy. unfold smooth_f. in_support r y. reflexivity.
      * auto_derive; [nz|]. rewrite Hq. field. nz.
    + eapply is_derive_left with (g := fun y =>
         2 * t * (y / r) * (3 * t * (y / r) - 3 * t + y / r * (y / r) * (y / r) - 1)
           / (r * ((t + y / r * (y / r)) * (t + y / r * (y / r))))); [exact Hlt| |].
      * intros y Hy. unfold smooth_df. in_support r y. cbv zeta. rewrite Hq. reflexivity.
      * auto_derive; [nz|].
        replace (t * t * t + 3 * (t * t) * (x / r * (x / r)) + 3 * t * (x / r * (x / r) * (x / r) * (x / r)) +
            x / r * (x / r) * (x / r) * (x / r * (x / r) * (x / r)))
          with ((t + x / r * (x / r)) * (t + x / r * (x / r)) * (t + x / r * (x / r))) by ring.
        field. nz.
Qed.

Lemma approx_spec (r e x : R) : 0 < r -> 0 < e -> x <> r ->
  is_derive (approx_f r e) x (approx_df r e x) /\ is_derive (approx_df r e) x (approx_ddf r e x).
Proof.
  intros Hr Ht Hx. destruct (Rlt_dec r x) as [Ho|Ho].
  - unfold approx_ddf, approx_df at 1. out_support r x. split.
    + apply is_derive_right with r; [exact Ho|]. intros y Hy. unfold approx_f. out_support r y. reflexivity.
    + apply is_derive_right with r; [exact Ho|]. intros y Hy. unfold approx_df. out_support r y. reflexivity.
  - assert (Hlt : x < r) by lra. unfold approx_ddf, approx_df at 1. in_support r x. cbv zeta.
    assert (Hd : 0 < x / r * (x / r) + e) by nra.
    assert (Hd2 : x * / r * (x * / r) + e <> 0) by (unfold Rdiv in Hd; lra).
    assert (Hd3 : 0 < x * x + e * (r * r)) by (assert (0 < e * (r * r)) by (apply Rmult_lt_0_compat; nra); nra).
    split.
    + eapply is_derive_left with (g := fun y =>
         e * e * ((1 + e) * (1 + e)) / (1 + 2 * e)
          * (1 / (y / r * (y / r) + e) * (1 / (y / r * (y / r) + e)) - 1 / ((1 + e) * (1 + e)))); [exact Hlt| |].
      * intros y Hy. unfold approx_f. in_support r y. reflexivity.
      * auto_derive; [nz|]. field. nz.
    + eapply is_derive_left with (g := fun y =>
         - (e * e * ((1 + e) * (1 + e)) / (1 + 2 * e)) * 4 * (y / r)
          / (r * (y / r * (y / r) + e) * (y / r * (y / r) + e) * (y / r * (y / r) + e))); [exact Hlt| |].
      * intros y Hy. unfold approx_df. in_support r y. reflexivity.
      * auto_derive; [nz|]. field. nz.
Qed.

Lemma kernel_derivatives (k : kernel) (x : R) : valid_kernel k -> regular_distance k x ->
  is_derive (k_f k) x (k_df k x) /\ is_derive (k_df k) x (k_ddf k x).
Proof.
  destruct k as [e|r|r c|r t|r e]; simpl; intros Hv Hx.
  - apply global_spec; exact Hv.
  - apply cubic_spec; assumption.
  - destruct Hv, Hx. apply interp_spec; assumption.
  - destruct Hv. apply smooth_spec; assumption.
  - destruct Hv. apply approx_spec; assumption.
Qed.

(** ** Support and normalisation *)
Lemma kernel_support (k : kernel) (r x : R) : support k = Some r -> r < x ->
  k_f k x = 0 /\ k_df k x = 0 /\ k_ddf k x = 0.
Proof.
  destruct k; simpl; intros Hs Hx; inversion Hs; subst; unk; unfold cubic_df, cubic_ddf, smooth_f, smooth_df,
    smooth_ddf, approx_f, approx_df, approx_ddf; out_support r x; auto.
Qed.

Lemma ratio_le (a b c d : R) : 0 <= a <= b -> 0 < d <= c -> a / c <= b / d.
Proof.
  intros Hab Hcd. unfold Rdiv. assert (/ c <= / d) by (apply Rinv_le_contravar; lra).
  assert (0 < / c) by (apply Rinv_0_lt_compat; lra). nra.
Qed.

Lemma unit_ratio (r x : R) : 0 < r -> 0 <= x <= r -> 0 <= x / r <= 1.
Proof.
  intros Hr Hx. assert (0 < / r) by (apply Rinv_0_lt_compat; lra). assert (Hrr : r * / r = 1) by (field; lra).
  unfold Rdiv. split; nra.
Qed.
Lemma ratio_mono (r x y : R) : 0 < r -> x <= y -> x / r <= y / r.
Proof. intros Hr Hx. assert (0 < / r) by (apply Rinv_0_lt_compat; lra). unfold Rdiv. nra. Qed.

Lemma bump_mono (d e : R) : 0 <= d -> d <= e -> e <= 1 ->
  2 * (e * e * e) - 3 * (e * e) + 1 <= 2 * (d * d * d) - 3 * (d * d) + 1.
Proof.
  intros H0 H1 H2.
  assert (Hf : 2 * (d * d * d) - 3 * (d * d) - (2 * (e * e * e) - 3 * (e * e))
     = (e - d) * (3 * (e + d) - 2 * (e * e + e * d + d * d))) by ring.
  assert (0 <= 3 * (e + d) - 2 * (e * e + e * d + d * d)).
  { assert (e * e <= e) by nra. assert (e * d <= d) by nra. assert (d * d <= d) by nra.
    assert (e * d <= e) by nra. nra. }
  nra.
Qed.
Lemma bump_range (d : R) : 0 <= d <= 1 -> 0 <= 2 * (d * d * d) - 3 * (d * d) + 1 <= 1.
Proof. intros H. split; [pose proof (bump_mono d 1)|pose proof (bump_mono 0 d)]; lra. Qed.

Lemma cubic_in_ratio (r y : R) : 0 < r -> y <= r ->
  cubic_f r y = 2 * (y / r * (y / r) * (y / r)) - 3 * (y / r * (y / r)) + 1.
Proof. intros Hr Hy. rewrite cubic_in by exact Hy. field. lra. Qed.
Lemma smooth_in (r t y : R) : y <= r ->
  smooth_f r t y = t * (2 * (y / r * (y / r) * (y / r)) - 3 * (y / r * (y / r)) + 1) / (t + y / r * (y / r)).
Proof. intros Hy. unfold smooth_f. in_support r y. reflexivity. Qed.
Definition afac (e : R) := e * e * ((1 + e) * (1 + e)) / (1 + 2 * e).
Lemma afac_pos (e : R) : 0 < e -> 0 < afac e.
Proof. intros He. unfold afac. apply Rdiv_lt_0_compat; [|lra]. nra. Qed.
Lemma approx_in (r e y : R) : y <= r ->
  approx_f r e y = afac e * (1 / (y / r * (y / r) + e) * (1 / (y / r * (y / r) + e)) - 1 / ((1 + e) * (1 + e))).
Proof. intros Hy. unfold approx_f. in_support r y. reflexivity. Qed.

Lemma inv_sq_mono (p q : R) : 0 < p -> p <= q -> 1 / q * (1 / q) <= 1 / p * (1 / p).
Proof.
  intros Hp Hq. assert (/ q <= / p) by (apply Rinv_le_contravar; lra).
  assert (0 < / q) by (apply Rinv_0_lt_compat; lra). unfold Rdiv. rewrite !Rmult_1_l. nra.
Qed.

Lemma sq_mono (a b : R) : 0 <= a -> a <= b -> a * a <= b * b.
Proof. intros. nra. Qed.

Lemma local_mono_in (k : kernel) (r x y : R) : valid_kernel k -> normalised_kernel k -> support k = Some r ->
  0 <= x -> x <= y -> y <= r -> k_f k y <= k_f k x.
Proof.
  destruct k as [e|r'|r' c|r' t|r' e]; simpl; intros Hv Hn Hs; try contradiction; inversion Hs; subst r'; intros Hx Hxy Hy.
  - rewrite !cubic_in_ratio by lra.
    apply bump_mono; [apply unit_ratio|apply ratio_mono|apply unit_ratio]; lra.
  - destruct Hv as [Hr Ht]. rewrite !smooth_in by lra.
    pose proof (unit_ratio r x Hr ltac:(lra)) as Ux. pose proof (unit_ratio r y Hr ltac:(lra)) as Uy.
    pose proof (ratio_mono r x y Hr Hxy) as Um.
    pose proof (bump_mono _ _ (proj1 Ux) Um (proj2 Uy)) as B. pose proof (bump_range _ Uy) as By.
    pose proof (sq_mono _ _ (proj1 Ux) Um) as S. assert (0 <= x / r * (x / r)) by nra.
    apply ratio_le; nra.
  - destruct Hv as [Hr He]. rewrite !approx_in by lra.
    pose proof (unit_ratio r x Hr ltac:(lra)) as Ux. pose proof (ratio_mono r x y Hr Hxy) as Um.
    pose proof (sq_mono _ _ (proj1 Ux) Um) as S. assert (0 <= x / r * (x / r)) by nra.
    apply Rmult_le_compat_l; [left; apply afac_pos; exact He|].
    pose proof (inv_sq_mono (x / r * (x / r) + e) (y / r * (y / r) + e) ltac:(lra) ltac:(lra)). lra.
Qed.

Lemma local_at_zero (k : kernel) : valid_kernel k -> normalised_kernel k -> k_f k 0 = 1.
Proof.
  destruct k as [e|r'|r' c|r' t|r' e]; simpl; intros Hv Hn; try contradiction.
  - rewrite cubic_in by lra. field. lra.
  - rewrite smooth_in by lra. field. lra.
  - rewrite approx_in by lra. unfold afac. field. lra.
Qed.

Lemma local_at_radius (k : kernel) (r : R) : valid_kernel k -> support k = Some r -> k_f k r = 0.
Proof.
  destruct k as [e|r'|r' c|r' t|r' e]; simpl; intros Hv Hs; inversion Hs; subst r'.
  - rewrite cubic_in by lra. field. lra.
  - unk. in_support r r. field. lra.
  - rewrite smooth_in by lra. field. lra.
  - rewrite approx_in by lra. unfold afac. field. lra.
Qed.

Lemma support_pos (k : kernel) (r : R) : valid_kernel k -> support k = Some r -> 0 < r.
Proof. destruct k; simpl; intros Hv Hs; inversion Hs; subst; lra. Qed.

Lemma local_monotone (k : kernel) (x y : R) : valid_kernel k -> normalised_kernel k ->
  0 <= x -> x <= y -> k_f k y <= k_f k x.
Proof.
  intros Hv Hn Hx Hxy.
  assert (Hs : exists r, support k = Some r) by (destruct k; simpl in *; try contradiction; eauto).
  destruct Hs as [r Hs]. pose proof (support_pos k r Hv Hs) as Hr.
  destruct (Rlt_le_dec r y) as [Hy|Hy].
  - rewrite (proj1 (kernel_support k r y Hs Hy)).
    destruct (Rlt_le_dec r x) as [Hx'|Hx'].
    + rewrite (proj1 (kernel_support k r x Hs Hx')). lra.
    + rewrite <- (local_at_radius k r Hv Hs). apply local_mono_in with r; auto; lra.
  - apply local_mono_in with r; auto.
Qed.

Lemma local_range (k : kernel) (x : R) : valid_kernel k -> normalised_kernel k -> 0 <= x -> 0 <= k_f k x <= 1.
Proof.
  intros Hv Hn Hx.
  assert (Hs : exists r, support k = Some r) by (destruct k; simpl in *; try contradiction; eauto).
  destruct Hs as [r Hs]. pose proof (support_pos k r Hv Hs) as Hr. split.
  - destruct (Rlt_le_dec r x) as [Hx'|Hx'].
    + rewrite (proj1 (kernel_support k r x Hs Hx')). lra.
    + rewrite <- (local_at_radius k r Hv Hs). apply local_monotone; auto.
  - rewrite <- (local_at_zero k Hv Hn). apply local_monotone; auto; lra.
Qed.

Lemma interp_positive (r c x : R) : 0 < r -> 0 < c -> 0 < x -> x < r -> 0 < interp_f r c x.
Proof.
  intros Hr Hc H0 Hx. unk. in_support r x.
  assert (Hd : 0 < x / r < 1).
  { assert (0 < / r) by (apply Rinv_0_lt_compat; lra). assert (r * / r = 1) by (field; lra). unfold Rdiv. split; nra. }
  set (d := x / r) in *.
  replace (1 - 3 * x * x / (r * r) + 2 * x * x * x / (r * r * r)) with ((1 - d) * (1 - d) * (1 + 2 * d))
    by (unfold d; field; lra).
  assert (0 < c / r) by (apply Rdiv_lt_0_compat; lra).
  assert (0 < (1 - d) * (1 - d) * (1 + 2 * d)) by (repeat apply Rmult_lt_0_compat; lra).
  assert (0 < 1 / (d * d) - 1).
  { assert (1 < / (d * d)) by (rewrite <- Rinv_1; apply Rinv_lt_contravar; nra). unfold Rdiv. lra. }
  repeat apply Rmult_lt_0_compat; first [assumption | lra | (apply Rinv_0_lt_compat; lra)].
Qed.

(** ** Smoothness at the radius *)
Lemma smooth_at_radius (k : kernel) (r : R) : valid_kernel k -> support k = Some r ->
  (forall r' e, k <> Approximate r' e) -> k_f k r = 0 /\ k_df k r = 0 /\ is_derive (k_f k) r 0.
Proof.
  intros Hv Hs Hna. pose proof (support_pos k r Hv Hs) as Hr.
  split; [apply local_at_radius; assumption|].
  destruct k as [e|r'|r' c|r' t|r' e]; simpl in *; inversion Hs; subst r'.
  - split; [unfold cubic_df; in_support r r; field; lra|].
    eapply is_derive_glue with (g2 := fun _ => 0); [apply cubic_in|apply cubic_out| | |apply @is_derive_const].
    + simpl. field. lra.
    + simpl. auto_derive; [nz|]. field. lra.
  - split; [unk; in_support r r; simpl; field; lra|].
    eapply is_derive_glue with (g2 := fun _ => 0).
    + intros y Hy. unk. in_support r y. reflexivity.
    + intros y Hy. unk. out_support r y. reflexivity.
    + simpl. field. lra.
    + simpl. auto_derive; [|field; lra].
      nz; apply Rinv_neq_0_compat; lra.
    + apply @is_derive_const.
  - destruct Hv as [_ Ht].
    split; [unfold smooth_df; in_support r r; cbv zeta|].
    + replace (r / r) with 1 by (field; lra). field. split; nra.
    + eapply is_derive_glue with (g2 := fun _ => 0); [apply smooth_in| | | |apply @is_derive_const].
      * intros y Hy. unfold smooth_f. out_support r y. reflexivity.
      * simpl. field. nra.
      * assert (Hrr : r * / r = 1) by (field; lra).
        simpl. auto_derive; [rewrite !Hrr; nz|]. field. nra.
  - exfalso. apply (Hna r e). reflexivity.
Qed.

Lemma approx_kink (r e : R) : 0 < r -> 0 < e ->
  k_f (Approximate r e) r = 0 /\ k_df (Approximate r e) r < 0 /\ ~ ex_derive (k_f (Approximate r e)) r.
Proof.
  intros Hr He. split; [apply local_at_radius; simpl; auto|].
  assert (Hdf : approx_df r e r = - afac e * 4 / (r * (1 + e) * (1 + e) * (1 + e))).
  { unfold approx_df. in_support r r. cbv zeta. fold (afac e). replace (r / r) with 1 by (field; lra). field. split; lra. }
  pose proof (afac_pos e He) as Ha.
  assert (Hneg : approx_df r e r < 0).
  { rewrite Hdf. assert (0 < afac e * 4 / (r * (1 + e) * (1 + e) * (1 + e))).
    { apply Rdiv_lt_0_compat; [lra|]. repeat apply Rmult_lt_0_compat; lra. }
    replace (- afac e * 4 / (r * (1 + e) * (1 + e) * (1 + e)))
      with (- (afac e * 4 / (r * (1 + e) * (1 + e) * (1 + e)))) by (field; split; lra). lra. }
  split; [exact Hneg|].
  eapply not_derive_kink with (g2 := fun _ => 0) (l1 := approx_df r e r) (l2 := 0);
    [apply approx_in| | | |apply @is_derive_const|lra].
  - intros y Hy. simpl. unfold approx_f. out_support r y. reflexivity.
  - simpl. replace (r / r) with 1 by (field; lra). field. lra.
  - rewrite Hdf. assert (Hrr : r * / r = 1) by (field; lra).
    auto_derive; [rewrite !Hrr; nz|]. field. nz.
Qed.

(** ** Radial gradient and Hessian *)
Lemma v3_norm_pos (a : v3) : a <> v3_0 -> 0 < v3_norm a.
Proof.
  intros H. unfold v3_norm. apply sqrt_lt_R0. unfold v3_dot. destruct a as [x y z]; simpl.
  destruct (Req_dec x 0), (Req_dec y 0), (Req_dec z 0); subst; try (exfalso; apply H; reflexivity); nra.
Qed.
Lemma v3_norm_sq (a : v3) : v3_norm a * v3_norm a = v3_dot a a.
Proof. unfold v3_norm. apply sqrt_sqrt. unfold v3_dot. nra. Qed.
Lemma v3_sub_ne (x p : v3) : x <> p -> v3_sub x p <> v3_0.
Proof.
  intros H E. apply H. destruct x, p. unfold v3_sub, v3_0 in E. simpl in E. inversion E. f_equal; lra.
Qed.

Lemma norm_line_derive (a u : v3) : a <> v3_0 ->
  is_derive (fun s => v3_norm (v3_line a u s)) 0 (v3_dot a u / v3_norm a).
Proof.
  intros Ha. pose proof (v3_norm_pos a Ha) as Hn.
  assert (Hd : 0 < v3_dot a a) by (rewrite <- v3_norm_sq; nra).
  unfold v3_norm, v3_line, v3_dot in *. simpl in *.
  auto_derive.
  - rewrite !Rmult_0_l, !Rplus_0_r. exact Hd.
  - rewrite !Rmult_0_l, !Rplus_0_r. field. lra.
Qed.

Lemma line_sub (x p u : v3) (s : R) : v3_sub (v3_line x u s) p = v3_line (v3_sub x p) u s.
Proof. unfold v3_sub, v3_line, v3_add, v3_scale; simpl; f_equal; ring. Qed.
Lemma line_0 (x u : v3) : v3_line x u 0 = x.
Proof. destruct x. unfold v3_line, v3_add, v3_scale; simpl; f_equal; ring. Qed.

Lemma radial_gradient (k : kernel) (x p u : v3) : valid_kernel k -> x <> p ->
  regular_distance k (v3_norm (v3_sub x p)) ->
  directional (fun y => k_eval k y p) x u (v3_dot (k_grad k x p) u).
Proof.
  intros Hv Hxp Hreg. pose proof (v3_sub_ne x p Hxp) as Hne. pose proof (v3_norm_pos _ Hne) as Hn.
  unfold directional, k_eval, k_grad. set (a := v3_sub x p) in *.
  destruct (Rlt_dec 0 (v3_norm a)) as [_|]; [|contradiction].
  apply is_derive_ext with (fun s => k_f k (v3_norm (v3_line a u s))).
  { intros s. rewrite line_sub. reflexivity. }
  destruct (kernel_derivatives k _ Hv Hreg) as [D _].
  replace (v3_dot (v3_scale (k_df k (v3_norm a) / v3_norm a) a) u)
    with (v3_dot a u / v3_norm a * k_df k (v3_norm a))
    by (unfold v3_dot, v3_scale; simpl; field; lra).
  apply (is_derive_comp (k_f k) (fun s => v3_norm (v3_line a u s))).
  - rewrite line_0. exact D.
  - apply norm_line_derive. exact Hne.
Qed.

Lemma zero_slope_at_zero (k : kernel) : valid_kernel k -> (forall r c, k <> Interpolating r c) ->
  is_derive (k_f k) 0 0.
Proof.
  intros Hv Hni.
  assert (Hreg : regular_distance k 0) by (destruct k; simpl in *; auto; try lra; exfalso; eapply Hni; reflexivity).
  destruct (kernel_derivatives k 0 Hv Hreg) as [D _].
  replace 0 with (k_df k 0) at 2; [exact D|].
  destruct k as [e|r'|r' c|r' t|r' e]; simpl in *.
  - unk. field. nra.
  - unfold cubic_df. in_support r' 0. field. lra.
  - exfalso. eapply Hni; reflexivity.
  - unfold smooth_df. in_support r' 0. cbv zeta. field. nra.
  - unfold approx_df. in_support r' 0. cbv zeta. field. nra.
Qed.

Lemma v3_norm_scale (s : R) (u : v3) : v3_norm (v3_scale s u) = Rabs (s * v3_norm u).
Proof.
  unfold v3_norm. replace (v3_dot (v3_scale s u) (v3_scale s u)) with (Rsqr s * v3_dot u u)
    by (unfold v3_dot, v3_scale, Rsqr; simpl; ring).
  rewrite sqrt_mult; [|apply Rle_0_sqr|unfold v3_dot; nra].
  rewrite Rabs_mult, sqrt_Rsqr_abs. f_equal. symmetry. apply Rabs_right. apply Rle_ge, sqrt_pos.
Qed.

Lemma radial_gradient_center (k : kernel) (p u : v3) : valid_kernel k -> (forall r c, k <> Interpolating r c) ->
  directional (fun y => k_eval k y p) p u (v3_dot (k_grad k p p) u).
Proof.
  intros Hv Hni. unfold directional, k_eval, k_grad.
  assert (Hz : v3_norm (v3_sub p p) = 0).
  { unfold v3_norm, v3_dot, v3_sub; simpl.
    replace (_ + _ + _) with 0 by ring. apply sqrt_0. }
  rewrite Hz. destruct (Rlt_dec 0 0) as [H|_]; [lra|].
  replace (v3_dot (V3 0 0 0) u) with 0 by (unfold v3_dot; simpl; ring).
  apply is_derive_ext with (fun s => k_f k (Rabs (s * v3_norm u))).
  - intros s. rewrite <- v3_norm_scale. f_equal. f_equal.
    unfold v3_sub, v3_line, v3_add, v3_scale; simpl; f_equal; ring.
  - apply is_derive_abs0. apply zero_slope_at_zero; assumption.
Qed.

Lemma locally_pos (f : R -> R) (x l : R) : is_derive f x l -> 0 < f x -> locally x (fun y => 0 < f y).
Proof.
  intros D Hp. assert (Hc : continuous f x) by (apply (ex_derive_continuous f); exists l; exact D).
  specialize (Hc (fun v => 0 < v)). apply Hc.
  exists (mkposreal (f x) Hp). intros y Hy.
  cbv [ball] in Hy. simpl in Hy. cbv [AbsRing_ball abs minus plus opp] in Hy. simpl in Hy.
  apply Rabs_def2 in Hy. lra.
Qed.

Lemma radial_comp_derive (k : kernel) (a u : v3) (c0 c1 : R) : valid_kernel k -> a <> v3_0 ->
  regular_distance k (v3_norm a) ->
  is_derive (fun s => k_df k (v3_norm (v3_line a u s)) / v3_norm (v3_line a u s) * (c0 + s * c1)) 0
    (k_df k (v3_norm a) * (1 / v3_norm a) * (c1 - v3_dot a u * ((1 / v3_norm a) * (1 / v3_norm a)) * c0)
      + k_ddf k (v3_norm a) * (v3_dot a u * ((1 / v3_norm a) * (1 / v3_norm a)) * c0)).
Proof.
  intros Hv Ha Hreg. pose proof (v3_norm_pos a Ha) as Hn.
  destruct (kernel_derivatives k _ Hv Hreg) as [_ D2].
  pose proof (norm_line_derive a u Ha) as DN.
  assert (DC : is_derive (fun s => k_df k (v3_norm (v3_line a u s))) 0 (v3_dot a u / v3_norm a * k_ddf k (v3_norm a))).
  { apply (is_derive_comp (k_df k) (fun s => v3_norm (v3_line a u s))); [rewrite line_0; exact D2|exact DN]. }
  set (N := fun s => v3_norm (v3_line a u s)) in *. set (F := fun s => k_df k (N s)) in *.
  assert (N0 : N 0 = v3_norm a) by (unfold N; rewrite line_0; reflexivity).
  assert (F0 : F 0 = k_df k (v3_norm a)) by (unfold F; rewrite N0; reflexivity).
  apply is_derive_ext with (fun s => F s / N s * (c0 + s * c1)); [reflexivity|].
  evar_last.
  - apply (is_derive_mult (fun s => F s / N s) (fun s => c0 + s * c1)).
    + apply is_derive_div; [exact DC|exact DN|rewrite N0; lra].
    + instantiate (1 := c1). auto_derive; [exact I|ring].
    + intros; apply Rmult_comm.
  - unfold plus, mult; simpl. rewrite N0, F0. field. lra.
Qed.

Lemma radial_hessian (k : kernel) (x p u : v3) : valid_kernel k -> x <> p ->
  regular_distance k (v3_norm (v3_sub x p)) ->
  directional_v (fun y => k_grad k y p) x u (k_hess_mul k x p u).
Proof.
  intros Hv Hxp Hreg. pose proof (v3_sub_ne x p Hxp) as Hne. pose proof (v3_norm_pos _ Hne) as Hn.
  unfold k_hess_mul. set (a := v3_sub x p) in *.
  destruct (Rlt_dec 0 (v3_norm a)) as [_|]; [|contradiction].
  assert (Hloc : locally 0 (fun s => 0 < v3_norm (v3_line a u s))).
  { eapply (locally_pos (fun s => v3_norm (v3_line a u s))); [apply norm_line_derive; exact Hne|].
    rewrite line_0. exact Hn. }
  assert (Hg : forall s, 0 < v3_norm (v3_line a u s) ->
     k_grad k (v3_line x u s) p = v3_scale (k_df k (v3_norm (v3_line a u s)) / v3_norm (v3_line a u s)) (v3_line a u s)).
  { intros s Hs. unfold k_grad. rewrite line_sub. fold a. destruct (Rlt_dec 0 (v3_norm (v3_line a u s))); [reflexivity|contradiction]. }
  unfold directional_v. split; [|split].
  - evar_last.
    + eapply is_derive_ext_loc; [|apply (radial_comp_derive k a u (vx a) (vx u) Hv Hne Hreg)].
      eapply filter_imp; [|exact Hloc]. intros s Hs. rewrite (Hg s Hs). reflexivity.
    + unfold v3_add, v3_scale, v3_sub; simpl. reflexivity.
  - evar_last.
    + eapply is_derive_ext_loc; [|apply (radial_comp_derive k a u (vy a) (vy u) Hv Hne Hreg)].
      eapply filter_imp; [|exact Hloc]. intros s Hs. rewrite (Hg s Hs). reflexivity.
    + unfold v3_add, v3_scale, v3_sub; simpl. reflexivity.
  - evar_last.
    + eapply is_derive_ext_loc; [|apply (radial_comp_derive k a u (vz a) (vz u) Hv Hne Hreg)].
      eapply filter_imp; [|exact Hloc]. intros s Hs. rewrite (Hg s Hs). reflexivity.
    + unfold v3_add, v3_scale, v3_sub; simpl. reflexivity.
Qed.

(** At the sample itself the reported Hessian is zero although the gradient has slope [-6/r^2] (cubic kernel). *)
Lemma hess_center_wrong (r : R) (p : v3) : 0 < r ->
  directional_v (fun y => k_grad (Cubic r) y p) p (V3 1 0 0) (V3 (- 6 / (r * r)) 0 0) /\
  k_hess_mul (Cubic r) p p (V3 1 0 0) = V3 0 0 0.
Proof.
  intros Hr. assert (Hz : v3_norm (v3_sub p p) = 0).
  { unfold v3_norm, v3_dot, v3_sub; simpl. replace (_ + _ + _) with 0 by ring. apply sqrt_0. }
  split.
  - assert (Hg : forall s, Rabs s <= r -> k_grad (Cubic r) (v3_line p (V3 1 0 0) s) p
        = V3 (6 * (Rabs s / (r * r * r) - 1 / (r * r)) * s) 0 0).
    { intros s Hs. unfold k_grad.
      assert (E : v3_sub (v3_line p (V3 1 0 0) s) p = v3_scale s (V3 1 0 0))
        by (unfold v3_sub, v3_line, v3_add, v3_scale; simpl; f_equal; ring).
      rewrite E, v3_norm_scale.
      assert (E1 : v3_norm (V3 1 0 0) = 1).
      { unfold v3_norm, v3_dot; simpl. replace (_ + _ + _) with 1 by ring. apply sqrt_1. }
      rewrite E1, Rmult_1_r.
      destruct (Rlt_dec 0 (Rabs s)) as [H|H].
      - unfold v3_scale; simpl. unfold cubic_df. in_support r (Rabs s). f_equal; try ring. field. lra.
      - assert (s = 0). { destruct (Req_dec s 0); [assumption|]. exfalso. apply H. apply Rabs_pos_lt; assumption. }
        subst s. f_equal; try ring. }
    assert (Hloc : locally 0 (fun s => Rabs s <= r)).
    { exists (mkposreal r Hr). intros y Hy.
      cbv [ball] in Hy. simpl in Hy. cbv [AbsRing_ball abs minus plus opp] in Hy. simpl in Hy.
      rewrite Ropp_0, Rplus_0_r in Hy. lra. }
    split; [|split].
    + eapply is_derive_ext_loc.
      { eapply filter_imp; [|exact Hloc]. intros s Hs. symmetry. rewrite (Hg s Hs). simpl. reflexivity. }
      simpl. apply is_derive_Reals. intros eps Heps.
      set (k := 6 / (r * r * r)). assert (Hk : 0 < k) by (apply Rdiv_lt_0_compat; [lra|]; repeat apply Rmult_lt_0_compat; lra).
      assert (He : 0 < eps / k) by (apply Rdiv_lt_0_compat; lra).
      exists (mkposreal _ He). intros h Hh Hlt. simpl in Hlt. rewrite Rplus_0_l.
      replace ((6 * (Rabs h / (r * r * r) - 1 / (r * r)) * h - 6 * (Rabs 0 / (r * r * r) - 1 / (r * r)) * 0) / h - - 6 / (r * r))
        with (k * Rabs h) by (unfold k; field; split; lra).
      rewrite Rabs_right by (apply Rle_ge; apply Rmult_le_pos; [lra|apply Rabs_pos]).
      apply Rmult_lt_compat_l with (r := k) in Hlt; [|lra]. replace (k * (eps / k)) with eps in Hlt by (field; lra). exact Hlt.
    + eapply is_derive_ext_loc; [|apply @is_derive_const with (a := 0)].
      eapply filter_imp; [|exact Hloc]. intros s Hs. symmetry. rewrite (Hg s Hs). reflexivity.
    + eapply is_derive_ext_loc; [|apply @is_derive_const with (a := 0)].
      eapply filter_imp; [|exact Hloc]. intros s Hs. symmetry. rewrite (Hg s Hs). reflexivity.
  - unfold k_hess_mul. rewrite Hz. destruct (Rlt_dec 0 0); [lra|reflexivity].
Qed.

Lemma interp_unbounded (M : R) : 0 <= M -> exists x, 0 < x < 1 /\ M < interp_f 1 1 x.
Proof.
  intros HM. exists (/ (4 * (M + 1))).
  set (q := 4 * (M + 1)). assert (Hq : 4 <= q) by (unfold q; lra).
  assert (Hx : 0 < / q) by (apply Rinv_0_lt_compat; lra).
  assert (Hxq : / q * q = 1) by (field; lra). set (x := / q) in *.
  assert (Hx4 : x <= 1 / 4) by nra. split; [lra|].
  unk. in_support 1 x.
  replace (1 - 3 * x * x / (1 * 1) + 2 * x * x * x / (1 * 1 * 1)) with ((1 - x) * (1 - x) * (1 + 2 * x)) by field.
  replace (1 / (x / 1 * (x / 1)) - 1) with (q * q - 1) by (unfold x; field; lra).
  replace (1 / 1) with 1 by field. rewrite !Rmult_1_r.
  assert (H1 : 9 / 16 <= (1 - x) * (1 - x) * (1 + 2 * x)).
  { assert (9 / 16 <= (1 - x) * (1 - x)) by nra. nra. }
  assert (H2 : 2 * M < q * q - 1) by (unfold q in *; nra).
  nra.
Qed.
(** * Units *)
Lemma scaled_support (c r x : R) (A : Type) (a b : A) : 0 < c -> (if Rlt_dec (c * r) (c * x) then a else b) = (if Rlt_dec r x then a else b).
Proof. intros H. destruct (Rlt_dec (c * r) (c * x)) as [K|K], (Rlt_dec r x) as [L|L]; try reflexivity; exfalso; [apply L; apply (Rmult_lt_reg_l c); assumption|apply K, Rmult_lt_compat_l; assumption]. Qed.
Lemma scaled_ratio (c r x : R) : 0 < c -> 0 < r -> c * x / (c * r) = x / r.
Proof. intros. field. split; lra. Qed.
Lemma kernel_units (k : kernel) (c x : R) : valid_kernel k -> 0 < c ->
  k_f (rescaled c k) (c * x) = k_f k x / c ^ units k /\
  (regular_distance k x -> k_df (rescaled c k) (c * x) = k_df k x / c ^ S (units k)).
Proof.
  assert (F : forall k c x, valid_kernel k -> 0 < c -> k_f (rescaled c k) (c * x) = k_f k x / c ^ units k).
  { clear. intros k c x V C. destruct k; cbn [valid_kernel rescaled k_f units] in *.
    - unfold global_f, global_f_gen. simpl. assert (0 < x * x + tolerance * tolerance) by nra. field. split; [lra|]. split; [lra|]. replace (c * x * (c * x) + c * tolerance * (c * tolerance)) with (c * c * (x * x + tolerance * tolerance)) by ring. apply Rgt_not_eq. apply Rmult_lt_0_compat; nra.
    - unfold cubic_f, cubic_f_gen. simpl. rewrite scaled_support by exact C. destruct (Rlt_dec radius x); [field|field; split; lra].
    - unfold interp_f, interp_f_gen, cubic_f_gen. simpl. rewrite !scaled_support by exact C. destruct (Rlt_dec radius x); [field|]. rewrite !scaled_ratio by lra.
      replace (3 * (c * x) * (c * x) / (c * radius * (c * radius))) with (3 * x * x / (radius * radius)) by (field; lra). replace (2 * (c * x) * (c * x) * (c * x) / (c * radius * (c * radius) * (c * radius))) with (2 * x * x * x / (radius * radius * radius)) by (field; lra). rewrite Rdiv_1. reflexivity.
    - unfold smooth_f. rewrite scaled_support by exact C. destruct (Rlt_dec radius x); [simpl; field|]. rewrite scaled_ratio by lra. simpl. rewrite Rdiv_1. reflexivity.
    - unfold approx_f. rewrite scaled_support by exact C. destruct (Rlt_dec radius x); [simpl; field|]. rewrite scaled_ratio by lra. simpl. rewrite Rdiv_1. reflexivity. }
  intros V C. split; [apply F; assumption|]. intros G.
  assert (V' : valid_kernel (rescaled c k)) by (destruct k; cbn in *; repeat split; try apply Rmult_lt_0_compat; tauto).
  assert (G' : regular_distance (rescaled c k) (c * x)).
  { assert (Q : forall a b, a <> b -> c * a <> c * b) by (intros a b H E; apply H; apply (Rmult_eq_reg_l c); lra). destruct k; cbn in *; try exact I; try (apply Q; tauto). split; [apply Q; tauto|]. intros E. apply Rmult_integral in E. destruct E; [lra|tauto]. }
  destruct (kernel_derivatives k x V G) as [D _]. destruct (kernel_derivatives _ _ V' G') as [D' _].
  assert (E : is_derive (fun y => k_f (rescaled c k) (c * y)) x (c * k_df (rescaled c k) (c * x))).
  { apply (is_derive_comp (k_f (rescaled c k)) (fun y => c * y) x); [exact D'|]. auto_derive; [exact I|ring]. }
  assert (E2 : is_derive (fun y => k_f (rescaled c k) (c * y)) x (k_df k x / c ^ units k)).
  { apply (is_derive_ext (fun y => k_f k y / c ^ units k)); [intros t; symmetry; apply F; assumption|]. assert (ED : ex_derive (fun y : R => k_f k y) x) by (exists (k_df k x); exact D). auto_derive; [exact ED|]. rewrite (is_derive_unique (fun y : R => k_f k y) x _ D). unfold Rdiv. ring. }
  assert (EQ : c * k_df (rescaled c k) (c * x) = k_df k x / c ^ units k) by (apply is_derive_unique in E; apply is_derive_unique in E2; congruence).
  apply (Rmult_eq_reg_l c); [|lra]. rewrite EQ. simpl. field. split; [apply pow_nonzero|]; lra.
Qed.
