(** Lemmas about the sliding friction law. *)
From Coq Require Import Reals Lra Psatz.
From Coquelicot Require Import Coquelicot.
From Verif Require Import Calc FrictionModel FrictionSpec.
Local Open Scope R_scope.

(** ** Scalar profiles *)
Lemma quad_pot_in (e x : R) : 0 < e -> x <= e ->
  sliding_potential Quadratic x e = (x / e) * (x - (x * x) / (3 * e)) + e / 3.
Proof.
  intros He [H|H]; unfold sliding_potential.
  - destruct (Rlt_dec x e); [reflexivity|contradiction].
  - subst. destruct (Rlt_dec e e); [lra|]. field. lra.
Qed.
Lemma quad_pot_out (e x : R) : e < x -> sliding_potential Quadratic x e = x.
Proof. intros H. unfold sliding_potential. destruct (Rlt_dec x e); [lra|reflexivity]. Qed.
Lemma quad_in (e x : R) : 0 < e -> x <= e -> sliding_profile Quadratic x e = (2 - x / e) / e.
Proof.
  intros He [H|H]; unfold sliding_profile.
  - destruct (Rlt_dec x e); [reflexivity|contradiction].
  - subst. destruct (Rlt_dec e e); [lra|]. field. lra.
Qed.
Lemma quad_out (e x : R) : e < x -> sliding_profile Quadratic x e = 1 / x.
Proof. intros H. unfold sliding_profile. destruct (Rlt_dec x e); [lra|reflexivity]. Qed.

Lemma potential_derive (k : profile_kind) (e x : R) : 0 < e -> 0 <= x ->
  is_derive (fun y => sliding_potential k y e) x (x * sliding_profile k x e).
Proof.
  intros He Hx. destruct k.
  - unfold sliding_potential, sliding_profile. auto_derive.
    + split; [lra|]. split; [|exact I]. apply Rdiv_lt_0_compat; lra.
    + field. lra.
  - destruct (Rtotal_order x e) as [H|[H|H]].
    + rewrite quad_in by lra. eapply is_derive_left; [exact H| |].
      * intros y Hy. apply quad_pot_in; lra.
      * auto_derive; [repeat split; lra|]. field. lra.
    + subst x. rewrite quad_in by lra.
      eapply is_derive_glue with (g2 := fun y => y).
      * intros y Hy. apply quad_pot_in; lra.
      * intros y Hy. apply quad_pot_out; lra.
      * simpl. field. lra.
      * auto_derive; [repeat split; lra|]. field. lra.
      * auto_derive; [exact I|]. field. lra.
    + rewrite quad_out by lra. eapply is_derive_right_of with (r := e) (g := fun y => y); [exact H| |].
      * intros y Hy. apply quad_pot_out; lra.
      * auto_derive; [exact I|]. field. lra.
Qed.

Lemma profile_derive (k : profile_kind) (e x : R) : 0 < e -> 0 <= x ->
  is_derive (fun y => sliding_profile k y e) x (sliding_profile_derivative k x e).
Proof.
  intros He Hx. destruct k.
  - unfold sliding_profile, sliding_profile_derivative. auto_derive; [lra|]. field. lra.
  - assert (Din : x < e -> sliding_profile_derivative Quadratic x e = - 1 / (e * e)).
    { intros H. unfold sliding_profile_derivative. destruct (Rlt_dec x e); [reflexivity|contradiction]. }
    assert (Dout : e <= x -> sliding_profile_derivative Quadratic x e = - 1 / (x * x)).
    { intros H. unfold sliding_profile_derivative. destruct (Rlt_dec x e); [lra|reflexivity]. }
    destruct (Rtotal_order x e) as [H|[H|H]].
    + rewrite Din by lra. eapply is_derive_left; [exact H| |].
      * intros y Hy. apply quad_in; lra.
      * auto_derive; [repeat split; lra|]. field. lra.
    + subst x. rewrite Dout by lra. eapply is_derive_glue with (g2 := fun y => 1 / y).
      * intros y Hy. apply quad_in; lra.
      * intros y Hy. apply quad_out; lra.
      * simpl. field. lra.
      * auto_derive; [repeat split; lra|]. field. lra.
      * auto_derive; [repeat split; lra|]. field. lra.
    + rewrite Dout by lra. eapply is_derive_right_of with (r := e) (g := fun y => 1 / y); [exact H| |].
      * intros y Hy. apply quad_out; lra.
      * auto_derive; [repeat split; lra|]. field. lra.
Qed.

Lemma profile_bounds (k : profile_kind) (e x : R) : 0 < e -> 0 <= x ->
  0 < sliding_profile k x e /\ x * sliding_profile k x e <= 1.
Proof.
  intros He Hx. destruct k.
  - unfold sliding_profile. assert (0 < x + 1 / 10 * e) by lra.
    assert (Hi : 0 < / (x + 1 / 10 * e)) by (apply Rinv_0_lt_compat; assumption).
    assert (E : (x + 1 / 10 * e) * / (x + 1 / 10 * e) = 1) by (field; lra). unfold Rdiv at 1 3. split; nra.
  - destruct (Rle_lt_dec x e) as [H|H].
    + rewrite quad_in by lra. assert (Hi : 0 < / e) by (apply Rinv_0_lt_compat; lra). assert (E : e * / e = 1) by (field; lra).
      unfold Rdiv. set (d := x * / e). assert (0 <= d <= 1) by (unfold d; split; nra).
      split; [apply Rmult_lt_0_compat; lra|]. replace (x * ((2 - d) * / e)) with (d * (2 - d)) by (unfold d; ring). nra.
    + rewrite quad_out by lra. assert (Hi : 0 < / x) by (apply Rinv_0_lt_compat; lra). unfold Rdiv.
      split; [lra|]. right. field. lra.
Qed.

Lemma falloff_range (x w : R) : 0 <= x -> 0 <= w -> 0 <= falloff x w <= 1.
Proof.
  intros Hx Hw. unfold falloff. destruct (Rlt_dec w x); [lra|]. cbv zeta. destruct (Rlt_dec 0 (w * w * w)) as [H|H]; [|lra].
  assert (Hw0 : 0 < w) by (destruct Hw as [|E]; [assumption|subst; lra]).
  assert (Hi : 0 < / (w * w * w)) by (apply Rinv_0_lt_compat; lra).
  assert (E : w * w * w * / (w * w * w) = 1) by (field; lra).
  unfold Rdiv. assert (0 <= (2 * x + w) * (x - w) * (x - w)) by (assert (0 <= (x - w) * (x - w)) by nra; nra).
  assert (Hle : (2 * x + w) * (x - w) * (x - w) <= w * w * w).
  { replace ((2 * x + w) * (x - w) * (x - w)) with (w * w * w - x * x * (3 * w - 2 * x)) by ring.
    assert (0 <= x * x * (3 * w - 2 * x)) by (apply Rmult_le_pos; nra). lra. }
  split; [apply Rmult_le_pos; lra|]. nra.
Qed.

(** ** Planar vectors *)
Lemma v2_norm_nonneg (a : v2) : 0 <= v2_norm a.
Proof. apply sqrt_pos. Qed.
Lemma v2_norm_sq (a : v2) : v2_norm a * v2_norm a = v2_dot a a.
Proof. unfold v2_norm. apply sqrt_sqrt. unfold v2_dot. nra. Qed.
Lemma v2_norm_pos (a : v2) : a <> V2 0 0 -> 0 < v2_norm a.
Proof.
  intros H. unfold v2_norm. apply sqrt_lt_R0. unfold v2_dot. destruct a as [x y]; simpl.
  destruct (Req_dec x 0), (Req_dec y 0); subst; try (exfalso; apply H; reflexivity); nra.
Qed.
Lemma v2_norm_zero : v2_norm (V2 0 0) = 0.
Proof. unfold v2_norm, v2_dot; simpl. replace (0 * 0 + 0 * 0) with 0 by ring. apply sqrt_0. Qed.
Lemma v2_norm_scale (s : R) (u : v2) : v2_norm (v2_scale s u) = Rabs (s * v2_norm u).
Proof.
  unfold v2_norm. replace (v2_dot (v2_scale s u) (v2_scale s u)) with (Rsqr s * v2_dot u u)
    by (unfold v2_dot, v2_scale, Rsqr; simpl; ring).
  rewrite sqrt_mult; [|apply Rle_0_sqr|unfold v2_dot; nra].
  rewrite Rabs_mult, sqrt_Rsqr_abs. f_equal. symmetry. apply Rabs_right. apply Rle_ge, sqrt_pos.
Qed.
Lemma v2_line_0 (v u : v2) : v2_line v u 0 = v.
Proof. destruct v. unfold v2_line, v2_add, v2_scale; simpl. f_equal; ring. Qed.
Lemma v2_line_from_0 (u : v2) (s : R) : v2_line (V2 0 0) u s = v2_scale s u.
Proof. unfold v2_line, v2_add, v2_scale; simpl. f_equal; ring. Qed.
Lemma v2_norm_derive (v u : v2) : v <> V2 0 0 ->
  is_derive (fun s => v2_norm (v2_line v u s)) 0 (v2_dot v u / v2_norm v).
Proof.
  intros Hv. pose proof (v2_norm_pos v Hv) as Hn.
  assert (Hd : 0 < v2_dot v v) by (rewrite <- v2_norm_sq; nra).
  unfold v2_norm, v2_line, v2_dot in *. simpl in *. auto_derive.
  - rewrite !Rmult_0_l, !Rplus_0_r. exact Hd.
  - rewrite !Rmult_0_l, !Rplus_0_r. field. lra.
Qed.

(** ** Potential *)
Lemma potential_gradient (k : profile_kind) (v u : v2) (factor : R) (fp : friction_params) :
  0 < fp_epsilon fp -> plain_params fp ->
  directional2 (fun w => fp_dynamic fp * friction_potential k w factor fp) v u (v2_dot (friction_profile k v factor fp) u).
Proof.
  intros He [Hs Hk]. unfold directional2, friction_potential, friction_profile. cbv zeta. rewrite Hs, Hk.
  set (e := fp_epsilon fp) in *. set (mu := fp_dynamic fp).
  assert (Hval : v2_dot (v2_scale (factor * (mu + (mu - mu) * falloff (v2_norm v) (fp_stribeck fp)) * sliding_profile k (v2_norm v) e + 0) v) u
    = mu * (factor * (v2_dot v u * sliding_profile k (v2_norm v) e))).
  { unfold v2_dot, v2_scale; simpl. ring. }
  rewrite Hval. apply @is_derive_scal. apply @is_derive_scal.
  assert (Hdec : v = V2 0 0 \/ v <> V2 0 0).
  { destruct v as [x y]. destruct (Req_dec x 0); [destruct (Req_dec y 0)|]; [left; subst; reflexivity|right|right]; intros E; inversion E; contradiction. }
  destruct Hdec as [E|Hne].
  - subst v. replace (v2_dot (V2 0 0) u) with 0 by (unfold v2_dot; simpl; ring). rewrite Rmult_0_l.
    eapply is_derive_ext with (f := fun s => sliding_potential k (Rabs (s * v2_norm u)) e).
    { intros s. rewrite v2_line_from_0, v2_norm_scale. reflexivity. }
    apply (is_derive_abs0 (fun y => sliding_potential k y e)).
    pose proof (potential_derive k e 0 He (Rle_refl 0)) as D. rewrite Rmult_0_l in D. exact D.
  - pose proof (v2_norm_pos v Hne) as Hn.
    replace (v2_dot v u * sliding_profile k (v2_norm v) e)
      with (v2_dot v u / v2_norm v * (v2_norm v * sliding_profile k (v2_norm v) e)) by (field; lra).
    apply (is_derive_comp (fun y => sliding_potential k y e) (fun s => v2_norm (v2_line v u s))).
    + rewrite v2_line_0. apply potential_derive; lra.
    + apply v2_norm_derive. exact Hne.
Qed.

Lemma potential_gradient_wrong :
  let fp := {| fp_dynamic := 1 / 2; fp_static := 1 / 2; fp_viscous := 0; fp_stribeck := 0; fp_epsilon := 1 |} in
  valid_params fp /\ plain_params fp /\
  ~ directional2 (fun w => friction_potential Quadratic w 1 fp) (V2 2 0) (V2 1 0) (v2_dot (friction_profile Quadratic (V2 2 0) 1 fp) (V2 1 0)).
Proof.
  intros fp. split; [unfold valid_params; simpl; lra|]. split; [split; reflexivity|]. intros D.
  set (fp1 := {| fp_dynamic := 1; fp_static := 1; fp_viscous := 0; fp_stribeck := 0; fp_epsilon := 1 |}).
  assert (D1 : directional2 (fun w => friction_potential Quadratic w 1 fp) (V2 2 0) (V2 1 0) (v2_dot (friction_profile Quadratic (V2 2 0) 1 fp1) (V2 1 0))).
  { eapply is_derive_ext; [|apply (potential_gradient Quadratic (V2 2 0) (V2 1 0) 1 fp1 Rlt_0_1 (conj eq_refl eq_refl))].
    intros s. unfold friction_potential. simpl. ring. }
  pose proof (derive_same _ _ _ _ D D1) as E1.
  unfold friction_profile in E1; simpl in E1.
  assert (N : v2_norm (V2 2 0) = 2).
  { unfold v2_norm, v2_dot; simpl. replace (2 * 2 + 0 * 0) with (2 * 2) by ring. apply sqrt_square. lra. }
  rewrite N in E1. unfold falloff, v2_dot, v2_scale in E1. simpl in E1.
  destruct (Rlt_dec 0 2); [|lra]. destruct (Rlt_dec 2 1); lra.
Qed.

(** ** Coulomb bound *)
Definition eta_coef (k : profile_kind) (v : v2) (factor : R) (fp : friction_params) : R :=
  factor * (fp_dynamic fp + (fp_static fp - fp_dynamic fp) * falloff (v2_norm v) (fp_stribeck fp))
   * sliding_profile k (v2_norm v) (fp_epsilon fp).

Lemma mix_bounds (a b h : R) : 0 <= a -> 0 <= b -> 0 <= h <= 1 -> 0 <= a + (b - a) * h <= Rmax a b.
Proof.
  intros Ha Hb Hh. pose proof (Rmax_l a b). pose proof (Rmax_r a b).
  replace (a + (b - a) * h) with (a * (1 - h) + b * h) by ring.
  split; [nra|]. assert (a * (1 - h) <= Rmax a b * (1 - h)) by nra. assert (b * h <= Rmax a b * h) by nra. nra.
Qed.
Lemma eta_coef_nonneg (k : profile_kind) (v : v2) (factor : R) (fp : friction_params) :
  valid_params fp -> 0 <= factor -> 0 <= eta_coef k v factor fp.
Proof.
  intros (He & Hd & Hs & _ & Hw) Hf. unfold eta_coef.
  pose proof (profile_bounds k _ _ He (v2_norm_nonneg v)) as [Hp _].
  pose proof (mix_bounds _ _ _ Hd Hs (falloff_range _ _ (v2_norm_nonneg v) Hw)) as [Hm _].
  apply Rmult_le_pos; [apply Rmult_le_pos; assumption|lra].
Qed.
Lemma friction_opposes (k : profile_kind) (v : v2) (factor : R) (fp : friction_params) :
  valid_params fp -> 0 <= factor ->
  (exists c, 0 <= c /\ friction_profile k v factor fp = v2_scale c v) /\
  friction_profile k (V2 0 0) factor fp = V2 0 0 /\
  0 <= v2_dot (friction_profile k v factor fp) v /\
  (fp_viscous fp = 0 -> v2_norm (friction_profile k v factor fp) <= factor * Rmax (fp_dynamic fp) (fp_static fp)).
Proof.
  intros Hv Hf. pose proof (eta_coef_nonneg k v factor fp Hv Hf) as Hc.
  destruct Hv as (He & Hd & Hs & Hk & Hw).
  split; [|split; [|split]].
  - exists (eta_coef k v factor fp + fp_viscous fp). split; [lra|reflexivity].
  - unfold friction_profile, v2_scale; simpl. f_equal; ring.
  - change (friction_profile k v factor fp) with (v2_scale (eta_coef k v factor fp + fp_viscous fp) v).
    replace (v2_dot (v2_scale (eta_coef k v factor fp + fp_viscous fp) v) v)
      with ((eta_coef k v factor fp + fp_viscous fp) * v2_dot v v) by (unfold v2_dot, v2_scale; simpl; ring).
    apply Rmult_le_pos; [lra|unfold v2_dot; nra].
  - intros Hk0. change (friction_profile k v factor fp) with (v2_scale (eta_coef k v factor fp + fp_viscous fp) v).
    rewrite Hk0, Rplus_0_r, v2_norm_scale.
    pose proof (v2_norm_nonneg v) as Hn. rewrite Rabs_right by (apply Rle_ge, Rmult_le_pos; lra).
    unfold eta_coef. set (m := fp_dynamic fp + _).
    pose proof (mix_bounds _ _ _ Hd Hs (falloff_range _ _ Hn Hw)) as Hm. fold m in Hm.
    pose proof (profile_bounds k _ _ He Hn) as [Hp1 Hp2].
    replace (factor * m * sliding_profile k (v2_norm v) (fp_epsilon fp) * v2_norm v)
      with (factor * (m * (v2_norm v * sliding_profile k (v2_norm v) (fp_epsilon fp)))) by ring.
    apply Rmult_le_compat_l; [exact Hf|].
    assert (0 <= v2_norm v * sliding_profile k (v2_norm v) (fp_epsilon fp)) by (apply Rmult_le_pos; lra). nra.
Qed.

(** ** Jacobian *)
Lemma radial_field_derive (g : R -> R) (dg : R) (v u : v2) : v <> V2 0 0 -> is_derive g (v2_norm v) dg ->
  directional2_v (fun w => v2_scale (g (v2_norm w)) w) v u
    (v2_add (v2_scale (g (v2_norm v)) u) (v2_scale (dg * (v2_dot v u / v2_norm v)) v)).
Proof.
  intros Hv Dg. pose proof (v2_norm_derive v u Hv) as DN.
  assert (DG : is_derive (fun s => g (v2_norm (v2_line v u s))) 0 (v2_dot v u / v2_norm v * dg)).
  { apply (is_derive_comp g (fun s => v2_norm (v2_line v u s))); [rewrite v2_line_0; exact Dg|exact DN]. }
  assert (G : forall c0 c1, is_derive (fun s => g (v2_norm (v2_line v u s)) * (c0 + s * c1)) 0
     (g (v2_norm v) * c1 + dg * (v2_dot v u / v2_norm v) * c0)).
  { intros c0 c1. evar_last.
    - apply (is_derive_mult (fun s => g (v2_norm (v2_line v u s))) (fun s => c0 + s * c1)); [exact DG| |intros; apply Rmult_comm].
      instantiate (1 := c1). auto_derive; [exact I|ring].
    - unfold plus, mult; simpl. rewrite v2_line_0. ring. }
  split; apply G.
Qed.
Lemma radial_field_derive_0 (g : R -> R) (u : v2) : continuous g 0 ->
  directional2_v (fun w => v2_scale (g (v2_norm w)) w) (V2 0 0) u (v2_scale (g 0) u).
Proof.
  intros Hc.
  assert (G : forall c, is_derive (fun s => g (Rabs (s * v2_norm u)) * (s * c)) 0 (g 0 * c)).
  { intros c. apply is_derive_Reals. intros eps Heps.
    assert (Hc' : continuous (fun s => g (Rabs (s * v2_norm u))) 0).
    { apply (continuous_comp (fun s => Rabs (s * v2_norm u)) g).
      - apply (continuous_comp (fun s => s * v2_norm u) Rabs).
        + apply (continuous_mult (fun s : R => s) (fun _ => v2_norm u)); [apply continuous_id|apply continuous_const].
        + apply continuous_Rabs.
      - rewrite Rmult_0_l, Rabs_R0. exact Hc. }
    assert (He : 0 < eps / (Rabs c + 1)) by (apply Rdiv_lt_0_compat; [lra|pose proof (Rabs_pos c); lra]).
    destruct (proj1 (filterlim_locally _ _) Hc' (mkposreal _ He)) as [d Hd].
    exists d. intros h Hh Hlt. rewrite !Rplus_0_l, !Rmult_0_l, Rabs_R0.
    specialize (Hd h). assert (Hb : ball 0 d h).
    { cbv [ball]. simpl. cbv [AbsRing_ball abs minus plus opp]. simpl. rewrite Ropp_0, Rplus_0_r. exact Hlt. }
    specialize (Hd Hb). cbv [ball] in Hd. simpl in Hd. cbv [AbsRing_ball abs minus plus opp] in Hd. simpl in Hd.
    rewrite Rmult_0_l, Rabs_R0 in Hd.
    replace ((g (Rabs (h * v2_norm u)) * (h * c) - g 0 * 0) / h - g 0 * c)
      with ((g (Rabs (h * v2_norm u)) + - g 0) * c) by (field; exact Hh).
    rewrite Rabs_mult. pose proof (Rabs_pos c) as Hcp.
    assert (Rabs (g (Rabs (h * v2_norm u)) + - g 0) * Rabs c <= eps / (Rabs c + 1) * Rabs c) by (apply Rmult_le_compat_r; lra).
    assert (eps / (Rabs c + 1) * Rabs c < eps).
    { assert (E : eps / (Rabs c + 1) * (Rabs c + 1) = eps) by (field; lra). nra. }
    lra. }
  split.
  - eapply is_derive_ext; [|apply (G (v2x u))]. intros s. rewrite v2_line_from_0, v2_norm_scale. reflexivity.
  - eapply is_derive_ext; [|apply (G (v2y u))]. intros s. rewrite v2_line_from_0, v2_norm_scale. reflexivity.
Qed.

(** True derivative of the falloff. *)
Definition falloff_slope (x w : R) : R := if Rlt_dec w x then 0 else 6 * x * (x - w) / (w * w * w).
Lemma falloff_derive (x w : R) : 0 <= w -> 0 < x -> is_derive (fun y => falloff y w) x (falloff_slope x w).
Proof.
  intros Hw Hx. unfold falloff_slope. destruct (Rlt_dec w x) as [H|H].
  - apply is_derive_right with w; [exact H|]. intros y Hy. unfold falloff. destruct (Rlt_dec w y); [reflexivity|contradiction].
  - assert (Hwp : 0 < w) by lra. assert (Hw3 : 0 < w * w * w) by (repeat apply Rmult_lt_0_compat; lra).
    assert (Hin : forall y, y <= w -> falloff y w = (2 * y + w) * (y - w) * (y - w) / (w * w * w)).
    { intros y Hy. unfold falloff. destruct (Rlt_dec w y); [lra|]. cbv zeta. destruct (Rlt_dec 0 (w * w * w)); [reflexivity|contradiction]. }
    destruct (Rlt_le_dec x w) as [Hlt|Hge].
    + eapply is_derive_left; [exact Hlt|exact Hin|]. auto_derive; [lra|]. field. lra.
    + assert (x = w) by lra. subst x. eapply is_derive_glue with (g2 := fun _ => 0); [exact Hin| | | |].
      * intros y Hy. unfold falloff. destruct (Rlt_dec w y); [reflexivity|contradiction].
      * simpl. field. lra.
      * auto_derive; [lra|]. field. lra.
      * replace (6 * w * (w - w) / (w * w * w)) with 0 by (field; lra). apply @is_derive_const.
Qed.

Definition eta_g (k : profile_kind) (factor : R) (fp : friction_params) (x : R) : R :=
  factor * (fp_dynamic fp + (fp_static fp - fp_dynamic fp) * falloff x (fp_stribeck fp)) * sliding_profile k x (fp_epsilon fp)
  + fp_viscous fp.
Definition eta_dg (k : profile_kind) (factor : R) (fp : friction_params) (x dh : R) : R :=
  factor * (fp_dynamic fp * sliding_profile_derivative k x (fp_epsilon fp)
    + (fp_static fp - fp_dynamic fp) * (dh * sliding_profile k x (fp_epsilon fp)
        + falloff x (fp_stribeck fp) * sliding_profile_derivative k x (fp_epsilon fp))).
Lemma eta_g_derive (k : profile_kind) (factor : R) (fp : friction_params) (x : R) : valid_params fp -> 0 < x ->
  is_derive (eta_g k factor fp) x (eta_dg k factor fp x (falloff_slope x (fp_stribeck fp))).
Proof.
  intros (He & Hd & Hs & Hk & Hw) Hx.
  pose proof (falloff_derive x _ Hw Hx) as Dh. pose proof (profile_derive k _ x He (Rlt_le _ _ Hx)) as Ds.
  set (H := fun y => falloff y (fp_stribeck fp)) in *. set (S := fun y => sliding_profile k y (fp_epsilon fp)) in *.
  unfold eta_g, eta_dg. fold (H x). fold (S x).
  evar_last.
  - apply (is_derive_ext (fun y => factor * ((fp_dynamic fp + (fp_static fp - fp_dynamic fp) * H y) * S y) + fp_viscous fp)).
    { intros y. unfold H, S. ringR. }
    apply @is_derive_plus; [|apply @is_derive_const].
    apply @is_derive_scal. apply (is_derive_mult (fun y => fp_dynamic fp + (fp_static fp - fp_dynamic fp) * H y) S); [|exact Ds|intros; apply Rmult_comm].
    apply @is_derive_plus; [apply @is_derive_const|]. apply @is_derive_scal. exact Dh.
  - unfold plus, mult, zero; simpl. ring.
Qed.

Lemma friction_profile_radial (k : profile_kind) (factor : R) (fp : friction_params) (v : v2) :
  friction_profile k v factor fp = v2_scale (eta_g k factor fp (v2_norm v)) v.
Proof. reflexivity. Qed.

Lemma jacobian_true (k : profile_kind) (factor : R) (fp : friction_params) (v u : v2) : valid_params fp -> v <> V2 0 0 ->
  directional2_v (fun w => friction_profile k w factor fp) v u
    (v2_add (v2_scale (eta_g k factor fp (v2_norm v)) u)
       (v2_scale (eta_dg k factor fp (v2_norm v) (falloff_slope (v2_norm v) (fp_stribeck fp)) * (v2_dot v u / v2_norm v)) v)).
Proof.
  intros Hp Hv. apply (radial_field_derive (eta_g k factor fp)); [exact Hv|].
  apply eta_g_derive; [exact Hp|]. apply v2_norm_pos. exact Hv.
Qed.
Lemma jacobian_code (k : profile_kind) (factor : R) (fp : friction_params) (v u : v2) : v <> V2 0 0 ->
  friction_jacobian_mul k v factor fp u =
    v2_add (v2_scale (eta_g k factor fp (v2_norm v)) u)
       (v2_scale (eta_dg k factor fp (v2_norm v) (dfalloff (v2_norm v) (fp_stribeck fp)) * (v2_dot v u / v2_norm v)) v).
Proof.
  intros Hv. pose proof (v2_norm_pos v Hv) as Hn. unfold friction_jacobian_mul. cbv zeta.
  destruct (Rlt_dec 0 (v2_norm v)); [|contradiction].
  unfold eta_g, eta_dg, v2_add, v2_scale; simpl. f_equal; field; lra.
Qed.

(** The code's falloff slope is right beyond the Stribeck velocity, or when that velocity is one. *)
Lemma dfalloff_right (x w : R) : 0 < x -> 0 <= w -> (w < x \/ w = 1) -> dfalloff x w = falloff_slope x w.
Proof.
  intros Hx Hw H. unfold dfalloff, falloff_slope. destruct (Rlt_dec w x) as [E|E]; [reflexivity|].
  destruct H as [H|H]; [contradiction|]. subst w. cbv zeta. destruct (Rlt_dec 0 (1 * 1)); [|lra]. field.
Qed.
Lemma jacobian_right (k : profile_kind) (factor : R) (fp : friction_params) (v u : v2) : valid_params fp -> v <> V2 0 0 ->
  (fp_static fp = fp_dynamic fp \/ fp_stribeck fp < v2_norm v \/ fp_stribeck fp = 1) ->
  directional2_v (fun w => friction_profile k w factor fp) v u (friction_jacobian_mul k v factor fp u).
Proof.
  intros Hp Hv H. pose proof (v2_norm_pos v Hv) as Hn. rewrite jacobian_code by exact Hv.
  replace (eta_dg k factor fp (v2_norm v) (dfalloff (v2_norm v) (fp_stribeck fp)))
    with (eta_dg k factor fp (v2_norm v) (falloff_slope (v2_norm v) (fp_stribeck fp))).
  - apply jacobian_true; assumption.
  - destruct H as [E|H].
    + unfold eta_dg. rewrite E. ring.
    + rewrite dfalloff_right; [reflexivity|exact Hn|destruct Hp as (_ & _ & _ & _ & Hw); exact Hw|exact H].
Qed.
Lemma jacobian_right_at_rest (k : profile_kind) (factor : R) (fp : friction_params) (u : v2) : valid_params fp ->
  (fp_static fp = fp_dynamic fp \/ 0 < fp_stribeck fp) ->
  directional2_v (fun w => friction_profile k w factor fp) (V2 0 0) u (friction_jacobian_mul k (V2 0 0) factor fp u).
Proof.
  intros (He & Hd & Hs & Hk & Hw) H.
  assert (E : friction_jacobian_mul k (V2 0 0) factor fp u = v2_scale (eta_g k factor fp 0) u).
  { unfold friction_jacobian_mul. cbv zeta. rewrite v2_norm_zero. destruct (Rlt_dec 0 0); [lra|].
    unfold eta_g, v2_scale. f_equal; ring. }
  rewrite E. apply (radial_field_derive_0 (eta_g k factor fp)).
  assert (Cs : continuous (fun y => sliding_profile k y (fp_epsilon fp)) 0).
  { apply (ex_derive_continuous (fun y => sliding_profile k y (fp_epsilon fp))). eexists. apply profile_derive; lra. }
  destruct H as [H|H].
  - apply (continuous_ext (fun y => factor * (fp_dynamic fp * sliding_profile k y (fp_epsilon fp)) + fp_viscous fp)).
    { intros y. unfold eta_g. rewrite H. ringR. }
    apply (continuous_plus (fun y => factor * (fp_dynamic fp * sliding_profile k y (fp_epsilon fp))) (fun _ => fp_viscous fp)); [|apply continuous_const].
    apply (continuous_mult (fun _ => factor) (fun y => fp_dynamic fp * sliding_profile k y (fp_epsilon fp))); [apply continuous_const|].
    apply (continuous_mult (fun _ => fp_dynamic fp) (fun y => sliding_profile k y (fp_epsilon fp))); [apply continuous_const|exact Cs].
  - assert (Ch : continuous (fun y => falloff y (fp_stribeck fp)) 0).
    { apply (ex_derive_continuous (fun y => falloff y (fp_stribeck fp))). eexists.
      set (w := fp_stribeck fp) in *. assert (Hw3 : 0 < w * w * w) by (repeat apply Rmult_lt_0_compat; lra).
      eapply (is_derive_left w 0) with (g := fun y => (2 * y + w) * (y - w) * (y - w) / (w * w * w)); [exact H| |].
      - intros y Hy. unfold falloff. destruct (Rlt_dec w y); [lra|]. cbv zeta. destruct (Rlt_dec 0 (w * w * w)); [reflexivity|contradiction].
      - auto_derive; [lra|]. reflexivity. }
    apply (continuous_ext (fun y => factor * ((fp_dynamic fp + (fp_static fp - fp_dynamic fp) * falloff y (fp_stribeck fp)) * sliding_profile k y (fp_epsilon fp)) + fp_viscous fp)).
    { intros y. unfold eta_g. ringR. }
    apply (continuous_plus (fun y => factor * ((fp_dynamic fp + (fp_static fp - fp_dynamic fp) * falloff y (fp_stribeck fp)) * sliding_profile k y (fp_epsilon fp))) (fun _ => fp_viscous fp)); [|apply continuous_const].
    apply (continuous_mult (fun _ => factor) (fun y => (fp_dynamic fp + (fp_static fp - fp_dynamic fp) * falloff y (fp_stribeck fp)) * sliding_profile k y (fp_epsilon fp))); [apply continuous_const|].
    apply (continuous_mult (fun y => fp_dynamic fp + (fp_static fp - fp_dynamic fp) * falloff y (fp_stribeck fp)) (fun y => sliding_profile k y (fp_epsilon fp))); [|exact Cs].
    apply (continuous_plus (fun _ => fp_dynamic fp) (fun y => (fp_static fp - fp_dynamic fp) * falloff y (fp_stribeck fp))); [apply continuous_const|].
    apply (continuous_mult (fun _ => fp_static fp - fp_dynamic fp) (fun y => falloff y (fp_stribeck fp))); [apply continuous_const|exact Ch].
Qed.

(** Every other case with different coefficients is wrong in the direction of sliding. *)
Lemma jacobian_wrong (k : profile_kind) (factor : R) (fp : friction_params) (v : v2) : valid_params fp -> v <> V2 0 0 ->
  factor <> 0 -> fp_static fp <> fp_dynamic fp -> v2_norm v < fp_stribeck fp -> fp_stribeck fp <> 1 ->
  ~ directional2_v (fun w => friction_profile k w factor fp) v v (friction_jacobian_mul k v factor fp v).
Proof.
  intros Hp Hv Hf Hmu Hlt Hw1 [Dx Dy]. pose proof (v2_norm_pos v Hv) as Hn.
  destruct (jacobian_true k factor fp v v Hp Hv) as [Tx Ty].
  pose proof (derive_same _ _ _ _ Dx Tx) as Ex. pose proof (derive_same _ _ _ _ Dy Ty) as Ey. clear Dx Dy Tx Ty.
  rename Ex into Tx. rename Ey into Ty. rewrite jacobian_code in Tx, Ty by exact Hv.
  destruct Hp as (He & Hd & Hs & Hk & Hw).
  set (x := v2_norm v) in *. set (w := fp_stribeck fp) in *.
  assert (Hdh : dfalloff x w <> falloff_slope x w).
  { unfold dfalloff, falloff_slope. destruct (Rlt_dec w x); [lra|]. cbv zeta. destruct (Rlt_dec 0 (w * w)) as [H|H]; [|nra].
    intros E. assert (E2 : 6 * x * (x - w) / (w * w) * (w * w * w) = 6 * x * (x - w) / (w * w * w) * (w * w * w)) by (rewrite E; reflexivity).
    replace (6 * x * (x - w) / (w * w) * (w * w * w)) with (6 * x * (x - w) * w) in E2 by (field; lra).
    replace (6 * x * (x - w) / (w * w * w) * (w * w * w)) with (6 * x * (x - w)) in E2 by (field; lra).
    assert (Hz : 6 * x * (x - w) * (w - 1) = 0) by lra.
    apply Rmult_integral in Hz. destruct Hz as [Hz|Hz]; [|lra]. apply Rmult_integral in Hz. destruct Hz; lra. }
  pose proof (profile_bounds k _ x He (Rlt_le _ _ Hn)) as [Hsp _].
  unfold v2_add, v2_scale in Tx, Ty; simpl in Tx, Ty.
  set (q := v2_dot v v / x) in *.
  assert (Hq : 0 < q). { unfold q. apply Rdiv_lt_0_compat; [|exact Hn]. rewrite <- v2_norm_sq. fold x. nra. }
  set (A := eta_dg k factor fp x (dfalloff x w)) in *. set (B := eta_dg k factor fp x (falloff_slope x w)) in *.
  assert (HAB : A - B = factor * (fp_static fp - fp_dynamic fp) * (dfalloff x w - falloff_slope x w) * sliding_profile k x (fp_epsilon fp))
    by (unfold A, B, eta_dg; ring).
  assert (HABn : A - B <> 0).
  { rewrite HAB. repeat apply Rmult_integral_contrapositive_currified; try lra. }
  assert (Ex : (A - B) * q * v2x v = 0) by lra. assert (Ey : (A - B) * q * v2y v = 0) by lra.
  apply Hv. destruct v as [a b]; simpl in *.
  apply Rmult_integral in Ex. destruct Ex as [Ex|Ex]; [apply Rmult_integral in Ex; lra|].
  apply Rmult_integral in Ey. destruct Ey as [Ey|Ey]; [apply Rmult_integral in Ey; lra|]. subst. reflexivity.
Qed.

(** With the default Stribeck velocity (zero) and different coefficients the Jacobian at rest is wrong too. *)
Lemma jacobian_wrong_at_rest (k : profile_kind) (factor : R) (fp : friction_params) : valid_params fp ->
  factor <> 0 -> fp_static fp <> fp_dynamic fp -> fp_stribeck fp = 0 ->
  ~ directional2_v (fun w => friction_profile k w factor fp) (V2 0 0) (V2 1 0) (friction_jacobian_mul k (V2 0 0) factor fp (V2 1 0)).
Proof.
  intros (He & Hd & Hs & Hk & Hw) Hf Hmu H0 [Dx _].
  set (fq := {| fp_dynamic := fp_dynamic fp; fp_static := fp_dynamic fp; fp_viscous := fp_viscous fp; fp_stribeck := 0; fp_epsilon := fp_epsilon fp |}).
  assert (Hq : valid_params fq) by (unfold valid_params; simpl; auto with real).
  destruct (jacobian_right_at_rest k factor fq (V2 1 0) Hq (or_introl eq_refl)) as [Tx _].
  assert (Tx' : is_derive (fun s => v2x (friction_profile k (v2_line (V2 0 0) (V2 1 0) s) factor fp)) 0 (v2x (friction_jacobian_mul k (V2 0 0) factor fq (V2 1 0)))).
  { eapply is_derive_ext; [|exact Tx]. intros s. simpl. rewrite v2_line_from_0, v2_norm_scale. simpl. rewrite H0.
    destruct (Req_dec s 0) as [E|E].
    - subst. ring.
    - assert (N : v2_norm (V2 1 0) = 1).
      { unfold v2_norm, v2_dot; simpl. replace (1 * 1 + 0 * 0) with 1 by ring. apply sqrt_1. }
      rewrite N, Rmult_1_r. assert (Hp : 0 < Rabs s) by (apply Rabs_pos_lt; exact E).
      unfold falloff. destruct (Rlt_dec 0 (Rabs s)); [|contradiction]. ring. }
  pose proof (derive_same _ _ _ _ Dx Tx') as E. clear Tx'. rename E into Tx'. clear -Tx' H0 Hf Hmu He.
  unfold friction_jacobian_mul in Tx'. cbv zeta in Tx'. rewrite v2_norm_zero in Tx'. destruct (Rlt_dec 0 0); [lra|].
  simpl in Tx'. rewrite H0 in Tx'. unfold falloff in Tx'. destruct (Rlt_dec 0 0); [lra|]. cbv zeta in Tx'.
  rewrite !Rmult_0_l in Tx'. destruct (Rlt_dec 0 0); [lra|].
  pose proof (profile_bounds k _ 0 He (Rle_refl 0)) as [Hsp _].
  assert (Z : (fp_static fp - fp_dynamic fp) * sliding_profile k 0 (fp_epsilon fp) * factor = 0) by lra.
  apply Rmult_integral in Z. destruct Z as [Z|Z]; [|contradiction]. apply Rmult_integral in Z. lra.
Qed.

Lemma friction_full_sliding (v : v2) (factor : R) (fp : friction_params) :
  valid_params fp -> fp_viscous fp = 0 -> 0 <= factor -> fp_epsilon fp < v2_norm v -> fp_stribeck fp < v2_norm v ->
  v2_norm (friction_profile Quadratic v factor fp) = fp_dynamic fp * factor.
Proof.
  intros Hp Hk Hf He Hw. rewrite friction_profile_radial, v2_norm_scale. unfold eta_g. rewrite Hk, Rplus_0_r.
  rewrite quad_out by exact He. unfold falloff. destruct (Rlt_dec (fp_stribeck fp) (v2_norm v)); [|contradiction].
  destruct Hp as (He0 & Hd & _). assert (Hn : 0 < v2_norm v) by lra.
  replace (factor * (fp_dynamic fp + (fp_static fp - fp_dynamic fp) * 0) * (1 / v2_norm v) * v2_norm v) with (fp_dynamic fp * factor) by (field; lra).
  apply Rabs_right. apply Rle_ge, Rmult_le_pos; assumption.
Qed.

Lemma viscous_breaks_bound :
  exists (k : profile_kind) (v : v2) (fp : friction_params),
    valid_params fp /\ 0 * Rmax (fp_dynamic fp) (fp_static fp) < v2_norm (friction_profile k v 0 fp).
Proof.
  exists Quadratic, (V2 1 0), {| fp_dynamic := 1; fp_static := 1; fp_viscous := 1; fp_stribeck := 0; fp_epsilon := 1 |}.
  split; [unfold valid_params; simpl; lra|]. rewrite friction_profile_radial, v2_norm_scale. unfold eta_g; simpl.
  assert (N : v2_norm (V2 1 0) = 1).
  { unfold v2_norm, v2_dot; simpl. replace (1 * 1 + 0 * 0) with 1 by ring. apply sqrt_1. }
  rewrite N. rewrite !Rmult_0_l, Rplus_0_l, Rmult_1_r, Rabs_R1. lra.
Qed.
