(** Proofs: the potential along moving query points and samples, and its derivative. *)
From Coq Require Import Reals List Lra Lia Psatz Bool.
From Coquelicot Require Import Coquelicot.
From Verif Require Import Vec3 Mat3 RList Calc Dual KernelModel KernelSpec KernelProofs FieldModel FieldSpec FieldProofs.
Import ListNotations.
Local Open Scope R_scope.

(** Background weight as a function of the distance to the nearest sample. *)
Definition bgw (k : kernel) (weighted : bool) (dist : R) : R :=
  match k_radius k with
  | None => 0
  | Some r => if Rlt_dec r dist then 1 else if weighted then k_f k (r - dist) else 0
  end.
Definition fval (P : bg_params) (v dist side : R) : R :=
  match p_type P with FZero => 0 | FInput => v | FDistance => dist * signum side end.

Lemma rsum_pos {A} (f : A -> R) (l : list A) (c : A) : In c l -> (forall i, In i l -> 0 <= f i) -> 0 < f c -> 0 < rsum (map f l).
Proof.
  induction l as [|a l IH]; intros I N C; [destruct I|]. simpl. rewrite rsum_cons.
  assert (0 <= rsum (map f l)) by (apply rsum_nonneg; intros x Hx; apply in_map_iff in Hx; destruct Hx as (i & <- & Hi); apply N; right; exact Hi).
  destruct I as [<-|I]; [lra|]. pose proof (N a (or_introl eq_refl)).
  pose proof (IH I (fun i Hi => N i (or_intror Hi)) C). lra.
Qed.
Lemma bgw_nonneg k weighted dist : valid_kernel k -> (match k_radius k with None => True | Some r => dist <> r end) -> 0 <= bgw k weighted dist.
Proof.
  intros V H. unfold bgw. destruct (k_radius k) as [r|] eqn:E; [|lra]. destruct (Rlt_dec r dist); [lra|].
  destruct weighted; [|lra]. apply kernel_nonneg; [exact V|lra].
Qed.
(** The weights never sum to zero (away from the support radius of the nearest sample). *)
Lemma total_weight_pos k k' weighted (view : list nat) (dd : nat -> R) c : valid_kernel k -> valid_kernel k' -> k_radius k' = k_radius k ->
  In c view -> (forall i, In i view -> 0 < dd i) -> (match k_radius k with None => True | Some r => dd c <> r end) ->
  0 < rsum (map (fun i => k_f k' (dd i)) view) + bgw k weighted (dd c).
Proof.
  intros V V' E I N H. pose proof (bgw_nonneg k weighted (dd c) V H) as B.
  assert (S0 : 0 <= rsum (map (fun i => k_f k' (dd i)) view)).
  { apply rsum_nonneg. intros x Hx. apply in_map_iff in Hx. destruct Hx as (i & <- & Hi). apply kernel_nonneg; auto. }
  unfold bgw in *. destruct (k_radius k) as [r|] eqn:R.
  - destruct (Rlt_dec r (dd c)); [lra|].
    assert (0 < rsum (map (fun i => k_f k' (dd i)) view)).
    { apply rsum_pos with (c := c); auto; [intros i Hi; apply kernel_nonneg; auto|]. apply kernel_pos; auto. rewrite E. lra. }
    lra.
  - assert (0 < rsum (map (fun i => k_f k' (dd i)) view)).
    { apply rsum_pos with (c := c); auto; [intros i Hi; apply kernel_nonneg; auto|]. apply kernel_pos; auto. rewrite E. exact Logic.I. }
    lra.
Qed.

Lemma interp_scale r a b x : 0 < r -> 0 < b -> x <> 0 -> interp_f r a x = (a / b) * (a / b) * interp_f r b x.
Proof.
  intros Hr Hb Hx. unfold interp_f, interp_f_gen; simpl. destruct (Rlt_dec r x); [ring|].
  set (env := cubic_f_gen ops_R r x). field. repeat split; lra.
Qed.

(** The potential as a quotient of sums with a kernel that no longer depends on the query point. *)
Definition quotient (k k0 : kernel) (P : bg_params) (v : R) (view : list nat) (dd psi : nat -> R) (c : nat) (side : R) : R :=
  (fval P v (dd c) side * bgw k (p_weighted P) (dd c) + rsum (map (fun i => k_f k0 (dd i) * psi i) view))
  * (1 / (rsum (map (fun i => k_f k0 (dd i)) view) + bgw k (p_weighted P) (dd c))).

Lemma potential_quotient k d0 P v q S view c : valid_kernel k -> 0 < d0 -> nearest S q view c ->
  (forall i, In i view -> 0 < v3_norm (away S q i)) ->
  (match k_radius k with None => True | Some r => v3_norm (away S q c) <> r end) ->
  (p_weighted P = true -> match k with Interpolating _ _ => False | _ => True end) ->
  potential_at q S view k P v =
  quotient k (with_closest k d0) P v view (fun i => v3_norm (away S q i)) (plane_value S q) c (v3_dot (s_nml (smp S c)) (away S q c)).
Proof.
  intros V D0 NE POS REG WI. unfold potential_at, bg_local. rewrite (nearest_closest _ _ _ _ NE).
  set (dd := fun i => v3_norm (away S q i)). set (psi := plane_value S q).
  set (dc := dd c). assert (DC : 0 < dc) by (apply POS, NE).
  set (b := bg_new_impl q S view (Local c) k P (Some v)).
  assert (BW : background_weight b = bgw k (p_weighted P) dc) by reflexivity.
  assert (BD : b_dist b = dc) by reflexivity.
  assert (BS : b_sum b = rsum (map (fun i => k_f (with_closest k dc) (dd i)) view) + bgw k (p_weighted P) dc) by reflexivity.
  assert (FV : field_value b = fval P v dc (v3_dot (s_nml (smp S c)) (away S q c))).
  { unfold field_value, fval. cbn [b b_value bg_new_impl]. destruct (p_type P); reflexivity. }
  assert (LP : forall x, local_potential_at q S view k x dc = rsum (map (fun i => k_f (with_closest k dc) (dd i) * psi i) view) * x) by reflexivity.
  cbv zeta. rewrite BD, LP, BW, FV.
  pose proof (total_weight_pos k (with_closest k dc) (p_weighted P) view dd c V (with_closest_valid k dc V DC) (with_closest_radius k dc) (proj1 NE) POS REG) as W.
  pose proof (total_weight_pos k (with_closest k d0) (p_weighted P) view dd c V (with_closest_valid k d0 V D0) (with_closest_radius k d0) (proj1 NE) POS REG) as W0.
  fold dc in W, W0.
  unfold weight_sum_inv. rewrite BS. destruct (Req_EM_T _ 0) as [Z|_]; [lra|].
  unfold quotient. fold dc. set (side := v3_dot (s_nml (smp S c)) (away S q c)).
  set (A := rsum (map (fun i => k_f (with_closest k dc) (dd i) * psi i) view)) in *.
  set (B := rsum (map (fun i => k_f (with_closest k d0) (dd i) * psi i) view)) in *.
  set (WA := rsum (map (fun i => k_f (with_closest k dc) (dd i)) view)) in *.
  set (WB := rsum (map (fun i => k_f (with_closest k d0) (dd i)) view)) in *.
  destruct (match k with Interpolating _ _ => true | _ => false end) eqn:KI.
  - destruct k as [e|r|r cc|r t|r e]; try discriminate. clear KI.
    assert (U : p_weighted P = false) by (destruct (p_weighted P); [destruct (WI eq_refl)|reflexivity]).
    destruct V as [Vr Vc].
    assert (L : forall f : nat -> R, rsum (map (fun i => interp_f r dc (dd i) * f i) view) = (dc / d0) * (dc / d0) * rsum (map (fun i => interp_f r d0 (dd i) * f i) view)).
    { intros f. rewrite <- rsum_scale. apply rsum_ext. intros i Hi. rewrite (interp_scale r dc d0 (dd i)) by (try lra; apply Rgt_not_eq, POS; exact Hi). ring. }
    assert (LA : A = (dc / d0) * (dc / d0) * B) by (apply (L psi)).
    assert (LW : WA = (dc / d0) * (dc / d0) * WB).
    { unfold WA, WB. cbn [with_closest k_f]. rewrite <- rsum_scale. apply rsum_ext. intros i Hi. apply interp_scale; try lra. apply Rgt_not_eq, POS. exact Hi. }
    unfold bgw in *. cbn [k_radius] in *. rewrite U in *. destruct (Rlt_dec r dc) as [OUT|IN_].
    + assert (Z : forall d i, In i view -> k_f (with_closest (Interpolating r cc) d) (dd i) = 0).
      { intros d i Hi. apply (kernel_support (Interpolating r d) r); [reflexivity|]. eapply Rlt_le_trans; [exact OUT|].
        destruct (Nat.eq_dec i c) as [->|N]; [apply Rle_refl|]. apply Rlt_le, NE; assumption. }
      assert (ZW : WB = 0) by (apply rsum_zero; intros i Hi; apply Z; exact Hi).
      assert (ZB : B = 0) by (apply rsum_zero; intros i Hi; rewrite Z by exact Hi; ring).
      rewrite LA, LW, ZB, ZW. field. lra.
    + rewrite LA, LW. assert (0 < dc / d0) by (apply Rdiv_lt_0_compat; lra). set (lam := dc / d0) in *.
      assert (HB : WB <> 0) by lra. rewrite !Rplus_0_r. field. split; [exact HB|lra].
  - assert (E : with_closest k dc = k /\ with_closest k d0 = k) by (destruct k; try discriminate; auto).
    destruct E as [E1 E2]. assert (EA : A = B) by (unfold A, B; rewrite E1, E2; reflexivity).
    assert (EW : WA = WB) by (unfold WA, WB; rewrite E1, E2; reflexivity). rewrite EA, EW. field. lra.
Qed.

(** ** Derivatives of the parts *)
Definition bgw_grad (k : kernel) (weighted : bool) (dist : R) (disp : v3) : v3 :=
  match k_radius k with
  | None => v3_0
  | Some r => if Rlt_dec r dist then v3_0 else if negb weighted then v3_0 else v3_scale (k_df k (r - dist) / dist) (v3_neg disp)
  end.
Definition fgrad (P : bg_params) (dist side : R) (disp : v3) : v3 :=
  match p_type P with FDistance => v3_scale (signum side / dist) disp | _ => v3_0 end.
Definition wgrad (k : kernel) (disp : v3) : v3 := v3_scale (k_df k (v3_norm disp) / v3_norm disp) disp.
(** Rate of the unit normal against a fixed displacement. *)
Definition nrate (n dn disp : v3) : R := v3_dot dn disp / v3_norm n - v3_dot n disp * v3_dot n dn / (v3_norm n * v3_norm n * v3_norm n).

Lemma bgw_derive k weighted f e : valid_kernel k -> moves f e -> f 0 <> v3_0 ->
  (match k_radius k with None => True | Some r => v3_norm (f 0) <> r end) ->
  (weighted = true -> match k with Interpolating _ _ => False | _ => True end) ->
  is_derive (fun s => bgw k weighted (v3_norm (f s))) 0 (v3_dot (bgw_grad k weighted (v3_norm (f 0)) (f 0)) e).
Proof.
  intros V M N R WI. pose proof (moves_norm f e M N) as D. pose proof (v3_norm_pos _ N) as P.
  unfold bgw, bgw_grad. destruct (k_radius k) as [r|] eqn:E.
  2: { rewrite dot_0_l. apply @is_derive_const. }
  destruct (Rlt_dec r (v3_norm (f 0))) as [L|L].
  - rewrite dot_0_l. apply is_derive_ext_loc with (fun _ => 1); [|apply @is_derive_const].
    eapply filter_imp; [|apply (locally_lt (fun _ => r) (fun s => v3_norm (f s)) 0 _ (@is_derive_const _ _ r 0) D L)].
    intros s Hs. cbv beta in Hs. destruct (Rlt_dec r (v3_norm (f s))); [reflexivity|contradiction].
  - assert (L' : v3_norm (f 0) < r) by lra.
    assert (LOC : locally 0 (fun s => v3_norm (f s) < r)) by (apply (locally_lt (fun s => v3_norm (f s)) (fun _ => r) _ 0 D (@is_derive_const _ _ r 0) L')).
    destruct weighted; cbn [negb].
    + apply is_derive_ext_loc with (fun s => k_f k (r - v3_norm (f s))).
      { eapply filter_imp; [|exact LOC]. intros s Hs. cbv beta in Hs. destruct (Rlt_dec r (v3_norm (f s))); [lra|reflexivity]. }
      assert (RG : regular_distance k (r - v3_norm (f 0))).
      { destruct k as [e0|r'|r' c|r' t|r' e0]; simpl in *; inversion E; subst; lra. }
      destruct (kernel_derivatives k _ V RG) as [KD _].
      evar_last.
      * apply (is_derive_comp (k_f k) (fun s => r - v3_norm (f s))); [exact KD|]. apply @is_derive_minus; [apply @is_derive_const|exact D].
      * rewrite dot_scale_l, dot_neg_l. cbv [minus plus opp zero scal mult]; cbn. cbv [mult]; cbn. field. lra.
    + rewrite dot_0_l. apply is_derive_ext_loc with (fun _ => 0); [|apply @is_derive_const].
      eapply filter_imp; [|exact LOC]. intros s Hs. cbv beta in Hs. destruct (Rlt_dec r (v3_norm (f s))); [lra|reflexivity].
Qed.
Lemma signum_pos x : 0 < x -> signum x = 1.
Proof. intros H. unfold signum. destruct (Rlt_dec x 0); [lra|reflexivity]. Qed.
Lemma signum_neg x : x < 0 -> signum x = -1.
Proof. intros H. unfold signum. destruct (Rlt_dec x 0); [reflexivity|lra]. Qed.
Lemma fval_derive P v f n e dn : moves f e -> moves n dn -> f 0 <> v3_0 -> (p_type P = FDistance -> v3_dot (n 0) (f 0) <> 0) ->
  is_derive (fun s => fval P v (v3_norm (f s)) (v3_dot (n s) (f s))) 0 (v3_dot (fgrad P (v3_norm (f 0)) (v3_dot (n 0) (f 0)) (f 0)) e).
Proof.
  intros M MN N HS. pose proof (moves_norm f e M N) as D. pose proof (v3_norm_pos _ N) as Q.
  pose proof (moves_dot n f dn e MN M) as DS.
  unfold fval, fgrad. destruct (p_type P); [rewrite dot_0_l; apply @is_derive_const|rewrite dot_0_l; apply @is_derive_const|].
  specialize (HS eq_refl).
  assert (SG : locally 0 (fun s => signum (v3_dot (n s) (f s)) = signum (v3_dot (n 0) (f 0)))).
  { destruct (Rlt_le_dec (v3_dot (n 0) (f 0)) 0) as [L|L].
    - eapply filter_imp; [|apply (locally_lt (fun s => v3_dot (n s) (f s)) (fun _ => 0) _ 0 DS (@is_derive_const _ _ 0 0) L)].
      intros s Hs. cbv beta in Hs. rewrite !signum_neg; auto.
    - assert (L' : 0 < v3_dot (n 0) (f 0)) by lra.
      eapply filter_imp; [|apply (locally_lt (fun _ => 0) (fun s => v3_dot (n s) (f s)) 0 _ (@is_derive_const _ _ 0 0) DS L')].
      intros s Hs. cbv beta in Hs. rewrite !signum_pos; auto. }
  apply is_derive_ext_loc with (fun s => v3_norm (f s) * signum (v3_dot (n 0) (f 0))).
  { eapply filter_imp; [|exact SG]. intros s Hs. rewrite Hs. reflexivity. }
  evar_last.
  - apply (is_derive_mult (fun s => v3_norm (f s)) (fun _ => signum (v3_dot (n 0) (f 0)))); [exact D|apply @is_derive_const|intros; apply Rmult_comm].
  - rewrite dot_scale_l. cbv [mult plus zero]; cbn. field. lra.
Qed.
Lemma weight_derive k f e : valid_kernel k -> moves f e -> f 0 <> v3_0 -> regular_distance k (v3_norm (f 0)) ->
  is_derive (fun s => k_f k (v3_norm (f s))) 0 (v3_dot (wgrad k (f 0)) e).
Proof.
  intros V M N R. pose proof (moves_norm f e M N) as D. pose proof (v3_norm_pos _ N) as Q.
  destruct (kernel_derivatives k _ V R) as [KD _]. evar_last.
  - apply (is_derive_comp (k_f k) (fun s => v3_norm (f s))); [exact KD|exact D].
  - unfold wgrad. rewrite dot_scale_l. cbv [scal mult]; cbn. cbv [mult]; cbn. field. lra.
Qed.
Lemma plane_derive val f n e dn : moves f e -> moves n dn -> n 0 <> v3_0 ->
  is_derive (fun s => val + v3_dot (n s) (f s) / v3_norm (n s)) 0 (v3_dot (unit_of (n 0)) e + nrate (n 0) dn (f 0)).
Proof.
  intros M MN N. pose proof (moves_norm n dn MN N) as D. pose proof (v3_norm_pos _ N) as Q. pose proof (moves_dot n f dn e MN M) as DS.
  evar_last.
  - apply @is_derive_plus; [apply @is_derive_const|]. apply is_derive_div; [exact DS|exact D|lra].
  - unfold unit_of, nrate. rewrite dot_scale_l. cbv [plus zero]; cbn. field. lra.
Qed.

(** ** Derivative of the quotient *)
Section Quotient.
Variables (k k0 : kernel) (P : bg_params) (v : R) (view : list nat) (c : nat).
Variables (d n : R -> nat -> v3) (val : nat -> R) (e dn : nat -> v3).
Hypothesis Vk : valid_kernel k.
Hypothesis Vk0 : valid_kernel k0.
Hypothesis Ek : k_radius k0 = k_radius k.
Hypothesis Md : forall i, In i view -> moves (fun s => d s i) (e i).
Hypothesis Mn : forall i, In i view -> moves (fun s => n s i) (dn i).
Hypothesis Hc : In c view.
Hypothesis Hreg : forall i, In i view -> d 0 i <> v3_0 /\ n 0 i <> v3_0 /\ regular_distance k0 (v3_norm (d 0 i)).
Hypothesis Hside : p_type P = FDistance -> v3_dot (n 0 c) (d 0 c) <> 0.
Hypothesis Hwi : p_weighted P = true -> match k with Interpolating _ _ => False | _ => True end.

Let w (i : nat) := k_f k0 (v3_norm (d 0 i)).
Let g (i : nat) := wgrad k0 (d 0 i).
Let psi (s : R) (i : nat) := val i + v3_dot (n s i) (d s i) / v3_norm (n s i).
Let dc := v3_norm (d 0 c).
Let side := v3_dot (n 0 c) (d 0 c).
Let bw := bgw k (p_weighted P) dc.
Let beta := bgw_grad k (p_weighted P) dc (d 0 c).
Let gam := fgrad P dc side (d 0 c).
Let fv := fval P v dc side.
Let W := rsum (map w view) + bw.
Let wsi := 1 / W.
Let lp := rsum (map (fun i => w i * psi 0 i) view) * wsi.
Let G0 := fv * bw * wsi + lp.
(** Coefficient of the motion of sample [i] relative to the query point, and of the nearest sample. *)
Definition coef (i : nat) : v3 :=
  v3_scale wsi (v3_add (v3_scale (psi 0 i - G0) (g i)) (v3_scale (w i) (unit_of (n 0 i)))).
Definition coef_near : v3 := v3_scale wsi (v3_add (v3_scale bw gam) (v3_scale (fv - G0) beta)).

Lemma W_pos : 0 < W.
Proof.
  unfold W, bw, dc. apply (total_weight_pos k k0 (p_weighted P) view (fun i => v3_norm (d 0 i)) c); auto.
  - intros i Hi. apply v3_norm_pos, (Hreg i Hi).
  - destruct (k_radius k) as [r|] eqn:E; [|exact Logic.I]. destruct (Hreg c Hc) as (_ & _ & R0).
    apply (regular_radius k0 _ r R0). rewrite Ek. first [exact E|reflexivity].
Qed.
Lemma quotient_derive :
  is_derive (fun s => quotient k k0 P v view (fun i => v3_norm (d s i)) (psi s) c (v3_dot (n s c) (d s c))) 0
    (rsum (map (fun i => v3_dot (coef i) (e i)) view) + v3_dot coef_near (e c)
     + wsi * rsum (map (fun i => w i * nrate (n 0 i) (dn i) (d 0 i)) view)).
Proof.
  pose proof W_pos as WP.
  destruct (Hreg c Hc) as (NC & _ & RC).
  assert (RR : match k_radius k with None => True | Some r => v3_norm (d 0 c) <> r end).
  { destruct (k_radius k) as [r|] eqn:E; [|exact Logic.I]. apply (regular_radius k0 _ r RC). rewrite Ek. first [exact E|reflexivity]. }
  pose proof (bgw_derive k (p_weighted P) (fun s => d s c) (e c) Vk (Md c Hc) NC RR Hwi) as DB.
  pose proof (fval_derive P v (fun s => d s c) (fun s => n s c) (e c) (dn c) (Md c Hc) (Mn c Hc) NC Hside) as DF.
  assert (DW : is_derive (fun s => rsum (map (fun i => k_f k0 (v3_norm (d s i))) view)) 0 (rsum (map (fun i => v3_dot (g i) (e i)) view))).
  { apply derive_rsum. intros i Hi. destruct (Hreg i Hi) as (A & B & C). apply (weight_derive k0 (fun s => d s i) (e i)); auto. }
  assert (DP : is_derive (fun s => rsum (map (fun i => k_f k0 (v3_norm (d s i)) * psi s i) view)) 0
                 (rsum (map (fun i => v3_dot (g i) (e i) * psi 0 i + w i * (v3_dot (unit_of (n 0 i)) (e i) + nrate (n 0 i) (dn i) (d 0 i))) view))).
  { apply (derive_rsum (fun i s => k_f k0 (v3_norm (d s i)) * psi s i)). intros i Hi. destruct (Hreg i Hi) as (A & B & C).
    evar_last.
    - apply @is_derive_mult; [apply (weight_derive k0 (fun s => d s i) (e i)); auto|apply (plane_derive (val i) (fun s => d s i) (fun s => n s i) (e i) (dn i)); auto|intros; apply Rmult_comm].
    - cbv [plus mult]; cbn. fold (g i). unfold psi, w. ring. }
  unfold quotient. evar_last.
  - apply @is_derive_mult; [apply @is_derive_plus; [apply @is_derive_mult; [exact DF|exact DB|intros; apply Rmult_comm]|exact DP]| |intros; apply Rmult_comm].
    apply is_derive_div; [apply @is_derive_const|apply @is_derive_plus; [exact DW|exact DB]|].
    change (W <> 0). lra.
  - cbv [plus mult zero]; cbn. fold dc. fold side. fold fv. fold gam. fold bw. fold beta. fold w. fold W.
    change (rsum (map (fun i => k_f k0 (v3_norm (d 0 i)) * psi 0 i) view)) with (rsum (map (fun i => w i * psi 0 i) view)).
    set (A1 := rsum (map (fun i => w i * psi 0 i) view)) in *.
    assert (E1 : rsum (map (fun i => v3_dot (g i) (e i) * psi 0 i + w i * (v3_dot (unit_of (n 0 i)) (e i) + nrate (n 0 i) (dn i) (d 0 i))) view)
      = rsum (map (fun i => psi 0 i * v3_dot (g i) (e i)) view) + rsum (map (fun i => w i * v3_dot (unit_of (n 0 i)) (e i)) view)
        + rsum (map (fun i => w i * nrate (n 0 i) (dn i) (d 0 i)) view)).
    { rewrite <- !rsum_plus. apply rsum_ext. intros i _. ring. }
    assert (E2 : rsum (map (fun i => v3_dot (coef i) (e i)) view)
      = wsi * (rsum (map (fun i => psi 0 i * v3_dot (g i) (e i)) view) - G0 * rsum (map (fun i => v3_dot (g i) (e i)) view)
               + rsum (map (fun i => w i * v3_dot (unit_of (n 0 i)) (e i)) view))).
    { rewrite <- (rsum_scale G0). unfold Rminus. rewrite <- (Rmult_1_l (rsum (map (fun x => G0 * _) view))), Ropp_mult_distr_l, <- rsum_scale, <- !rsum_plus, <- rsum_scale.
      apply rsum_ext. intros i _. unfold coef. rewrite dot_scale_l, dot_add_l, !dot_scale_l. ring. }
    rewrite E1, E2. unfold coef_near. rewrite dot_scale_l, dot_add_l, !dot_scale_l.
    unfold G0, lp. fold A1. unfold wsi. fold w. fold W.
    set (X1 := rsum (map (fun i => psi 0 i * v3_dot (g i) (e i)) view)).
    set (X2 := rsum (map (fun i => w i * v3_dot (unit_of (n 0 i)) (e i)) view)).
    set (X3 := rsum (map (fun i => w i * nrate (n 0 i) (dn i) (d 0 i)) view)).
    set (X4 := rsum (map (fun i => v3_dot (g i) (e i)) view)).
    field. lra.
Qed.
End Quotient.

(** ** The potential along moving query points and samples *)
Section Along.
Variables (k : kernel) (P : bg_params) (v : R) (view : list nat) (c : nat).
Variables (q : R -> v3) (S : R -> list sample) (dq : v3) (dp dn : nat -> v3).
Hypothesis Vk : valid_kernel k.
Hypothesis Mq : moves q dq.
Hypothesis MS : moving_samples S view dp dn.
Hypothesis NE : nearest (S 0) (q 0) view c.
Hypothesis RV : regular_view k (S 0) (q 0) view.
Hypothesis Hside : p_type P = FDistance -> v3_dot (s_nml (smp (S 0) c)) (away (S 0) (q 0) c) <> 0.
Hypothesis Hwi : p_weighted P = true -> match k with Interpolating _ _ => False | _ => True end.

Let dd (s : R) (i : nat) := away (S s) (q s) i.
Let nn (s : R) (i : nat) := s_nml (smp (S s) i).
Let val (i : nat) := s_value (smp (S 0) i).
Let d0 := v3_norm (dd 0 c).
Let k0 := with_closest k d0.
Let cf := coef k k0 P v view c dd nn val.
Let cn := coef_near k k0 P v view c dd nn val.
Let wsi0 := 1 / (rsum (map (fun i => k_f k0 (v3_norm (dd 0 i))) view) + bgw k (p_weighted P) d0).
Let ee (i : nat) := v3_sub dq (dp i).
Let nu := wsi0 * rsum (map (fun i => k_f k0 (v3_norm (dd 0 i)) * nrate (nn 0 i) (dn i) (dd 0 i)) view).

Lemma dd_moves i : In i view -> moves (fun s => dd s i) (ee i).
Proof. intros Hi. apply moves_sub; [exact Mq|]. apply (MS i Hi). Qed.
Lemma potential_derive :
  is_derive (fun s => potential_at (q s) (S s) view k P v) 0
    (rsum (map (fun i => v3_dot (cf i) (ee i)) view) + v3_dot cn (ee c) + nu).
Proof.
  assert (D0 : 0 < d0) by (apply v3_norm_pos, RV, NE).
  assert (IC : In c view) by apply NE.
  assert (V0 : valid_kernel k0) by (apply with_closest_valid; assumption).
  assert (DN : forall i, In i view -> is_derive (fun s => v3_norm (dd s i)) 0 (v3_dot (dd 0 i) (ee i) / v3_norm (dd 0 i))).
  { intros i Hi. apply (moves_norm (fun s => dd s i)); [apply dd_moves; exact Hi|apply RV; exact Hi]. }
  assert (L1 : locally 0 (fun s => forall i, In i view -> i <> c -> v3_norm (dd s c) < v3_norm (dd s i))).
  { apply locally_all. intros i Hi. destruct (Nat.eq_dec i c) as [->|N].
    - apply filter_forall. intros s H. congruence.
    - eapply filter_imp; [|apply (locally_lt _ _ _ _ (DN c IC) (DN i Hi)); apply NE; assumption]. intros s H _. exact H. }
  assert (L2 : locally 0 (fun s => forall i, In i view -> 0 < v3_norm (dd s i))).
  { apply locally_all. intros i Hi. apply (locally_lt (fun _ => 0) _ 0 _ (@is_derive_const _ _ 0 0) (DN i Hi)). apply v3_norm_pos, RV, Hi. }
  assert (L3 : locally 0 (fun s => match k_radius k with None => True | Some r => v3_norm (dd s c) <> r end)).
  { destruct (k_radius k) as [r|] eqn:E; [|apply filter_forall; intros; exact Logic.I].
    assert (NR : v3_norm (dd 0 c) <> r) by (apply (regular_radius k); [apply RV; exact IC|exact E]).
    destruct (Rdichotomy _ _ NR) as [L|L].
    - eapply filter_imp; [|apply (locally_lt _ (fun _ => r) _ 0 (DN c IC) (@is_derive_const _ _ r 0) L)]. intros s H. cbv beta in H. lra.
    - eapply filter_imp; [|apply (locally_lt (fun _ => r) _ 0 _ (@is_derive_const _ _ r 0) (DN c IC) L)]. intros s H. cbv beta in H. lra. }
  apply is_derive_ext_loc with (fun s => quotient k k0 P v view (fun i => v3_norm (dd s i)) (fun i => val i + v3_dot (nn s i) (dd s i) / v3_norm (nn s i)) c (v3_dot (nn s c) (dd s c))).
  - eapply filter_imp; [|apply (filter_and _ _ L1 (filter_and _ _ L2 L3))]. intros s (A & B & C). cbv beta in *.
    rewrite (potential_quotient k d0 P v (q s) (S s) view c); auto; [|split; [exact IC|exact A]].
    unfold quotient. f_equal. f_equal. apply rsum_ext. intros i Hi. fold (dd s i).
    f_equal. unfold plane_value. rewrite (proj2 (proj2 (MS i Hi)) s). reflexivity.
  - apply (quotient_derive k k0 P v view c dd nn val ee dn); auto.
    + apply with_closest_radius.
    + intros i Hi. apply dd_moves; exact Hi.
    + intros i Hi. apply (MS i Hi).
    + intros i Hi. destruct (RV i Hi) as (A & B & C). split; [exact A|split; [exact B|]]. apply with_closest_regular. exact C.
Qed.

(** The vectors the code computes are these coefficients. *)
Hypothesis Hglob : p_weighted P = true -> match k with Global _ => False | _ => True end.
Hypothesis Hin : p_weighted P = true -> p_type P = FInput -> v = 0.
Let b := bg_new_impl (q 0) (S 0) view (Local c) k P None.

Lemma the_background : bg_local (q 0) (S 0) view k P None = Some b.
Proof. unfold bg_local. rewrite (nearest_closest _ _ _ _ NE). reflexivity. Qed.
Lemma the_sum : b_sum b = rsum (map (fun i => k_f k0 (v3_norm (dd 0 i))) view) + bgw k (p_weighted P) d0.
Proof. reflexivity. Qed.
Lemma the_wsi : weight_sum_inv b = wsi0.
Proof.
  unfold weight_sum_inv. rewrite the_sum. unfold wsi0.
  destruct (Req_EM_T _ 0) as [Z|Z]; [|reflexivity]. exfalso.
  assert (D0 : 0 < d0) by (apply v3_norm_pos, RV, NE).
  pose proof (total_weight_pos k k0 (p_weighted P) view (fun i => v3_norm (dd 0 i)) c Vk (with_closest_valid k d0 Vk D0) (with_closest_radius k d0) (proj1 NE)) as W.
  assert (0 < rsum (map (fun i => k_f k0 (v3_norm (dd 0 i))) view) + bgw k (p_weighted P) d0); [|lra].
  apply W; [intros i Hi; apply v3_norm_pos, RV, Hi|]. destruct (k_radius k) as [r|] eqn:E; [|exact Logic.I].
  apply (regular_radius k); [apply RV, NE|exact E].
Qed.
Lemma the_weight i : s_weight k d0 (q 0) (smp (S 0) i) = k_f k0 (v3_norm (dd 0 i)).
Proof. reflexivity. Qed.
Lemma the_weight_grad i : In i view -> s_weight_grad k d0 (q 0) (smp (S 0) i) = wgrad k0 (dd 0 i).
Proof.
  intros Hi. unfold s_weight_grad, k_grad, wgrad. fold k0. change (v3_sub (q 0) (s_pos (smp (S 0) i))) with (dd 0 i). cbv zeta.
  destruct (Rlt_dec 0 (v3_norm (dd 0 i))) as [_|N]; [reflexivity|]. exfalso. apply N, v3_norm_pos, RV, Hi.
Qed.
Lemma the_bg_weight : background_weight b = bgw k (p_weighted P) d0.
Proof. reflexivity. Qed.
Lemma the_bg_grad : background_weight_gradient b None = bgw_grad k (p_weighted P) d0 (dd 0 c).
Proof. reflexivity. Qed.
Lemma the_field_grad : field_gradient b = fgrad P d0 (v3_dot (nn 0 c) (dd 0 c)) (dd 0 c).
Proof.
  unfold field_gradient, fgrad, b, bg_new_impl, bg_value_new. cbn [b_value b_dist b_disp].
  destruct (p_type P); try reflexivity. cbn. change (v3_sub (q 0) (s_pos (smp (S 0) c))) with (dd 0 c). fold d0.
  assert (D0 : 0 < d0) by (apply v3_norm_pos, RV, NE). destruct (Req_EM_T d0 0); [lra|]. reflexivity.
Qed.
(** When the weight of the background matters for the gradient, its value is the one used by the Jacobian code. *)
Lemma the_field_value : p_weighted P = true -> field_value b = fval P v d0 (v3_dot (nn 0 c) (dd 0 c)).
Proof.
  intros HW. unfold field_value, fval, b, bg_new_impl, bg_value_new. cbn [b_value b_dist b_disp].
  destruct (p_type P) eqn:T; try reflexivity. symmetry. apply Hin; auto.
Qed.
Lemma unweighted_grad : p_weighted P = false -> bgw_grad k (p_weighted P) d0 (dd 0 c) = v3_0.
Proof. intros U. unfold bgw_grad. rewrite U. destruct (k_radius k) as [r|]; [|reflexivity]. destruct (Rlt_dec r d0); reflexivity. Qed.
Lemma unweighted_vanish i : p_weighted P = false -> In i view -> v3_scale (bgw k (p_weighted P) d0) (wgrad k0 (dd 0 i)) = v3_0.
Proof.
  intros U Hi. unfold bgw. rewrite U. destruct (k_radius k) as [r|] eqn:E; [|apply v3_eq; unv; ring].
  destruct (Rlt_dec r d0) as [L|L]; [|apply v3_eq; unv; ring].
  unfold wgrad. assert (Z : k_df k0 (v3_norm (dd 0 i)) = 0).
  { apply (kernel_support k0 r); [unfold k0; rewrite <- k_radius_support, with_closest_radius; exact E|].
    eapply Rlt_le_trans; [exact L|]. destruct (Nat.eq_dec i c) as [->|N]; [apply Rle_refl|]. apply Rlt_le, NE; assumption. }
  rewrite Z. unfold Rdiv. rewrite Rmult_0_l. apply v3_eq; unv; ring.
Qed.

Let G0 := fval P v d0 (v3_dot (nn 0 c) (dd 0 c)) * bgw k (p_weighted P) d0 * wsi0
  + rsum (map (fun i => k_f k0 (v3_norm (dd 0 i)) * (val i + v3_dot (nn 0 i) (dd 0 i) / v3_norm (nn 0 i))) view) * wsi0.
Let lp := rsum (map (fun i => k_f k0 (v3_norm (dd 0 i)) * (val i + v3_dot (nn 0 i) (dd 0 i) / v3_norm (nn 0 i))) view) * wsi0.
Lemma cf_dot i u : v3_dot (cf i) u = wsi0 * ((val i + v3_dot (nn 0 i) (dd 0 i) / v3_norm (nn 0 i) - G0) * v3_dot (wgrad k0 (dd 0 i)) u
  + k_f k0 (v3_norm (dd 0 i)) * v3_dot (unit_of (nn 0 i)) u).
Proof. unfold cf, coef. rewrite dot_scale_l, dot_add_l, !dot_scale_l. reflexivity. Qed.
Lemma cn_dot u : v3_dot cn u = wsi0 * (bgw k (p_weighted P) d0 * v3_dot (fgrad P d0 (v3_dot (nn 0 c) (dd 0 c)) (dd 0 c)) u
  + (fval P v d0 (v3_dot (nn 0 c) (dd 0 c)) - G0) * v3_dot (bgw_grad k (p_weighted P) d0 (dd 0 c)) u).
Proof. unfold cn, coef_near. rewrite dot_scale_l, dot_add_l, !dot_scale_l. reflexivity. Qed.
Lemma unit_dot n x : n <> v3_0 -> v3_dot (unit_of n) x = v3_dot n x / v3_norm n.
Proof. intros H. pose proof (v3_norm_pos _ H). unfold unit_of. rewrite dot_scale_l. field. lra. Qed.

Lemma query_jacobian_coef : exists J, query_jacobian_at (q 0) (S 0) view None k P = Some J /\
  forall u, v3_dot J u = rsum (map (fun i => v3_dot (cf i) u) view) + v3_dot cn u.
Proof.
  unfold query_jacobian_at, bg_new. rewrite the_background. eexists. split; [reflexivity|]. intros u.
  rewrite dot_add_l, dot_vsum.
  set (w := fun i => k_f k0 (v3_norm (dd 0 i))).
  set (psi := fun i => val i + v3_dot (nn 0 i) (dd 0 i) / v3_norm (nn 0 i)).
  set (gu := fun i => v3_dot (wgrad k0 (dd 0 i)) u).
  set (nu' := fun i => v3_dot (unit_of (nn 0 i)) u).
  set (bw := bgw k (p_weighted P) d0). set (bu := v3_dot (bgw_grad k (p_weighted P) d0 (dd 0 c)) u).
  set (gam := v3_dot (fgrad P d0 (v3_dot (nn 0 c) (dd 0 c)) (dd 0 c)) u).
  set (fv := fval P v d0 (v3_dot (nn 0 c) (dd 0 c))).
  set (SG := rsum (map gu view)).
  assert (DN : v3_dot (neighbor_weight_gradient b) u = wsi0 * (SG + bu)).
  { unfold neighbor_weight_gradient. rewrite dot_scale_l, dot_add_l, the_wsi, the_bg_grad. f_equal. f_equal.
    rewrite dot_vsum. apply rsum_ext. intros i Hi. unfold gu. rewrite <- the_weight_grad by exact Hi. reflexivity. }
  assert (E1 : rsum (map (fun i => v3_dot (let s := smp (S 0) i in sample_query_jacobian_at (q 0) s k (unit_of (s_nml s)) (neighbor_weight_gradient b) (weight_sum_inv b) (b_dist b)) u) view)
    = rsum (map (fun i => wsi0 * (psi i * gu i + w i * nu' i)) view) - rsum (map (fun i => w i * psi i) view) * wsi0 * (wsi0 * (SG + bu))).
  { unfold Rminus. rewrite Rmult_assoc, Rmult_comm, Ropp_mult_distr_l, <- rsum_scale, <- rsum_plus. apply rsum_ext. intros i Hi.
    cbv zeta. unfold sample_query_jacobian_at. cbv zeta. rewrite dot_scale_l, dot_add_l, !dot_scale_l, dot_sub_l, dot_scale_l, DN, the_wsi.
    change (b_dist b) with d0. rewrite the_weight_grad by exact Hi. rewrite the_weight. change (v3_sub (q 0) (s_pos (smp (S 0) i))) with (dd 0 i).
    rewrite unit_dot by (apply RV; exact Hi). fold (nn 0 i). fold (val i). fold (psi i) (gu i) (w i) (nu' i). ring. }
  etransitivity; [exact (f_equal2 Rplus E1 eq_refl)|].
  assert (E2 : rsum (map (fun i => v3_dot (cf i) u) view) = rsum (map (fun i => wsi0 * (psi i * gu i + w i * nu' i)) view) - wsi0 * G0 * SG).
  { unfold Rminus, SG. rewrite Ropp_mult_distr_l, <- rsum_scale, <- rsum_plus. apply rsum_ext. intros i Hi.
    rewrite cf_dot. fold (psi i) (gu i) (w i) (nu' i). ring. }
  rewrite E2, cn_dot. fold bw bu gam fv.
  assert (G : G0 = fv * bw * wsi0 + rsum (map (fun i => w i * psi i) view) * wsi0) by reflexivity.
  unfold bg_query_jacobian. rewrite the_wsi, the_bg_weight, the_bg_grad, the_field_grad. fold bw. cbv zeta.
  rewrite dot_add_l, dot_scale_l. fold gam. change (b_weighted b) with (p_weighted P).
  destruct (Bool.bool_dec (p_weighted P) true) as [HW|HW]; [|apply Bool.not_true_is_false in HW]; rewrite HW.
  - rewrite (the_field_value HW). fold fv. rewrite dot_scale_l, dot_sub_l, dot_scale_l, dot_add_l. fold bu.
    assert (E3 : v3_dot (vsum (map (fun i => s_weight_grad (b_kernel b) (b_dist b) (b_q b) (smp (b_all b) i)) (b_view b))) u = SG).
    { rewrite dot_vsum. apply rsum_ext. intros i Hi. unfold gu. rewrite <- the_weight_grad by exact Hi. reflexivity. }
    rewrite <- HW. fold bu. rewrite E3, G. ring.
  - assert (B0 : bu = 0) by (unfold bu; rewrite unweighted_grad by exact HW; apply dot_0_l).
    assert (BS : bw * SG = 0).
    { unfold SG. rewrite <- rsum_scale. apply rsum_zero. intros i Hi. unfold gu. rewrite <- dot_scale_l. unfold bw. rewrite unweighted_vanish by assumption. apply dot_0_l. }
    rewrite dot_0_l, B0, G. replace (wsi0 * (fv * bw * wsi0 + rsum (map (fun i => w i * psi i) view) * wsi0) * SG) with (fv * wsi0 * wsi0 * (bw * SG) + wsi0 * wsi0 * rsum (map (fun i => w i * psi i) view) * SG) by ring.
    rewrite BS. ring.
Qed.

(** Sample Jacobians. *)
Definition sj (i : nat) : v3 := v3_add (bg_sample_jacobian b i)
  (local_sample_jacobian_at (q 0) (smp (S 0) i) k (background_weight_gradient b (Some i)) d0 lp wsi0).
Lemma sj_list : sample_jacobian_at b = map sj view.
Proof.
  unfold sample_jacobian_at. cbv zeta. rewrite the_wsi. reflexivity.
Qed.
Lemma sj_dot i u : In i view -> v3_dot (sj i) u = - v3_dot (cf i) u - (if Nat.eqb i c then v3_dot cn u else 0).
Proof.
  intros Hi. unfold sj. rewrite dot_add_l, cf_dot.
  unfold local_sample_jacobian_at. cbv zeta. rewrite the_weight_grad, the_weight by exact Hi.
  change (v3_sub (q 0) (s_pos (smp (S 0) i))) with (dd 0 i). rewrite unit_dot by (apply RV; exact Hi). fold (nn 0 i) (val i).
  rewrite !dot_sub_l, !dot_scale_l, dot_sub_l.
  set (w := k_f k0 (v3_norm (dd 0 i))). set (psi := val i + v3_dot (nn 0 i) (dd 0 i) / v3_norm (nn 0 i)).
  set (gu := v3_dot (wgrad k0 (dd 0 i)) u). set (n0 := v3_dot (unit_of (nn 0 i)) u).
  set (bw := bgw k (p_weighted P) d0).
  set (fv := fval P v d0 (v3_dot (nn 0 c) (dd 0 c))).
  assert (G : G0 = fv * bw * wsi0 + lp) by reflexivity.
  assert (BG : v3_dot (background_weight_gradient b (Some i)) u = if Nat.eqb i c then - v3_dot (bgw_grad k (p_weighted P) d0 (dd 0 c)) u else 0).
  { unfold background_weight_gradient, bgw_grad. change (b_kernel b) with k. change (b_dist b) with d0. change (b_weighted b) with (p_weighted P).
    change (b_index b) with (Local c). change (b_disp b) with (dd 0 c).
    destruct (k_radius k) as [r|]; [|rewrite dot_0_l; destruct (Nat.eqb i c); ring].
    destruct (Rlt_dec r d0); [rewrite dot_0_l; destruct (Nat.eqb i c); ring|].
    destruct (negb (p_weighted P)); [rewrite dot_0_l; destruct (Nat.eqb i c); ring|]. cbv zeta.
    destruct (Nat.eqb i c); [rewrite !dot_scale_l, dot_neg_l; ring|apply dot_0_l]. }
  rewrite BG. unfold bg_sample_jacobian. rewrite the_wsi, the_bg_weight, the_field_grad. fold bw. cbv zeta.
  change (b_weighted b) with (p_weighted P). change (ci_get (b_index b)) with c.
  assert (V0 : is_closest_field (b_value b) = match p_type P with FDistance => true | _ => false end).
  { unfold b, bg_new_impl, bg_value_new. cbn [b_value]. destruct (p_type P); reflexivity. }
  rewrite V0.
  assert (GZ : p_type P <> FDistance -> fgrad P d0 (v3_dot (nn 0 c) (dd 0 c)) (dd 0 c) = v3_0) by (unfold fgrad; destruct (p_type P); congruence).
  assert (BGC : background_weight_gradient b (Some c) = v3_neg (bgw_grad k (p_weighted P) d0 (dd 0 c))).
  { unfold background_weight_gradient, bgw_grad. change (b_kernel b) with k. change (b_dist b) with d0. change (b_weighted b) with (p_weighted P).
    change (b_index b) with (Local c). change (b_disp b) with (dd 0 c). cbv iota beta zeta. rewrite Nat.eqb_refl.
    destruct (k_radius k) as [r|]; [|apply v3_eq; unv; ring].
    destruct (Rlt_dec r d0); [apply v3_eq; unv; ring|].
    destruct (negb (p_weighted P)); [apply v3_eq; unv; ring|]. apply v3_eq; unv; ring. }
  rewrite BGC.
  destruct (Bool.bool_dec (p_weighted P) true) as [HW|HW]; [|apply Bool.not_true_is_false in HW].
  - replace (negb (p_weighted P)) with false by (rewrite HW; reflexivity). assert (FZ : p_type P <> FDistance -> fv = 0).
    { intros T. unfold fv. rewrite <- the_field_value by exact HW. unfold field_value, b, bg_new_impl, bg_value_new. cbn [b_value]. destruct (p_type P); congruence. }
    change (b_kernel b) with k. change (b_dist b) with d0. change (b_q b) with (q 0). change (b_all b) with (S 0). rewrite (the_weight_grad i Hi), (the_field_value HW). fold fv.
    destruct (p_type P) eqn:T; cbn [andb].
    1, 2: (specialize (FZ ltac:(discriminate)); rewrite ?dot_add_l, ?dot_scale_l, ?dot_0_l; fold gu; rewrite cn_dot; fold fv; rewrite GZ by discriminate; rewrite dot_0_l, G; fold bw;
      rewrite FZ; destruct (Nat.eqb i c); ring).
    destruct (Nat.eqb i c) eqn:IC.
    + rewrite !dot_add_l, dot_neg_l, !dot_scale_l, dot_neg_l. fold gu. rewrite cn_dot. fold fv. rewrite G. fold bw. ring.
    + rewrite dot_add_l, dot_scale_l, dot_0_l. fold gu. rewrite G. ring.
  - replace (negb (p_weighted P)) with true by (rewrite HW; reflexivity). assert (B0 : v3_dot (bgw_grad k (p_weighted P) d0 (dd 0 c)) u = 0) by (rewrite unweighted_grad by exact HW; apply dot_0_l).
    assert (BS : bw * gu = 0) by (unfold gu; rewrite <- dot_scale_l; unfold bw; rewrite unweighted_vanish by assumption; apply dot_0_l).
    rewrite cn_dot. fold fv bw. rewrite B0, G.
    replace (wsi0 * ((psi - (fv * bw * wsi0 + lp)) * gu + w * n0)) with (wsi0 * ((psi - lp) * gu + w * n0) - wsi0 * wsi0 * fv * (bw * gu)) by ring.
    rewrite BS.
    destruct (p_type P) eqn:T; cbn [andb].
    1, 2: (rewrite GZ by discriminate; rewrite !dot_0_l; destruct (Nat.eqb i c); ring).
    destruct (Nat.eqb i c) eqn:IC.
    + rewrite dot_neg_l, dot_scale_l. ring.
    + rewrite dot_0_l. ring.
Qed.
Lemma rsum_pick {f : nat -> R} : forall l, NoDup l -> In c l -> rsum (map (fun i => if Nat.eqb i c then f i else 0) l) = f c.
Proof.
  induction l as [|a l IH]; intros ND I; [destruct I|]. inversion ND as [|x y NI ND']; subst. simpl. rewrite rsum_cons. destruct I as [->|I].
  - rewrite Nat.eqb_refl. rewrite rsum_zero; [ring|]. intros i Hi. destruct (Nat.eqb i c) eqn:E; [|reflexivity]. apply Nat.eqb_eq in E. subst. contradiction.
  - destruct (Nat.eqb a c) eqn:E; [apply Nat.eqb_eq in E; subst; contradiction|]. rewrite IH by assumption. ring.
Qed.
Hypothesis ND : NoDup view.
(** Derivative through the Jacobians of the code, normals moving independently. *)
Lemma potential_jacobian_derive : exists J, query_jacobian_at (q 0) (S 0) view None k P = Some J /\
  is_derive (fun s => potential_at (q s) (S s) view k P v) 0 (v3_dot J dq + rsum (map (fun i => v3_dot (sj i) (dp i)) view) + nu).
Proof.
  destruct query_jacobian_coef as (J & EJ & DJ). exists J. split; [exact EJ|].
  evar_last; [apply potential_derive|]. rewrite DJ.
  assert (E1 : rsum (map (fun i => v3_dot (sj i) (dp i)) view) = - rsum (map (fun i => v3_dot (cf i) (dp i)) view) - v3_dot cn (dp c)).
  { rewrite <- (rsum_pick view ND (proj1 NE) (f := fun i => v3_dot cn (dp i))).
    rewrite <- (Rmult_1_l (rsum (map (fun i => if Nat.eqb i c then _ else _) view))), <- (Rmult_1_l (rsum (map (fun i => v3_dot (cf i) (dp i)) view))).
    unfold Rminus. rewrite !Ropp_mult_distr_l, <- !rsum_scale, <- rsum_plus. apply rsum_ext. intros i Hi. rewrite sj_dot by exact Hi. ring. }
  assert (E2 : rsum (map (fun i => v3_dot (cf i) (ee i)) view) = rsum (map (fun i => v3_dot (cf i) dq) view) - rsum (map (fun i => v3_dot (cf i) (dp i)) view)).
  { rewrite <- (Rmult_1_l (rsum (map (fun i => v3_dot (cf i) (dp i)) view))). unfold Rminus. rewrite !Ropp_mult_distr_l, <- !rsum_scale, <- rsum_plus. apply rsum_ext. intros i Hi.
    unfold ee. rewrite dot_sub_r. ring. }
  rewrite E1, E2. unfold ee. rewrite dot_sub_r. ring.
Qed.
End Along.
