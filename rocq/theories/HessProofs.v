(** Proofs about the second derivatives of the implicit potential. *)
From Coq Require Import Reals List Bool Lra Lia Psatz.
From Coquelicot Require Import Coquelicot.
From Verif Require Import Vec3 Mat3 RList Calc KernelModel KernelSpec KernelProofs FieldModel FieldSpec FieldProofs FieldDerivProofs
  NeighborModel SurfJacModel HessModel.
Import ListNotations.
Local Open Scope R_scope.

Ltac real_eq := match goal with |- @eq _ ?a ?b => change (@eq R a b) end.
(** ** Derivatives of vectors along a displacement *)
(** Radial field [h(|d|) d] along [x]. *)
Lemma radial_derive (h : R -> R) h' f e x : moves f e -> f 0 <> v3_0 -> is_derive h (v3_norm (f 0)) h' ->
  is_derive (fun s => h (v3_norm (f s)) * v3_dot (f s) x) 0
    (h' * (v3_dot (f 0) e / v3_norm (f 0)) * v3_dot (f 0) x + h (v3_norm (f 0)) * v3_dot e x).
Proof.
  intros M N D. pose proof (moves_norm f e M N) as DN. pose proof (moves_dot f (fun _ => x) e v3_0 M (moves_const x)) as DD.
  evar_last.
  - apply (is_derive_mult (fun s => h (v3_norm (f s))) (fun s => v3_dot (f s) x)); [apply (is_derive_comp h (fun s => v3_norm (f s))); [exact D|exact DN]|exact DD|intros; apply Rmult_comm].
  - cbv beta. rewrite (dot_comm (f 0) v3_0), dot_0_l. cbv [plus mult scal]; cbn. cbv [mult]; cbn. ring.
Qed.
(** Second derivative of a radial weight: slope [a] and curvature [b] at the displacement [d]. *)
Definition curve (a b : R) (d x u : v3) : R :=
  let n := v3_norm d in a / n * (v3_dot x u - v3_dot d x * v3_dot d u / (n * n)) + b * (v3_dot d x * v3_dot d u / (n * n)).
Lemma wgrad_derive k f e x : valid_kernel k -> moves f e -> f 0 <> v3_0 -> regular_distance k (v3_norm (f 0)) ->
  is_derive (fun s => v3_dot (wgrad k (f s)) x) 0 (curve (k_df k (v3_norm (f 0))) (k_ddf k (v3_norm (f 0))) (f 0) x e).
Proof.
  intros V M N R. pose proof (v3_norm_pos _ N) as Q. destruct (kernel_derivatives k _ V R) as [_ KD].
  apply is_derive_ext with (fun s => k_df k (v3_norm (f s)) / v3_norm (f s) * v3_dot (f s) x).
  { intros s. unfold wgrad. rewrite dot_scale_l. reflexivity. }
  evar_last.
  - apply (radial_derive (fun r => k_df k r / r) ((k_ddf k (v3_norm (f 0)) * v3_norm (f 0) - k_df k (v3_norm (f 0)) * 1) / v3_norm (f 0) ^ 2)); [exact M|exact N|].
    apply is_derive_div; [exact KD|apply @is_derive_id|lra].
  - unfold curve. rewrite (dot_comm x e). cbv beta zeta. field. lra.
Qed.
Definition bcurve (k : kernel) (weighted : bool) (d x u : v3) : R :=
  match k_radius k with
  | None => 0
  | Some r => if Rlt_dec r (v3_norm d) then 0 else if negb weighted then 0 else curve (- k_df k (r - v3_norm d)) (k_ddf k (r - v3_norm d)) d x u
  end.
Lemma bgw_grad_derive k weighted f e x : valid_kernel k -> moves f e -> f 0 <> v3_0 ->
  (match k_radius k with None => True | Some r => v3_norm (f 0) <> r end) ->
  (weighted = true -> match k with Interpolating _ _ => False | _ => True end) ->
  is_derive (fun s => v3_dot (bgw_grad k weighted (v3_norm (f s)) (f s)) x) 0 (bcurve k weighted (f 0) x e).
Proof.
  intros V M N R WI. pose proof (moves_norm f e M N) as D. pose proof (v3_norm_pos _ N) as P.
  unfold bgw_grad, bcurve. destruct (k_radius k) as [r|] eqn:E.
  2: { apply is_derive_ext with (fun _ => 0); [intros s; rewrite dot_0_l; reflexivity|apply @is_derive_const]. }
  destruct (Rlt_dec r (v3_norm (f 0))) as [L|L].
  - apply is_derive_ext_loc with (fun _ => 0); [|apply @is_derive_const].
    eapply filter_imp; [|apply (locally_lt (fun _ => r) (fun s => v3_norm (f s)) 0 _ (@is_derive_const _ _ r 0) D L)].
    intros s Hs. cbv beta in Hs. destruct (Rlt_dec r (v3_norm (f s))); [rewrite dot_0_l; reflexivity|contradiction].
  - assert (L' : v3_norm (f 0) < r) by lra.
    assert (LOC : locally 0 (fun s => v3_norm (f s) < r)) by (apply (locally_lt (fun s => v3_norm (f s)) (fun _ => r) _ 0 D (@is_derive_const _ _ r 0) L')).
    destruct weighted; cbn [negb].
    + apply is_derive_ext_loc with (fun s => - k_df k (r - v3_norm (f s)) / v3_norm (f s) * v3_dot (f s) x).
      { eapply filter_imp; [|exact LOC]. intros s Hs. cbv beta in Hs. destruct (Rlt_dec r (v3_norm (f s))); [lra|]. real_eq. rewrite dot_scale_l, dot_neg_l. unfold Rdiv. ring. }
      assert (RG : regular_distance k (r - v3_norm (f 0))).
      { destruct k as [e0|r'|r' c|r' t|r' e0]; simpl in *; inversion E; subst; lra. }
      destruct (kernel_derivatives k _ V RG) as [_ KD].
      evar_last.
      * apply (radial_derive (fun n => - k_df k (r - n) / n) ((k_ddf k (r - v3_norm (f 0)) * v3_norm (f 0) - - k_df k (r - v3_norm (f 0)) * 1) / v3_norm (f 0) ^ 2)); [exact M|exact N|].
        apply (is_derive_div (fun n => - k_df k (r - n)) (fun n => n)); [|apply @is_derive_id|lra].
        evar_last.
        { apply @is_derive_opp. apply (is_derive_comp (k_df k) (fun n => r - n)); [exact KD|]. apply @is_derive_minus; [apply @is_derive_const|apply @is_derive_id]. }
        cbv [opp minus plus zero one scal mult]; cbn. cbv [mult]; cbn. ring.
      * unfold curve. rewrite (dot_comm x e). cbv beta zeta. field. lra.
    + apply is_derive_ext_loc with (fun _ => 0); [|apply @is_derive_const].
      eapply filter_imp; [|exact LOC]. intros s Hs. cbv beta in Hs. destruct (Rlt_dec r (v3_norm (f s))); [lra|]. rewrite dot_0_l. reflexivity.
Qed.
Definition fcurve (P : bg_params) (side : R) (d x u : v3) : R :=
  match p_type P with FDistance => curve (signum side) 0 d x u | _ => 0 end.
Lemma side_near f n e dn : moves f e -> moves n dn -> v3_dot (n 0) (f 0) <> 0 ->
  locally 0 (fun s => v3_dot (n s) (f s) <> 0 /\ signum (v3_dot (n s) (f s)) = signum (v3_dot (n 0) (f 0))).
Proof.
  intros M MN HS. pose proof (moves_dot n f dn e MN M) as DS.
  destruct (Rlt_le_dec (v3_dot (n 0) (f 0)) 0) as [L|L].
  - eapply filter_imp; [|apply (locally_lt (fun s => v3_dot (n s) (f s)) (fun _ => 0) _ 0 DS (@is_derive_const _ _ 0 0) L)].
    intros s Hs. cbv beta in Hs. rewrite !signum_neg; auto. split; [lra|reflexivity].
  - assert (L' : 0 < v3_dot (n 0) (f 0)) by lra.
    eapply filter_imp; [|apply (locally_lt (fun _ => 0) (fun s => v3_dot (n s) (f s)) 0 _ (@is_derive_const _ _ 0 0) DS L')].
    intros s Hs. cbv beta in Hs. rewrite !signum_pos; auto. split; [lra|reflexivity].
Qed.
Lemma fgrad_derive P f n e dn x : moves f e -> moves n dn -> f 0 <> v3_0 -> (p_type P = FDistance -> v3_dot (n 0) (f 0) <> 0) ->
  is_derive (fun s => v3_dot (fgrad P (v3_norm (f s)) (v3_dot (n s) (f s)) (f s)) x) 0 (fcurve P (v3_dot (n 0) (f 0)) (f 0) x e).
Proof.
  intros M MN N HS. pose proof (v3_norm_pos _ N) as Q. unfold fgrad, fcurve.
  destruct (p_type P); try (apply is_derive_ext with (fun _ => 0); [intros s; rewrite dot_0_l; reflexivity|apply @is_derive_const]).
  specialize (HS eq_refl). set (o := signum (v3_dot (n 0) (f 0))) in *.
  apply is_derive_ext_loc with (fun s => o / v3_norm (f s) * v3_dot (f s) x).
  { eapply filter_imp; [|exact (side_near f n e dn M MN HS)]. intros s [_ Hs]. rewrite Hs, dot_scale_l. reflexivity. }
  evar_last.
  - apply (radial_derive (fun r => o / r) ((0 * v3_norm (f 0) - o * 1) / v3_norm (f 0) ^ 2)); [exact M|exact N|].
    apply is_derive_div; [apply @is_derive_const|apply @is_derive_id|lra].
  - unfold curve. rewrite (dot_comm x e). cbv beta zeta. field. lra.
Qed.
Lemma unit_derive n dn x : moves n dn -> n 0 <> v3_0 -> is_derive (fun s => v3_dot (unit_of (n s)) x) 0 (nrate (n 0) dn x).
Proof.
  intros M N. pose proof (v3_norm_pos _ N) as Q.
  assert (L : locally 0 (fun s => 0 < v3_norm (n s))) by (apply (locally_lt (fun _ => 0) _ 0 _ (@is_derive_const _ _ 0 0) (moves_norm n dn M N)); exact Q).
  apply is_derive_ext_loc with (fun s => 0 + v3_dot (n s) x / v3_norm (n s)).
  { eapply filter_imp; [|exact L]. intros s Hs. cbv beta in Hs. unfold unit_of. rewrite dot_scale_l. real_eq. field. lra. }
  evar_last; [apply (plane_derive 0 (fun _ => x) n v3_0 dn); [apply moves_const|exact M|exact N]|]. rewrite (dot_comm _ v3_0), dot_0_l. ring.
Qed.

(** ** The gradient as a quotient *)
Section Second.
Variables (k k0 : kernel) (P : bg_params) (v : R) (view : list nat) (c : nat).
Variables (d n : R -> nat -> v3) (val : nat -> R) (e dn : nat -> v3) (x : v3).
Hypothesis Vk : valid_kernel k.
Hypothesis Vk0 : valid_kernel k0.
Hypothesis Ek : k_radius k0 = k_radius k.
Hypothesis Md : forall i, In i view -> moves (fun s => d s i) (e i).
Hypothesis Mn : forall i, In i view -> moves (fun s => n s i) (dn i).
Hypothesis Hc : In c view.
Hypothesis Hreg : forall i, In i view -> d 0 i <> v3_0 /\ n 0 i <> v3_0 /\ regular_distance k0 (v3_norm (d 0 i)).
Hypothesis Hside : p_type P = FDistance -> v3_dot (n 0 c) (d 0 c) <> 0.
Hypothesis Hwi : p_weighted P = true -> match k with Interpolating _ _ => False | _ => True end.

Definition q_w (s : R) (i : nat) : R := k_f k0 (v3_norm (d s i)).
Definition q_g (s : R) (i : nat) : R := v3_dot (wgrad k0 (d s i)) x.
Definition q_m (s : R) (i : nat) : R := v3_dot (unit_of (n s i)) x.
Definition q_psi (s : R) (i : nat) : R := val i + v3_dot (n s i) (d s i) / v3_norm (n s i).
Definition q_bw (s : R) : R := bgw k (p_weighted P) (v3_norm (d s c)).
Definition q_beta (s : R) : R := v3_dot (bgw_grad k (p_weighted P) (v3_norm (d s c)) (d s c)) x.
Definition q_gam (s : R) : R := v3_dot (fgrad P (v3_norm (d s c)) (v3_dot (n s c) (d s c)) (d s c)) x.
Definition q_fv (s : R) : R := fval P v (v3_norm (d s c)) (v3_dot (n s c) (d s c)).
Definition q_W (s : R) : R := rsum (map (q_w s) view) + q_bw s.
Definition q_G (s : R) : R := (q_fv s * q_bw s + rsum (map (fun i => q_w s i * q_psi s i) view)) * (1 / q_W s).
(** Component of the gradient along [x]. *)
Definition q_J (s : R) : R :=
  1 / q_W s * (rsum (map (fun i => (q_psi s i - q_G s) * q_g s i + q_w s i * q_m s i) view) + q_bw s * q_gam s + (q_fv s - q_G s) * q_beta s).

Lemma q_J_coef s : q_J s = rsum (map (fun i => v3_dot (coef k k0 P v view c (fun _ => d s) (fun _ => n s) val i) x) view)
  + v3_dot (coef_near k k0 P v view c (fun _ => d s) (fun _ => n s) val) x.
Proof.
  unfold q_J. rewrite !Rmult_plus_distr_l, <- rsum_scale, Rplus_assoc. f_equal.
  - apply rsum_ext. intros i _. unfold coef. rewrite dot_scale_l, dot_add_l, !dot_scale_l.
    unfold q_G, q_W, q_w, q_psi, q_g, q_m, q_bw, q_fv. ring.
  - unfold coef_near. rewrite dot_scale_l, dot_add_l, !dot_scale_l. unfold q_G, q_W, q_w, q_psi, q_g, q_m, q_bw, q_fv, q_gam, q_beta. ring.
Qed.

(** Rates. *)
Definition r_w (i : nat) : R := v3_dot (wgrad k0 (d 0 i)) (e i).
Definition r_psi (i : nat) : R := v3_dot (unit_of (n 0 i)) (e i) + nrate (n 0 i) (dn i) (d 0 i).
Definition r_g (i : nat) : R := curve (k_df k0 (v3_norm (d 0 i))) (k_ddf k0 (v3_norm (d 0 i))) (d 0 i) x (e i).
Definition r_m (i : nat) : R := nrate (n 0 i) (dn i) x.
Definition r_bw : R := v3_dot (bgw_grad k (p_weighted P) (v3_norm (d 0 c)) (d 0 c)) (e c).
Definition r_fv : R := v3_dot (fgrad P (v3_norm (d 0 c)) (v3_dot (n 0 c) (d 0 c)) (d 0 c)) (e c).
Definition r_beta : R := bcurve k (p_weighted P) (d 0 c) x (e c).
Definition r_gam : R := fcurve P (v3_dot (n 0 c) (d 0 c)) (d 0 c) x (e c).
Definition r_W : R := rsum (map r_w view) + r_bw.
Definition r_G : R := 1 / q_W 0 * (rsum (map (fun i => r_w i * q_psi 0 i + q_w 0 i * r_psi i) view) + (r_fv * q_bw 0 + q_fv 0 * r_bw) - q_G 0 * r_W).
Definition r_J : R :=
  1 / q_W 0 * (rsum (map (fun i => (r_psi i - r_G) * q_g 0 i + (q_psi 0 i - q_G 0) * r_g i + (r_w i * q_m 0 i + q_w 0 i * r_m i)) view)
    + (r_bw * q_gam 0 + q_bw 0 * r_gam) + ((r_fv - r_G) * q_beta 0 + (q_fv 0 - q_G 0) * r_beta) - r_W * q_J 0).

Lemma q_W_pos : 0 < q_W 0.
Proof. exact (W_pos k k0 P view c d n Vk Vk0 Ek Hc Hreg). Qed.
Lemma q_J_derive : is_derive q_J 0 r_J.
Proof.
  pose proof q_W_pos as WP. destruct (Hreg c Hc) as (NC & _ & RC).
  assert (RR : match k_radius k with None => True | Some r => v3_norm (d 0 c) <> r end).
  { destruct (k_radius k) as [r|] eqn:E; [|exact Logic.I]. apply (regular_radius k0 _ r RC). rewrite Ek. first [exact E|reflexivity]. }
  assert (DB : is_derive q_bw 0 r_bw) by exact (bgw_derive k (p_weighted P) (fun s => d s c) (e c) Vk (Md c Hc) NC RR Hwi).
  assert (DF : is_derive q_fv 0 r_fv) by exact (fval_derive P v (fun s => d s c) (fun s => n s c) (e c) (dn c) (Md c Hc) (Mn c Hc) NC Hside).
  assert (DBE : is_derive q_beta 0 r_beta) by exact (bgw_grad_derive k (p_weighted P) (fun s => d s c) (e c) x Vk (Md c Hc) NC RR Hwi).
  assert (DGA : is_derive q_gam 0 r_gam) by exact (fgrad_derive P (fun s => d s c) (fun s => n s c) (e c) (dn c) x (Md c Hc) (Mn c Hc) NC Hside).
  assert (Dw : forall i, In i view -> is_derive (fun s => q_w s i) 0 (r_w i)).
  { intros i Hi. destruct (Hreg i Hi) as (A & B & C). exact (weight_derive k0 (fun s => d s i) (e i) Vk0 (Md i Hi) A C). }
  assert (Dg : forall i, In i view -> is_derive (fun s => q_g s i) 0 (r_g i)).
  { intros i Hi. destruct (Hreg i Hi) as (A & B & C). exact (wgrad_derive k0 (fun s => d s i) (e i) x Vk0 (Md i Hi) A C). }
  assert (Dp : forall i, In i view -> is_derive (fun s => q_psi s i) 0 (r_psi i)).
  { intros i Hi. destruct (Hreg i Hi) as (A & B & C). exact (plane_derive (val i) (fun s => d s i) (fun s => n s i) (e i) (dn i) (Md i Hi) (Mn i Hi) B). }
  assert (Dm : forall i, In i view -> is_derive (fun s => q_m s i) 0 (r_m i)).
  { intros i Hi. destruct (Hreg i Hi) as (A & B & C). exact (unit_derive (fun s => n s i) (dn i) x (Mn i Hi) B). }
  assert (DW : is_derive q_W 0 r_W).
  { apply (@is_derive_plus R_AbsRing R_NormedModule (fun s => rsum (map (q_w s) view)) q_bw); [|exact DB]. apply (derive_rsum (fun i s => q_w s i)). exact Dw. }
  assert (mult_derive : forall (a b : R -> R) (da db : R), is_derive a 0 da -> is_derive b 0 db -> is_derive (fun s => a s * b s) 0 (da * b 0 + a 0 * db)).
  { intros a b da db A B. evar_last; [apply @is_derive_mult; [exact A|exact B|intros; apply Rmult_comm]|reflexivity]. }
  assert (DI : is_derive (fun s => 1 / q_W s) 0 (- r_W * (1 / q_W 0) * (1 / q_W 0))).
  { evar_last; [apply is_derive_div; [apply @is_derive_const|exact DW|lra]|]. cbv [zero]; cbn. field. lra. }
  assert (DS4 : is_derive (fun s => rsum (map (fun i => q_w s i * q_psi s i) view)) 0 (rsum (map (fun i => r_w i * q_psi 0 i + q_w 0 i * r_psi i) view))).
  { apply (derive_rsum (fun i s => q_w s i * q_psi s i)). intros i Hi. apply mult_derive; auto. }
  assert (DG : is_derive q_G 0 r_G).
  { unfold q_G. evar_last.
    - apply mult_derive; [|exact DI]. apply @is_derive_plus; [apply mult_derive; [exact DF|exact DB]|exact DS4]. 
    - cbv [plus]; cbn. unfold r_G, q_G. ring. }
  unfold q_J. evar_last.
  - apply mult_derive; [exact DI|].
    apply @is_derive_plus; [apply @is_derive_plus|].
    + apply (derive_rsum (fun i s => (q_psi s i - q_G s) * q_g s i + q_w s i * q_m s i)). intros i Hi.
      apply @is_derive_plus; [apply mult_derive; [|apply Dg; exact Hi]|apply mult_derive; [apply Dw; exact Hi|apply Dm; exact Hi]].
      apply @is_derive_minus; [apply Dp; exact Hi|exact DG].
    + apply mult_derive; [exact DB|exact DGA].
    + apply mult_derive; [|exact DBE]. apply @is_derive_minus; [exact DF|exact DG].
  - cbv [plus minus opp]; cbn. unfold r_J, q_J.
    assert (E : rsum (map (fun i => (r_psi i + - r_G) * q_g 0 i + (q_psi 0 i - q_G 0) * r_g i + (r_w i * q_m 0 i + q_w 0 i * r_m i)) view)
      = rsum (map (fun i => (r_psi i - r_G) * q_g 0 i + (q_psi 0 i - q_G 0) * r_g i + (r_w i * q_m 0 i + q_w 0 i * r_m i)) view)) by reflexivity.
    rewrite E. ring.
Qed.
End Second.

(** ** Bilinear forms of the matrices of the code *)
Definition bil (A : m3) (x u : v3) : R := v3_dot x (m3_mulv A u).
Ltac bil_solve := cbv [bil v3_dot m3_mulv m3_add m3_sub m3_scale m3_0 m3_I m3_neg m3_diag m3_transpose outer sym_outer v3_add v3_sub v3_scale v3_neg v3_0 r0 r1 r2 vx vy vz]; ring.
Lemma bil_add A B x u : bil (m3_add A B) x u = bil A x u + bil B x u.
Proof. destruct A as [[a1 a2 a3] [a4 a5 a6] [a7 a8 a9]], B as [[b1 b2 b3] [b4 b5 b6] [b7 b8 b9]], x as [x1 x2 x3], u as [u1 u2 u3]. bil_solve. Qed.
Lemma bil_sub A B x u : bil (m3_sub A B) x u = bil A x u - bil B x u.
Proof. destruct A as [[a1 a2 a3] [a4 a5 a6] [a7 a8 a9]], B as [[b1 b2 b3] [b4 b5 b6] [b7 b8 b9]], x as [x1 x2 x3], u as [u1 u2 u3]. bil_solve. Qed.
Lemma bil_scale s A x u : bil (m3_scale s A) x u = s * bil A x u.
Proof. destruct A as [[a1 a2 a3] [a4 a5 a6] [a7 a8 a9]], x as [x1 x2 x3], u as [u1 u2 u3]. bil_solve. Qed.
Lemma bil_neg A x u : bil (m3_neg A) x u = - bil A x u.
Proof. unfold m3_neg. rewrite bil_scale. ring. Qed.
Lemma bil_0 x u : bil m3_0 x u = 0.
Proof. destruct x as [x1 x2 x3], u as [u1 u2 u3]. bil_solve. Qed.
Lemma bil_I x u : bil m3_I x u = v3_dot x u.
Proof. destruct x as [x1 x2 x3], u as [u1 u2 u3]. bil_solve. Qed.
Lemma bil_outer a b x u : bil (outer a b) x u = v3_dot a x * v3_dot b u.
Proof. destruct a as [a1 a2 a3], b as [b1 b2 b3], x as [x1 x2 x3], u as [u1 u2 u3]. bil_solve. Qed.
Lemma bil_sym_outer a b x u : bil (sym_outer a b) x u = v3_dot a x * v3_dot b u + v3_dot b x * v3_dot a u.
Proof. destruct a as [a1 a2 a3], b as [b1 b2 b3], x as [x1 x2 x3], u as [u1 u2 u3]. bil_solve. Qed.
Lemma bil_transpose A x u : bil (m3_transpose A) x u = bil A u x.
Proof. destruct A as [[a1 a2 a3] [a4 a5 a6] [a7 a8 a9]], x as [x1 x2 x3], u as [u1 u2 u3]. bil_solve. Qed.
Lemma bil_msum {A} (f : A -> m3) l x u : bil (msum (map f l)) x u = rsum (map (fun a => bil (f a) x u) l).
Proof. induction l as [|a l IH]; [apply bil_0|]. cbn [map msum fold_right]. rewrite bil_add, rsum_cons. f_equal. exact IH. Qed.
Lemma bil_ext A B : (forall x u, bil A x u = bil B x u) -> A = B.
Proof.
  intros H. destruct A as [[a1 a2 a3] [a4 a5 a6] [a7 a8 a9]], B as [[b1 b2 b3] [b4 b5 b6] [b7 b8 b9]].
  assert (E : forall x u, bil (M3 (V3 a1 a2 a3) (V3 a4 a5 a6) (V3 a7 a8 a9)) x u = bil (M3 (V3 b1 b2 b3) (V3 b4 b5 b6) (V3 b7 b8 b9)) x u) by exact H.
  cbv [bil v3_dot m3_mulv r0 r1 r2 vx vy vz] in E.
  assert (F : forall x1 x2 x3 u1 u2 u3 : R, x1 * (a1 * u1 + a2 * u2 + a3 * u3) + x2 * (a4 * u1 + a5 * u2 + a6 * u3) + x3 * (a7 * u1 + a8 * u2 + a9 * u3)
    = x1 * (b1 * u1 + b2 * u2 + b3 * u3) + x2 * (b4 * u1 + b5 * u2 + b6 * u3) + x3 * (b7 * u1 + b8 * u2 + b9 * u3)).
  { intros. exact (E (V3 x1 x2 x3) (V3 u1 u2 u3)). }
  pose proof (F 1 0 0 1 0 0). pose proof (F 1 0 0 0 1 0). pose proof (F 1 0 0 0 0 1).
  pose proof (F 0 1 0 1 0 0). pose proof (F 0 1 0 0 1 0). pose proof (F 0 1 0 0 0 1).
  pose proof (F 0 0 1 1 0 0). pose proof (F 0 0 1 0 1 0). pose proof (F 0 0 1 0 0 1).
  f_equal; f_equal; lra.
Qed.
Lemma curve_sym a b d x u : curve a b d x u = curve a b d u x.
Proof. unfold curve. cbv zeta. rewrite (dot_comm x u). unfold Rdiv. ring. Qed.
Lemma bcurve_sym k w d x u : bcurve k w d x u = bcurve k w d u x.
Proof. unfold bcurve. destruct (k_radius k); [|reflexivity]. destruct (Rlt_dec _ _); [reflexivity|]. destruct (negb w); [reflexivity|apply curve_sym]. Qed.
Lemma fcurve_sym P s d x u : fcurve P s d x u = fcurve P s d u x.
Proof. unfold fcurve. destruct (p_type P); try reflexivity. apply curve_sym. Qed.
Lemma bil_k_hess k q p x u : v3_sub q p <> v3_0 ->
  bil (k_hess k q p) x u = curve (k_df k (v3_norm (v3_sub q p))) (k_ddf k (v3_norm (v3_sub q p))) (v3_sub q p) x u.
Proof.
  intros N. pose proof (v3_norm_pos _ N) as Q. unfold k_hess. set (d := v3_sub q p) in *. destruct (Rlt_dec 0 (v3_norm d)) as [_|F]; [|contradiction]. cbv zeta.
  rewrite bil_add, !bil_scale, bil_sub, bil_I, bil_outer, dot_scale_l. unfold curve. cbv zeta. field. lra.
Qed.
Lemma signum_sq x : signum x * signum x = 1.
Proof. unfold signum. destruct (Rlt_dec x 0); ring. Qed.

(** ** Independence of the scale of the interpolating kernel *)
Lemma interp_df_scale r a b y : 0 < r -> 0 < a -> 0 < b -> y <> 0 -> y <> r -> interp_df r a y = (a / b) * (a / b) * interp_df r b y.
Proof.
  intros Hr Ha Hb H0 H1. destruct (kernel_derivatives (Interpolating r a) y (conj Hr Ha) (conj H1 H0)) as [DA _]. destruct (kernel_derivatives (Interpolating r b) y (conj Hr Hb) (conj H1 H0)) as [DB _].
  cbn [k_f k_df] in DA, DB. apply (is_derive_unique _ _ _) in DA. rewrite <- DA. apply is_derive_unique.
  apply is_derive_ext_loc with (fun z => (a / b) * (a / b) * interp_f r b z).
  - assert (L : locally y (fun z => z <> 0)).
    { exists (mkposreal (Rabs y) (Rabs_pos_lt _ H0)). intros z Hz E. subst z. unfold ball in Hz; cbn in Hz. unfold AbsRing_ball, abs, minus, plus, opp in Hz; cbn in Hz. rewrite Rplus_0_l, Rabs_Ropp in Hz. lra. }
    eapply filter_imp; [|exact L]. intros z Hz. symmetry. apply interp_scale; assumption.
  - evar_last; [apply is_derive_scal; exact DB|reflexivity].
Qed.
Lemma q_J_scale k P v view c (d n : R -> nat -> v3) val x s d1 d2 : valid_kernel k -> 0 < d1 -> 0 < d2 -> In c view ->
  (forall i, In i view -> i <> c -> v3_norm (d s c) < v3_norm (d s i)) -> (forall i, In i view -> d s i <> v3_0 /\ regular_distance k (v3_norm (d s i))) ->
  (p_weighted P = true -> match k with Interpolating _ _ => False | _ => True end) ->
  q_J k (with_closest k d1) P v view c d n val x s = q_J k (with_closest k d2) P v view c d n val x s.
Proof.
  intros V D1 D2 IC NE RG WI. destruct (match k with Interpolating _ _ => true | _ => false end) eqn:KI; [|destruct k; try discriminate; reflexivity].
  destruct k as [e|r|r cc|r t|r e]; try discriminate. clear KI.
  assert (U : p_weighted P = false) by (destruct (p_weighted P); [destruct (WI eq_refl)|reflexivity]). destruct V as [Vr Vc]. cbn [with_closest].
  assert (PN : forall i, In i view -> 0 < v3_norm (d s i)) by (intros i Hi; apply v3_norm_pos, RG, Hi).
  assert (BE : q_beta (Interpolating r cc) P c d x s = 0).
  { unfold q_beta, bgw_grad. cbn [k_radius]. rewrite U. destruct (Rlt_dec _ _); apply dot_0_l. }
  set (lam := (d1 / d2) * (d1 / d2)).
  assert (LP : 0 < lam) by (unfold lam; assert (0 < d1 / d2) by (apply Rdiv_lt_0_compat; lra); nra).
  assert (HW : forall i, In i view -> q_w (Interpolating r d1) d s i = lam * q_w (Interpolating r d2) d s i).
  { intros i Hi. unfold q_w, lam. cbn [k_f]. apply interp_scale; try lra. apply Rgt_not_eq, PN, Hi. }
  assert (HG : forall i, In i view -> q_g (Interpolating r d1) d x s i = lam * q_g (Interpolating r d2) d x s i).
  { intros i Hi. unfold q_g, wgrad, lam. rewrite !dot_scale_l. cbn [k_df]. destruct (RG i Hi) as [_ RR]. cbn [regular_distance] in RR.
    rewrite (interp_df_scale r d1 d2 (v3_norm (d s i))) by tauto. unfold Rdiv. ring. }
  assert (GS : q_G (Interpolating r cc) (Interpolating r d1) P v view c d n val s = q_G (Interpolating r cc) (Interpolating r d2) P v view c d n val s /\
    forall i, In i view -> 1 / q_W (Interpolating r cc) (Interpolating r d1) P view c d s * q_w (Interpolating r d1) d s i = 1 / q_W (Interpolating r cc) (Interpolating r d2) P view c d s * q_w (Interpolating r d2) d s i /\
      1 / q_W (Interpolating r cc) (Interpolating r d1) P view c d s * q_g (Interpolating r d1) d x s i = 1 / q_W (Interpolating r cc) (Interpolating r d2) P view c d s * q_g (Interpolating r d2) d x s i).
  { assert (E4 : rsum (map (fun i => q_w (Interpolating r d1) d s i * q_psi d n val s i) view) = lam * rsum (map (fun i => q_w (Interpolating r d2) d s i * q_psi d n val s i) view)).
    { rewrite <- rsum_scale. apply rsum_ext. intros i Hi. rewrite HW by exact Hi. ring. }
    assert (EW : rsum (map (q_w (Interpolating r d1) d s) view) = lam * rsum (map (q_w (Interpolating r d2) d s) view)).
    { rewrite <- rsum_scale. apply rsum_ext. intros i Hi. apply HW, Hi. }
    destruct (Rlt_dec r (v3_norm (d s c))) as [OUT|IN_].
    - assert (FAR : forall i, In i view -> r < v3_norm (d s i)).
      { intros i Hi. eapply Rlt_le_trans; [exact OUT|]. destruct (Nat.eq_dec i c) as [->|N]; [apply Rle_refl|]. apply Rlt_le, NE; assumption. }
      assert (ZW : forall a i, In i view -> q_w (Interpolating r a) d s i = 0) by (intros a i Hi; unfold q_w; apply (kernel_support (Interpolating r a) r); [reflexivity|apply FAR, Hi]).
      assert (ZG : forall a i, In i view -> q_g (Interpolating r a) d x s i = 0).
      { intros a i Hi. unfold q_g, wgrad. rewrite dot_scale_l. rewrite (proj1 (proj2 (kernel_support (Interpolating r a) r _ eq_refl (FAR i Hi)))). unfold Rdiv. ring. }
      assert (EWW : q_W (Interpolating r cc) (Interpolating r d1) P view c d s = q_W (Interpolating r cc) (Interpolating r d2) P view c d s).
      { unfold q_W. rewrite EW. f_equal. rewrite (rsum_zero (q_w (Interpolating r d2) d s)) by (apply ZW). ring. }
      split.
      + unfold q_G. rewrite EWW. f_equal. f_equal. rewrite E4, (rsum_zero (fun i => q_w (Interpolating r d2) d s i * _)); [ring|]. intros i Hi. rewrite ZW by exact Hi. ring.
      + intros i Hi. rewrite !ZW, !ZG by exact Hi. split; ring.
    - assert (B0 : q_bw (Interpolating r cc) P c d s = 0) by (unfold q_bw, bgw; cbn [k_radius]; rewrite U; destruct (Rlt_dec _ _); [contradiction|reflexivity]).
      assert (WP : 0 < rsum (map (q_w (Interpolating r d2) d s) view)).
      { pose proof (total_weight_pos (Interpolating r cc) (Interpolating r d2) false view (fun i => v3_norm (d s i)) c (conj Vr Vc) (conj Vr D2) eq_refl IC PN) as T.
        cbn [k_radius] in T. assert (NR : v3_norm (d s c) <> r) by (apply (RG c IC)). specialize (T NR). cbv beta in T. unfold bgw in T. cbn [k_radius] in T. destruct (Rlt_dec r (v3_norm (d s c))); [contradiction|]. unfold q_w. lra. }
      assert (EWW : q_W (Interpolating r cc) (Interpolating r d1) P view c d s = lam * q_W (Interpolating r cc) (Interpolating r d2) P view c d s).
      { unfold q_W. rewrite EW, B0. ring. }
      assert (WN : q_W (Interpolating r cc) (Interpolating r d2) P view c d s <> 0) by (unfold q_W; rewrite B0; lra).
      split.
      + unfold q_G. rewrite EWW, E4, B0. field. split; [exact WN|lra].
      + intros i Hi. rewrite EWW, HW, HG by exact Hi. split; field; (split; [exact WN|lra]). }
  destruct GS as [EG EI]. unfold q_J. rewrite EG, BE, !Rmult_plus_distr_l, <- !rsum_scale. f_equal; [f_equal|].
  - apply rsum_ext. intros i Hi. destruct (EI i Hi) as [A B]. rewrite !Rmult_plus_distr_l.
    replace (1 / q_W (Interpolating r cc) (Interpolating r d1) P view c d s * (q_w (Interpolating r d1) d s i * q_m n x s i)) with ((1 / q_W (Interpolating r cc) (Interpolating r d1) P view c d s * q_w (Interpolating r d1) d s i) * q_m n x s i) by ring.
    set (K := q_psi d n val s i - _). replace (1 / q_W (Interpolating r cc) (Interpolating r d1) P view c d s * (K * q_g (Interpolating r d1) d x s i)) with (K * (1 / q_W (Interpolating r cc) (Interpolating r d1) P view c d s * q_g (Interpolating r d1) d x s i)) by ring.
    rewrite A, B. ring.
  - destruct (Rlt_dec r (v3_norm (d s c))) as [OUT|IN_].
    + assert (EWW : forall a, q_W (Interpolating r cc) (Interpolating r a) P view c d s = 0 + q_bw (Interpolating r cc) P c d s).
      { intros a. unfold q_W. f_equal. apply rsum_zero. intros i Hi. unfold q_w. apply (kernel_support (Interpolating r a) r); [reflexivity|]. eapply Rlt_le_trans; [exact OUT|]. destruct (Nat.eq_dec i c) as [->|N]; [apply Rle_refl|]. apply Rlt_le, NE; assumption. }
      rewrite !EWW. reflexivity.
    + assert (B0 : q_bw (Interpolating r cc) P c d s = 0) by (unfold q_bw, bgw; cbn [k_radius]; rewrite U; destruct (Rlt_dec _ _); [contradiction|reflexivity]). rewrite B0. ring.
  - ring.
Qed.

(** ** The gradient computed by the code along moving query points and samples *)
Lemma ne_near (f : R -> R) l a : is_derive f 0 l -> f 0 <> a -> locally 0 (fun s => f s <> a).
Proof.
  intros D N. destruct (Rdichotomy _ _ N) as [L|L].
  - eapply filter_imp; [|apply (locally_lt f (fun _ => a) l 0 D (@is_derive_const _ _ a 0) L)]. intros s H. cbv beta in H. lra.
  - eapply filter_imp; [|apply (locally_lt (fun _ => a) f 0 l (@is_derive_const _ _ a 0) D L)]. intros s H. cbv beta in H. lra.
Qed.
Lemma regular_near k (f : R -> R) l : is_derive f 0 l -> regular_distance k (f 0) -> locally 0 (fun s => regular_distance k (f s)).
Proof.
  intros D H. destruct k; cbn [regular_distance] in *; try (apply (ne_near f l); assumption).
  - apply filter_forall. intros. exact Logic.I.
  - apply filter_and; apply (ne_near f l); tauto.
Qed.
Lemma nonzero_near f l : moves f l -> f 0 <> v3_0 -> locally 0 (fun s => f s <> v3_0).
Proof.
  intros M N. eapply filter_imp; [|apply (locally_lt (fun _ => 0) _ 0 _ (@is_derive_const _ _ 0 0) (moves_norm f l M N)); apply v3_norm_pos, N].
  intros s H E. cbv beta in H. rewrite E in H. unfold v3_norm in H. replace (v3_dot v3_0 v3_0) with 0 in H by (cbv [v3_dot v3_0 vx vy vz]; ring). rewrite sqrt_0 in H. lra.
Qed.
Section Gradient.
Variables (k : kernel) (P : bg_params) (v : R) (view : list nat) (c : nat).
Variables (q : R -> v3) (S : R -> list sample) (dq : v3) (dp dn : nat -> v3).
Hypothesis Vk : valid_kernel k.
Hypothesis Mq : moves q dq.
Hypothesis MS : moving_samples S view dp dn.
Hypothesis NE : nearest (S 0) (q 0) view c.
Hypothesis RV : regular_view k (S 0) (q 0) view.
Hypothesis SB : smooth_background k P v (S 0) (q 0) c.

Let dd (s : R) (i : nat) := away (S s) (q s) i.
Let nn (s : R) (i : nat) := s_nml (smp (S s) i).
Let val (i : nat) := s_value (smp (S 0) i).
Let d0 := v3_norm (dd 0 c).
Let k0 := with_closest k d0.
Let ee (i : nat) := v3_sub dq (dp i).
Lemma no_interp : p_weighted P = true -> match k with Interpolating _ _ => False | _ => True end.
Proof. intros H. destruct SB as (_ & A & _). specialize (A H). destruct k; auto. Qed.
Lemma view_near : locally 0 (fun s => nearest (S s) (q s) view c /\ regular_view k (S s) (q s) view /\ smooth_background k P v (S s) (q s) c).
Proof.
  assert (DN : forall i, In i view -> is_derive (fun s => v3_norm (dd s i)) 0 (v3_dot (dd 0 i) (ee i) / v3_norm (dd 0 i))).
  { intros i Hi. apply (moves_norm (fun s => dd s i)); [apply (dd_moves view q S dq dp dn Mq MS i Hi)|apply RV; exact Hi]. }
  assert (IC : In c view) by apply NE.
  assert (L1 : locally 0 (fun s => forall i, In i view -> i <> c -> v3_norm (dd s c) < v3_norm (dd s i))).
  { apply locally_all. intros i Hi. destruct (Nat.eq_dec i c) as [->|N].
    - apply filter_forall. intros s H. congruence.
    - eapply filter_imp; [|apply (locally_lt _ _ _ _ (DN c IC) (DN i Hi)); apply NE; assumption]. intros s H _. exact H. }
  assert (L2 : locally 0 (fun s => regular_view k (S s) (q s) view)).
  { apply locally_all. intros i Hi. destruct (RV i Hi) as (A & B & C). apply filter_and; [|apply filter_and].
    - apply (nonzero_near (fun s => dd s i) (ee i)); [apply (dd_moves view q S dq dp dn Mq MS i Hi)|exact A].
    - apply (nonzero_near (fun s => nn s i) (dn i)); [apply (MS i Hi)|exact B].
    - apply (regular_near k (fun s => v3_norm (dd s i)) _ (DN i Hi) C). }
  assert (L3 : locally 0 (fun s => p_type P = FDistance -> v3_dot (nn s c) (dd s c) <> 0)).
  { destruct (p_type P) eqn:T; try (apply filter_forall; intros; discriminate).
    eapply filter_imp; [|apply (side_near (fun s => dd s c) (fun s => nn s c) (ee c) (dn c)); [apply (dd_moves view q S dq dp dn Mq MS c IC)|apply (MS c IC)|apply SB; exact T]]. intros s [H _] _. exact H. }
  eapply filter_imp; [|exact (filter_and _ _ L1 (filter_and _ _ L2 L3))]. intros s (A & B & C). split; [split; [exact IC|exact A]|]. split; [exact B|]. split; [exact C|]. apply SB.
Qed.
Lemma gradient_near : locally 0 (fun s => exists J, query_jacobian_at (q s) (S s) view None k P = Some J /\ forall x, v3_dot J x = q_J k k0 P v view c dd nn val x s).
Proof.
  eapply filter_imp; [|exact view_near]. intros s (A & B & (C & _ & D)). cbv beta in *.
  destruct (query_jacobian_coef k P v view c (fun _ => q s) (fun _ => S s) Vk A B C D) as (J & EJ & DJ). exists J. split; [exact EJ|]. intros x. rewrite DJ.
  assert (D0 : 0 < d0) by (apply v3_norm_pos, RV, NE). assert (D1 : 0 < v3_norm (dd s c)) by (apply v3_norm_pos, B, A).
  unfold k0. rewrite (q_J_scale k P v view c dd nn val x s d0 (v3_norm (dd s c)) Vk D0 D1 (proj1 A) (proj2 A)); [|intros i Hi; split; apply (B i Hi)|exact no_interp].
  rewrite q_J_coef. change (v3_norm (away (S s) (q s) c)) with (v3_norm (dd s c)).
  set (k1 := with_closest k (v3_norm (dd s c))).
  assert (PS : forall i, In i view -> s_value (smp (S s) i) = val i) by (intros i Hi; apply (MS i Hi)).
  assert (LPE : rsum (map (fun i => k_f k1 (v3_norm (dd s i)) * (s_value (smp (S s) i) + v3_dot (nn s i) (dd s i) / v3_norm (nn s i))) view)
    = rsum (map (fun i => k_f k1 (v3_norm (dd s i)) * (val i + v3_dot (nn s i) (dd s i) / v3_norm (nn s i))) view)).
  { apply rsum_ext. intros i Hi. rewrite PS by exact Hi. reflexivity. }
  f_equal.
  - apply rsum_ext. intros i Hi. unfold coef. cbv beta. fold (dd s). fold (nn s). 
    change (fun i0 : nat => away (S s) (q s) i0) with (dd s). change (fun i0 : nat => s_nml (smp (S s) i0)) with (nn s).
    change (away (S s) (q s) i) with (dd s i). change (away (S s) (q s) c) with (dd s c). change (s_nml (smp (S s) i)) with (nn s i). change (s_nml (smp (S s) c)) with (nn s c).
    rewrite (PS i Hi). change (fun i0 : nat => k_f k1 (v3_norm (away (S s) (q s) i0)) * (s_value (smp (S s) i0) + v3_dot (s_nml (smp (S s) i0)) (away (S s) (q s) i0) / v3_norm (s_nml (smp (S s) i0)))) with (fun i => k_f k1 (v3_norm (dd s i)) * (s_value (smp (S s) i) + v3_dot (nn s i) (dd s i) / v3_norm (nn s i))).
    rewrite LPE. reflexivity.
  - unfold coef_near. cbv beta.
    change (fun i0 : nat => k_f k1 (v3_norm (away (S s) (q s) i0)) * (s_value (smp (S s) i0) + v3_dot (s_nml (smp (S s) i0)) (away (S s) (q s) i0) / v3_norm (s_nml (smp (S s) i0)))) with (fun i => k_f k1 (v3_norm (dd s i)) * (s_value (smp (S s) i) + v3_dot (nn s i) (dd s i) / v3_norm (nn s i))).
    rewrite LPE. reflexivity.
Qed.
(** The gradient has a derivative: the rate of each component. *)
Lemma gradient_derive : forall l, (forall x, v3_dot l x = r_J k k0 P v view c dd nn val ee dn x) ->
  exists J, locally 0 (fun s => query_jacobian_at (q s) (S s) view None k P = Some (J s)) /\ moves J l.
Proof.
  intros l Hl. exists (fun s => match query_jacobian_at (q s) (S s) view None k P with Some J => J | None => v3_0 end). split.
  - eapply filter_imp; [|exact gradient_near]. intros s (J & -> & _). reflexivity.
  - assert (D : forall x, is_derive (fun s => v3_dot (match query_jacobian_at (q s) (S s) view None k P with Some J => J | None => v3_0 end) x) 0 (v3_dot l x)).
    { intros x. rewrite Hl. apply is_derive_ext_loc with (q_J k k0 P v view c dd nn val x).
      - eapply filter_imp; [|exact gradient_near]. intros s (J & -> & E). symmetry. apply E.
      - assert (D0 : 0 < d0) by (apply v3_norm_pos, RV, NE).
        apply q_J_derive; [exact Vk|apply with_closest_valid; assumption|apply with_closest_radius| | |apply NE| |apply SB|exact no_interp].
        + intros i Hi. apply (dd_moves view q S dq dp dn Mq MS i Hi).
        + intros i Hi. apply (MS i Hi).
        + intros i Hi. destruct (RV i Hi) as (A & B & C). split; [exact A|split; [exact B|]]. apply with_closest_regular. exact C. }
    assert (E : forall a : v3, v3_dot a (V3 1 0 0) = vx a /\ v3_dot a (V3 0 1 0) = vy a /\ v3_dot a (V3 0 0 1) = vz a) by (intros [a1 a2 a3]; unfold v3_dot; cbn [vx vy vz]; split; [ring|split; ring]).
    refine (conj _ (conj _ _)).
    + rewrite <- (proj1 (E l)). eapply is_derive_ext; [|apply D]. intros s. apply E.
    + rewrite <- (proj1 (proj2 (E l))). eapply is_derive_ext; [|apply D]. intros s. apply E.
    + rewrite <- (proj2 (proj2 (E l))). eapply is_derive_ext; [|apply D]. intros s. apply E.
Qed.
End Gradient.

(** ** The Hessian of the code in the query point *)
Section Code.
Variables (k : kernel) (P : bg_params) (v : R) (view : list nat) (c : nat).
Variables (q : R -> v3) (S : R -> list sample).
Hypothesis Vk : valid_kernel k.
Hypothesis NE : nearest (S 0) (q 0) view c.
Hypothesis RV : regular_view k (S 0) (q 0) view.
Hypothesis SB : smooth_background k P v (S 0) (q 0) c.
Let dd (s : R) (i : nat) := away (S s) (q s) i.
Let nn (s : R) (i : nat) := s_nml (smp (S s) i).
Let val (i : nat) := s_value (smp (S 0) i).
Let d0 := v3_norm (dd 0 c).
Let k0 := with_closest k d0.
Let b := bg_new_impl (q 0) (S 0) view (Local c) k P None.
Let W := q_W k k0 P view c dd 0.
Let w := q_w k0 dd 0.
Let psi := q_psi dd nn val 0.
Let bw := q_bw k P c dd 0.
Let fv := q_fv P v c dd nn 0.
Let g (i : nat) := wgrad k0 (dd 0 i).
Let m (i : nat) := unit_of (nn 0 i).
Let beta := bgw_grad k (p_weighted P) d0 (dd 0 c).
Let gam := fgrad P d0 (v3_dot (nn 0 c) (dd 0 c)) (dd 0 c).
Let h (i : nat) (x u : v3) := curve (k_df k0 (v3_norm (dd 0 i))) (k_ddf k0 (v3_norm (dd 0 i))) (dd 0 i) x u.
Let bh (x u : v3) := bcurve k (p_weighted P) (dd 0 c) x u.
Let fh (x u : v3) := fcurve P (v3_dot (nn 0 c) (dd 0 c)) (dd 0 c) x u.

Lemma c_wsi : weight_sum_inv b = 1 / W.
Proof. apply the_wsi; assumption. Qed.
Lemma c_W_ne : W <> 0.
Proof.
  assert (D0 : 0 < d0) by (apply v3_norm_pos, RV, NE). apply Rgt_not_eq.
  apply (q_W_pos k k0 P view c dd nn Vk (with_closest_valid k d0 Vk D0) (with_closest_radius k d0) (proj1 NE)).
  intros i Hi. destruct (RV i Hi) as (A & B & C). split; [exact A|split; [exact B|]]. apply with_closest_regular. exact C.
Qed.
Lemma c_hess i x u : In i view -> bil (s_weight_hess k d0 (q 0) (smp (S 0) i)) x u = h i x u.
Proof. intros Hi. unfold s_weight_hess. rewrite bil_k_hess; [reflexivity|]. apply (RV i Hi). Qed.
Lemma c_grad i : In i view -> s_weight_grad k d0 (q 0) (smp (S 0) i) = g i.
Proof. intros Hi. apply (the_weight_grad k view c q S RV i Hi). Qed.
Lemma c_bg_hess x u : bil (background_weight_hessian b None) x u = bh x u.
Proof.
  assert (D0 : 0 < d0) by (apply v3_norm_pos, RV, NE).
  unfold background_weight_hessian, bh, bcurve. change (b_kernel b) with k. change (b_dist b) with d0. change (b_weighted b) with (p_weighted P). change (b_disp b) with (dd 0 c). fold d0.
  destruct (k_radius k) as [r|]; [|apply bil_0]. destruct (Rlt_dec r d0); [apply bil_0|]. destruct (negb (p_weighted P)); [apply bil_0|]. cbv zeta.
  rewrite bil_sub, bil_scale, bil_sub, !bil_outer, bil_I, !dot_scale_l. unfold curve. cbv zeta. fold d0. field. lra.
Qed.
Lemma c_bg_hess_at i x u : bil (background_weight_hessian b (Some i)) x u = if Nat.eqb i c then bh x u else 0.
Proof.
  rewrite <- (c_bg_hess x u). unfold background_weight_hessian. change (b_index b) with (Local c).
  destruct (k_radius (b_kernel b)); [|rewrite bil_0; destruct (Nat.eqb i c); reflexivity]. destruct (Rlt_dec _ _); [rewrite bil_0; destruct (Nat.eqb i c); reflexivity|].
  destruct (negb (b_weighted b)); [rewrite bil_0; destruct (Nat.eqb i c); reflexivity|]. cbv zeta. destruct (Nat.eqb i c); [reflexivity|apply bil_0].
Qed.
Lemma c_field_hess x u : bil (field_hessian b) x u = fh x u.
Proof.
  assert (D0 : 0 < d0) by (apply v3_norm_pos, RV, NE).
  unfold field_hessian, fh, fcurve, b, bg_new_impl, bg_value_new. cbn [b_value b_dist b_disp]. destruct (p_type P); try apply bil_0.
  cbn. change (v3_sub (q 0) (s_pos (smp (S 0) c))) with (dd 0 c). fold d0. destruct (Req_EM_T d0 0); [lra|].
  unfold orientation. cbn [b_all b_index b_disp ci_get]. change (v3_sub (q 0) (s_pos (smp (S 0) c))) with (dd 0 c). fold (nn 0 c).
  unfold m3_diag. rewrite bil_sub, bil_scale, bil_I, bil_outer, !dot_scale_l. unfold curve. cbv zeta. fold d0.
  assert (O := signum_sq (v3_dot (nn 0 c) (dd 0 c))). set (o := signum (v3_dot (nn 0 c) (dd 0 c))) in *.
  replace (o / d0 * v3_dot (dd 0 c) x * (o / d0 * (o / d0 * v3_dot (dd 0 c) u))) with (o * o * o / (d0 * d0 * d0) * (v3_dot (dd 0 c) x * v3_dot (dd 0 c) u)) by (field; lra).
  rewrite O. field. lra.
Qed.
Lemma c_total_grad x : v3_dot (total_gradient b) x = rsum (map (fun i => v3_dot (g i) x) view) + v3_dot beta x.
Proof.
  unfold total_gradient. rewrite dot_add_l, dot_vsum. f_equal. apply rsum_ext. intros i Hi. rewrite <- c_grad by exact Hi. reflexivity.
Qed.
Lemma c_total_hess x u : bil (total_hessian b) x u = rsum (map (fun i => h i x u) view) + bh x u.
Proof.
  unfold total_hessian. rewrite bil_add, c_bg_hess, bil_msum. f_equal. apply rsum_ext. intros i Hi. rewrite <- c_hess by exact Hi. reflexivity.
Qed.
Lemma c_neighbor x : v3_dot (neighbor_weight_gradient b) x = 1 / W * (rsum (map (fun i => v3_dot (g i) x) view) + v3_dot beta x).
Proof. unfold neighbor_weight_gradient. rewrite dot_scale_l, c_wsi, <- c_total_grad. reflexivity. Qed.
Lemma c_psi i : In i view -> s_value (smp (S 0) i) + v3_dot (unit_of (s_nml (smp (S 0) i))) (v3_sub (q 0) (s_pos (smp (S 0) i))) = psi i.
Proof. intros Hi. unfold psi, q_psi. rewrite unit_dot by (apply RV; exact Hi). reflexivity. Qed.
(** Products that vanish without a weighted background. *)
Lemma c_unweighted i x u : p_weighted P = false -> In i view -> v3_dot beta x = 0 /\ bh x u = 0 /\ bw * v3_dot (g i) x = 0 /\ bw * h i x u = 0.
Proof.
  intros U Hi. split; [etransitivity; [exact (f_equal (fun z => v3_dot z x) (unweighted_grad k P c q S U))|apply dot_0_l]|]. split; [|split].
  - unfold bh, bcurve. destruct (k_radius k); [|reflexivity]. rewrite U. destruct (Rlt_dec _ _); reflexivity.
  - rewrite <- dot_scale_l. pose proof (unweighted_vanish k P view c q S NE i U Hi) as E. etransitivity; [exact (f_equal (fun z => v3_dot z x) E)|apply dot_0_l].
  - unfold bw, q_bw, bgw. rewrite U. destruct (k_radius k) as [r|] eqn:E; [|ring]. destruct (Rlt_dec r (v3_norm (dd 0 c))) as [L|L]; [|ring].
    assert (F : r < v3_norm (dd 0 i)).
    { eapply Rlt_le_trans; [exact L|]. destruct (Nat.eq_dec i c) as [->|N]; [apply Rle_refl|]. apply Rlt_le, NE; assumption. }
    assert (SU : support k0 = Some r) by (unfold k0; rewrite <- k_radius_support, with_closest_radius; exact E).
    destruct (kernel_support k0 r _ SU F) as (_ & Z1 & Z2). unfold h, curve. cbv zeta. rewrite Z1, Z2. unfold Rdiv. ring.
Qed.

Lemma sum_query (ma mb ga gb ww pp hh : nat -> R) (Da Db DD : R) l :
  rsum (map (fun i => ma i * gb i + ga i * mb i - ww i * (ma i * Db + Da * mb i) - pp i * (Da * gb i + ga i * Db) - pp i * ww i * DD + pp i * (Da * (2 * ww i * Db) + hh i)) l)
  = rsum (map (fun i => ma i * gb i) l) + rsum (map (fun i => ga i * mb i) l) - (rsum (map (fun i => ww i * ma i) l) * Db + Da * rsum (map (fun i => ww i * mb i) l))
    - (Da * rsum (map (fun i => pp i * gb i) l) + rsum (map (fun i => pp i * ga i) l) * Db) - rsum (map (fun i => ww i * pp i) l) * DD
    + 2 * rsum (map (fun i => ww i * pp i) l) * Da * Db + rsum (map (fun i => pp i * hh i) l).
Proof. induction l as [|a l IH]; cbn [map]; [change (rsum []) with 0; ring|]. rewrite !rsum_cons, IH. ring. Qed.
Lemma sum_rate (ma mb ga gb ww pp hh : nat -> R) (G G' : R) l :
  rsum (map (fun i => (mb i + 0 - G') * ga i + (pp i - G) * hh i + (gb i * ma i + ww i * 0)) l)
  = rsum (map (fun i => ma i * gb i) l) + rsum (map (fun i => ga i * mb i) l) - G' * rsum (map ga l) + rsum (map (fun i => pp i * hh i) l) - G * rsum (map hh l).
Proof. induction l as [|a l IH]; cbn [map]; [change (rsum []) with 0; ring|]. rewrite !rsum_cons, IH. ring. Qed.
Lemma sum_grad (ga ww pp ma : nat -> R) (G : R) l :
  rsum (map (fun i => (pp i - G) * ga i + ww i * ma i) l) = rsum (map (fun i => pp i * ga i) l) - G * rsum (map ga l) + rsum (map (fun i => ww i * ma i) l).
Proof. induction l as [|a l IH]; cbn [map]; [change (rsum []) with 0; ring|]. rewrite !rsum_cons, IH. ring. Qed.
Lemma sum_potential (gb ww pp mb : nat -> R) l :
  rsum (map (fun i => gb i * pp i + ww i * (mb i + 0)) l) = rsum (map (fun i => pp i * gb i) l) + rsum (map (fun i => ww i * mb i) l).
Proof. induction l as [|a l IH]; cbn [map]; [change (rsum []) with 0; ring|]. rewrite !rsum_cons, IH. ring. Qed.
Lemma nrate_0 a y : nrate a v3_0 y = 0.
Proof. unfold nrate. rewrite dot_0_l, (dot_comm a v3_0), dot_0_l. unfold Rdiv. ring. Qed.

Lemma query_hessian_rate : exists H, query_hessian_at (q 0) (S 0) view k P = Some H /\
  forall x u, bil H x u = r_J k k0 P v view c dd nn val (fun _ => u) (fun _ => v3_0) x.
Proof.
  unfold query_hessian_at. rewrite (the_background k P view c q S NE). fold b. eexists. split; [reflexivity|]. intros x u.
  rewrite bil_add, bil_scale, bil_msum, c_wsi. change (b_dist b) with d0.
  set (ma := fun i => v3_dot (m i) x). set (mb := fun i => v3_dot (m i) u). set (ga := fun i => v3_dot (g i) x). set (gb := fun i => v3_dot (g i) u).
  set (hh := fun i => h i x u).
  set (Da := 1 / W * (rsum (map ga view) + v3_dot beta x)). set (Db := 1 / W * (rsum (map gb view) + v3_dot beta u)).
  set (DD := 1 / W * (rsum (map hh view) + bh x u)).
  assert (E1 : rsum (map (fun i => bil (sample_hessian_term (q 0) (smp (S 0) i) k (neighbor_weight_gradient b) (neighbor_weight_hessian b) d0) x u) view)
    = rsum (map (fun i => ma i * gb i + ga i * mb i - w i * (ma i * Db + Da * mb i) - psi i * (Da * gb i + ga i * Db) - psi i * w i * DD + psi i * (Da * (2 * w i * Db) + hh i)) view)).
  { apply rsum_ext. intros i Hi. unfold sample_hessian_term. cbv zeta. rewrite (c_psi i Hi), (c_grad i Hi).
    rewrite bil_add, !bil_sub, !bil_scale, bil_add, !bil_sym_outer, bil_outer, !dot_scale_l, !c_neighbor, (c_hess i x u Hi).
    unfold neighbor_weight_hessian. rewrite bil_scale, c_wsi, c_total_hess.
    change (s_weight k d0 (q 0) (smp (S 0) i)) with (w i). change (unit_of (s_nml (smp (S 0) i))) with (m i).
    fold (ma i) (mb i) (ga i) (gb i) (hh i). fold ga gb hh. fold Da Db DD. ring. }
  rewrite E1, sum_query. clear E1.
  unfold r_J, r_G, r_W, r_psi, r_m, r_w, r_g, r_bw, r_fv, r_beta, r_gam.
  fold W w psi bw fv. change (q_g k0 dd x 0) with ga. change (q_m nn x 0) with ma.
  change (fun i : nat => v3_dot (wgrad k0 (dd 0 i)) u) with gb.
  fold d0. fold beta gam. change (q_gam P c dd nn x 0) with (v3_dot gam x). change (q_beta k P c dd x 0) with (v3_dot beta x).
  fold (bh x u). fold (fh x u).
  set (G := q_G k k0 P v view c dd nn val 0). 
  assert (EG : G = (fv * bw + rsum (map (fun i => w i * psi i) view)) * (1 / W)) by reflexivity.
  assert (EP : rsum (map (fun i => v3_dot (wgrad k0 (dd 0 i)) u * psi i + w i * (v3_dot (unit_of (nn 0 i)) u + nrate (nn 0 i) v3_0 (dd 0 i))) view)
    = rsum (map (fun i => psi i * gb i) view) + rsum (map (fun i => w i * mb i) view)).
  { rewrite <- sum_potential. apply rsum_ext. intros i _. rewrite nrate_0. reflexivity. }
  rewrite EP.
  set (G' := 1 / W * (rsum (map (fun i => psi i * gb i) view) + rsum (map (fun i => w i * mb i) view) + (v3_dot gam u * bw + fv * v3_dot beta u) - G * (rsum (map gb view) + v3_dot beta u))).
  assert (ER : rsum (map (fun i => (v3_dot (unit_of (nn 0 i)) u + nrate (nn 0 i) v3_0 (dd 0 i) - G') * ga i
      + (psi i - G) * curve (k_df k0 (v3_norm (dd 0 i))) (k_ddf k0 (v3_norm (dd 0 i))) (dd 0 i) x u + (v3_dot (wgrad k0 (dd 0 i)) u * ma i + w i * nrate (nn 0 i) v3_0 x)) view)
    = rsum (map (fun i => ma i * gb i) view) + rsum (map (fun i => ga i * mb i) view) - G' * rsum (map ga view) + rsum (map (fun i => psi i * hh i) view) - G * rsum (map hh view)).
  { rewrite <- (sum_rate ma mb ga gb w psi hh G G'). apply rsum_ext. intros i _. rewrite !nrate_0. reflexivity. }
  rewrite ER. clear ER EP.
  assert (EJ : q_J k k0 P v view c dd nn val x 0 = 1 / W * (rsum (map (fun i => psi i * ga i) view) - G * rsum (map ga view) + rsum (map (fun i => w i * ma i) view) + bw * v3_dot gam x + (fv - G) * v3_dot beta x)).
  { rewrite <- (sum_grad ga w psi ma G). reflexivity. }
  rewrite EJ. clear EJ.
  unfold bg_query_hessian. cbv zeta. rewrite bil_scale, c_wsi. change (background_weight b) with bw. change (b_weighted b) with (p_weighted P).
  assert (FG : field_gradient b = gam) by exact (the_field_grad k P v view c q S NE RV (proj1 SB) (proj2 (proj2 SB))). rewrite FG.
  assert (BG : background_weight_gradient b None = beta) by exact (the_bg_grad k P view c q S). rewrite BG.
  set (S1 := rsum (map (fun i => ma i * gb i) view)) in *. set (S2 := rsum (map (fun i => ga i * mb i) view)) in *. set (S3 := rsum (map (fun i => w i * ma i) view)) in *.
  set (S4 := rsum (map (fun i => w i * mb i) view)) in *. set (S5 := rsum (map (fun i => psi i * gb i) view)) in *. set (S6 := rsum (map (fun i => psi i * ga i) view)) in *.
  set (S7 := rsum (map (fun i => w i * psi i) view)) in *. set (S8 := rsum (map (fun i => psi i * hh i) view)) in *.
  destruct (Bool.bool_dec (p_weighted P) true) as [HW|HW]; [|apply Bool.not_true_is_false in HW].
  - assert (EB : bil (m3_add (m3_scale bw (field_hessian b)) (m3_sub (m3_add (m3_add (m3_sub (m3_sub (sym_outer gam beta) (m3_scale (bw * (1 / W)) (sym_outer (total_gradient b) gam))) (m3_scale (field_value b * (1 / W)) (sym_outer (total_gradient b) beta)))
          (outer (total_gradient b) (v3_scale (2 * field_value b * bw * (1 / W) * (1 / W)) (total_gradient b)))) (m3_scale (field_value b) (background_weight_hessian b None))) (m3_scale (field_value b * bw * (1 / W)) (total_hessian b)))) x u
      = bw * fh x u + (v3_dot gam x * v3_dot beta u + v3_dot beta x * v3_dot gam u
          - bw * (1 / W) * ((rsum (map ga view) + v3_dot beta x) * v3_dot gam u + v3_dot gam x * (rsum (map gb view) + v3_dot beta u))
          - fv * (1 / W) * ((rsum (map ga view) + v3_dot beta x) * v3_dot beta u + v3_dot beta x * (rsum (map gb view) + v3_dot beta u))
          + (rsum (map ga view) + v3_dot beta x) * (2 * fv * bw * (1 / W) * (1 / W) * (rsum (map gb view) + v3_dot beta u)) + fv * bh x u - fv * bw * (1 / W) * (rsum (map hh view) + bh x u))).
    { assert (FV : field_value b = fv) by exact (the_field_value k P v view c q S (proj1 SB) (proj2 (proj2 SB)) HW).
      rewrite FV, bil_add, !bil_sub, !bil_add, !bil_sub, !bil_scale, !bil_sym_outer, !bil_outer, !dot_scale_l, !c_total_grad, c_total_hess, c_bg_hess, c_field_hess. reflexivity. }
    replace (if p_weighted P then _ else _) with (m3_add (m3_scale bw (field_hessian b)) (m3_sub (m3_add (m3_add (m3_sub (m3_sub (sym_outer gam beta) (m3_scale (bw * (1 / W)) (sym_outer (total_gradient b) gam))) (m3_scale (field_value b * (1 / W)) (sym_outer (total_gradient b) beta)))
          (outer (total_gradient b) (v3_scale (2 * field_value b * bw * (1 / W) * (1 / W)) (total_gradient b)))) (m3_scale (field_value b) (background_weight_hessian b None))) (m3_scale (field_value b * bw * (1 / W)) (total_hessian b)))) by (rewrite HW; reflexivity).
    rewrite EB. unfold G', DD, Da, Db. rewrite EG. ring.
  - replace (if p_weighted P then _ else _) with (m3_scale bw (field_hessian b)) by (rewrite HW; reflexivity). rewrite bil_scale, c_field_hess.
    destruct (c_unweighted c x u HW (proj1 NE)) as (Z1 & Z2 & _ & _). destruct (c_unweighted c u u HW (proj1 NE)) as (Z3 & _ & _ & _).
    assert (Za : bw * rsum (map ga view) = 0) by (rewrite <- rsum_scale; apply rsum_zero; intros i Hi; apply (c_unweighted i x u HW Hi)).
    assert (Zb : bw * rsum (map gb view) = 0) by (rewrite <- rsum_scale; apply rsum_zero; intros i Hi; apply (c_unweighted i u u HW Hi)).
    assert (Zh : bw * rsum (map hh view) = 0) by (rewrite <- rsum_scale; apply rsum_zero; intros i Hi; apply (c_unweighted i x u HW Hi)).
    unfold G', DD, Da, Db. rewrite EG, Z1, Z2, Z3. set (A := rsum (map ga view)) in *. set (B := rsum (map gb view)) in *. set (C := rsum (map hh view)) in *. set (I := 1 / W) in *.
    match goal with |- ?l = ?r => assert (D : r - l = - (v3_dot gam u * I * I) * (bw * A) - (v3_dot gam x * I * I) * (bw * B) - fv * I * I * (bw * C) + 2 * fv * I * I * I * A * (bw * B)) end.
    { ring. }
    rewrite Za, Zb, Zh in D. lra.
Qed.
End Code.
