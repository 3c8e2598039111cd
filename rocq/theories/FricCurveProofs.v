(** Proofs about assembled friction: the friction law and products of moving matrices along curves. *)
From Coq Require Import Reals List Bool Lra Lia.
From Coquelicot Require Import Coquelicot.
From Verif Require Import Vec3 Mat3 RList Calc FieldModel FieldSpec FieldProofs FieldDerivProofs SurfJacProofs BasisJacProofs ContactMapSpec ContactMapProofs ContactDerivRowProofs FrictionModel FrictionSpec FrictionProofs FricAsmSpec FricAlgProofs.
Import ListNotations.
Local Open Scope R_scope.

(** ** The friction law *)
Lemma is_derive_eq (f : R -> R) x (d e : R) : is_derive f x d -> d = e -> is_derive f x e.
Proof. intros D <-. exact D. Qed.
Definition slope (k : profile_kind) (fp : friction_params) (x : R) : R := (fp_dynamic fp + (fp_static fp - fp_dynamic fp) * falloff x (fp_stribeck fp)) * sliding_profile k x (fp_epsilon fp).
Lemma profile_slope k fp w lam : friction_profile k w lam fp = v2_scale (lam * slope k fp (v2_norm w) + fp_viscous fp) w.
Proof. unfold friction_profile, slope. cbv zeta. f_equal. ring. Qed.
Lemma mult_derive (f g : R -> R) (f' g' : R) : is_derive f 0 f' -> is_derive g 0 g' -> is_derive (fun s => f s * g s) 0 (f' * g 0 + f 0 * g').
Proof. intros F G. eapply is_derive_eq; [apply (is_derive_mult f g 0 f' g' F G); intros; apply Rmult_comm|]. unfold plus, mult; simpl. ring. Qed.
Lemma mult_rest (f g : R -> R) (g' : R) : continuous f 0 -> is_derive g 0 g' -> g 0 = 0 -> is_derive (fun s => f s * g s) 0 (f 0 * g').
Proof.
  intros C G Z. apply (is_derive_ext (fun s => f 0 * g s + (f s - f 0) * g s)); [intros s; ringR|].
  eapply is_derive_eq; [apply @is_derive_plus; [apply @is_derive_scal; exact G|]|].
  2: { instantiate (1 := 0). unfold plus; simpl. ring. }
  apply is_derive_Reals. intros eps E.
  assert (DG := proj1 (is_derive_Reals _ _ _) G). destruct (DG 1 ltac:(lra)) as [d1 D1].
  assert (P : 0 < eps / (Rabs g' + 1)) by (apply Rdiv_lt_0_compat; [exact E|pose proof (Rabs_pos g'); lra]).
  destruct (proj1 (filterlim_locally _ _) C (mkposreal _ P)) as [d2 D2].
  assert (M : 0 < Rmin d1 d2) by (apply Rmin_pos; apply cond_pos).
  exists (mkposreal _ M). intros h H L. cbn [pos] in L. assert (L1 : Rabs h < d1) by (eapply Rlt_le_trans; [exact L|apply Rmin_l]). assert (L2 : Rabs h < d2) by (eapply Rlt_le_trans; [exact L|apply Rmin_r]).
  specialize (D1 h H L1). rewrite Rplus_0_l, Z, Rminus_0_r in D1 |- *.
  assert (B : ball 0 d2 h) by (cbv [ball]; simpl; cbv [AbsRing_ball abs minus plus opp]; simpl; rewrite Ropp_0, Rplus_0_r; exact L2).
  specialize (D2 h B). cbv [ball] in D2. simpl in D2. cbv [AbsRing_ball abs minus plus opp] in D2. simpl in D2.
  match goal with |- Rabs ?e < _ => replace e with ((f h + - f 0) * (g h / h)) by (field; exact H) end. rewrite Rabs_mult.
  assert (Q : Rabs (g h / h) < Rabs g' + 1).
  { replace (g h / h) with ((g h / h - g') + g') by ring. eapply Rle_lt_trans; [apply Rabs_triang|]. lra. }
  pose proof (Rabs_pos (g h / h)). pose proof (Rabs_pos (f h + - f 0)).
  assert (X : eps = eps / (Rabs g' + 1) * (Rabs g' + 1)) by (field; pose proof (Rabs_pos g'); lra). rewrite X.
  apply Rle_lt_trans with (Rabs (f h + - f 0) * (Rabs g' + 1)); [apply Rmult_le_compat_l; lra|]. apply Rmult_lt_compat_r; [pose proof (Rabs_pos g'); lra|exact D2].
Qed.
Lemma norm2_derive w dw : moves2 w dw -> w 0 <> V2 0 0 -> is_derive (fun s => v2_norm (w s)) 0 (v2_dot (w 0) dw / v2_norm (w 0)).
Proof.
  intros [X Y] N. pose proof (v2_norm_pos _ N) as P. unfold v2_norm at 1. unfold v2_dot at 1.
  assert (D : is_derive (fun s => v2x (w s) * v2x (w s) + v2y (w s) * v2y (w s)) 0 (2 * v2_dot (w 0) dw)).
  { eapply is_derive_eq; [apply @is_derive_plus; [exact (mult_derive _ _ _ _ X X)|exact (mult_derive _ _ _ _ Y Y)]|]. unfold plus, v2_dot; simpl. ring. }
  eapply is_derive_eq; [apply (is_derive_sqrt (fun s => v2x (w s) * v2x (w s) + v2y (w s) * v2y (w s)) 0 _ D)|].
  - unfold v2_norm, v2_dot in P. apply Rnot_le_lt. intros L. rewrite sqrt_neg_0 in P by exact L. lra.
  - unfold v2_norm. change (v2x (w 0) * v2x (w 0) + v2y (w 0) * v2y (w 0)) with (v2_dot (w 0) (w 0)). field. unfold v2_norm in P. lra.
Qed.
Lemma norm2_continuous w dw : moves2 w dw -> w 0 = V2 0 0 -> continuous (fun s => v2_norm (w s)) 0.
Proof.
  intros [X Y] _. unfold v2_norm, v2_dot. apply (continuous_comp (fun s => v2x (w s) * v2x (w s) + v2y (w s) * v2y (w s)) sqrt); [|apply continuous_sqrt].
  assert (CX : continuous (fun s => v2x (w s)) 0) by (apply (ex_derive_continuous (fun s => v2x (w s))); exists (v2x dw); exact X).
  assert (CY : continuous (fun s => v2y (w s)) 0) by (apply (ex_derive_continuous (fun s => v2y (w s))); exists (v2y dw); exact Y).
  apply @continuous_plus; apply @continuous_mult; assumption.
Qed.
Lemma slope_derive k fp x : valid_params fp -> 0 < x -> is_derive (slope k fp) x ((fp_static fp - fp_dynamic fp) * falloff_slope x (fp_stribeck fp) * sliding_profile k x (fp_epsilon fp) + (fp_dynamic fp + (fp_static fp - fp_dynamic fp) * falloff x (fp_stribeck fp)) * sliding_profile_derivative k x (fp_epsilon fp)).
Proof.
  intros V P. pose proof (eta_g_derive k 1 (Build_friction_params (fp_dynamic fp) (fp_static fp) 0 (fp_stribeck fp) (fp_epsilon fp)) x) as D.
  assert (V' : valid_params (Build_friction_params (fp_dynamic fp) (fp_static fp) 0 (fp_stribeck fp) (fp_epsilon fp))) by (unfold valid_params in *; cbn; lra).
  specialize (D V' P). unfold eta_g, eta_dg in D. cbn [fp_dynamic fp_static fp_viscous fp_stribeck fp_epsilon] in D.
  eapply is_derive_eq; [eapply is_derive_ext; [|exact D]|]; [intros y; unfold slope; cbv beta; ringR|ring].
Qed.
Lemma slope_continuous k fp : valid_params fp -> (fp_static fp = fp_dynamic fp \/ 0 < fp_stribeck fp) -> continuous (slope k fp) 0.
Proof.
  intros V H. assert (V' := V). destruct V' as (He & Hd & Hs & Hk & Hw).
  assert (Cs : continuous (fun y => sliding_profile k y (fp_epsilon fp)) 0) by (apply (ex_derive_continuous (fun y => sliding_profile k y (fp_epsilon fp))); eexists; apply profile_derive; lra).
  destruct H as [H|H].
  - apply (continuous_ext (fun y => fp_dynamic fp * sliding_profile k y (fp_epsilon fp))); [intros y; unfold slope; rewrite H; ringR|]. apply (continuous_mult (fun _ => fp_dynamic fp) (fun y => sliding_profile k y (fp_epsilon fp))); [apply continuous_const|exact Cs].
  - unfold slope. apply (continuous_mult (fun y => fp_dynamic fp + (fp_static fp - fp_dynamic fp) * falloff y (fp_stribeck fp)) (fun y => sliding_profile k y (fp_epsilon fp))); [|exact Cs].
    apply (continuous_plus (fun _ => fp_dynamic fp) (fun y => (fp_static fp - fp_dynamic fp) * falloff y (fp_stribeck fp))); [apply continuous_const|].
    apply (continuous_mult (fun _ => fp_static fp - fp_dynamic fp) (fun y => falloff y (fp_stribeck fp))); [apply continuous_const|].
    apply (ex_derive_continuous (fun y => falloff y (fp_stribeck fp))). eexists. set (w := fp_stribeck fp) in *. assert (Hw3 : 0 < w * w * w) by (repeat apply Rmult_lt_0_compat; lra).
    eapply (is_derive_left w 0) with (g := fun y => (2 * y + w) * (y - w) * (y - w) / (w * w * w)); [exact H| |].
    + intros y Hy. unfold falloff. destruct (Rlt_dec w y); [lra|]. cbv zeta. destruct (Rlt_dec 0 (w * w * w)); [reflexivity|contradiction].
    + auto_derive; [lra|]. reflexivity.
Qed.

Lemma profile_moves k fp w dw (lam : R -> R) (dl : R) : valid_params fp -> smooth_sliding fp (w 0) -> moves2 w dw -> is_derive lam 0 dl ->
  moves2 (fun s => friction_profile k (w s) (lam s) fp) (v2_add (friction_jacobian_mul k (w 0) (lam 0) fp dw) (v2_scale (dl * slope k fp (v2_norm (w 0))) (w 0))).
Proof.
  intros V SM M DL. assert (V' := V). destruct V' as (He & Hd & Hs & Hk & Hw).
  destruct SM as [[Z H]|[N H]].
  - pose proof (slope_continuous k fp V H) as CS. pose proof (norm2_continuous w dw M Z) as CN.
    assert (N0 : v2_norm (w 0) = 0) by (rewrite Z; apply v2_norm_zero).
    assert (CG : continuous (fun s => lam s * slope k fp (v2_norm (w s)) + fp_viscous fp) 0).
    { apply @continuous_plus; [|apply continuous_const]. apply @continuous_mult; [apply (ex_derive_continuous lam); exists dl; exact DL|]. apply (continuous_comp (fun s => v2_norm (w s)) (slope k fp)); [exact CN|rewrite N0; exact CS]. }
    assert (E : friction_jacobian_mul k (w 0) (lam 0) fp dw = v2_scale (lam 0 * slope k fp (v2_norm (w 0)) + fp_viscous fp) dw).
    { unfold friction_jacobian_mul. cbv zeta. rewrite N0. destruct (Rlt_dec 0 0); [lra|]. unfold slope, v2_scale. f_equal; ring. }
    rewrite E. destruct M as [X Y]. rewrite Z in *. split.
    + apply (is_derive_ext (fun s => (lam s * slope k fp (v2_norm (w s)) + fp_viscous fp) * v2x (w s))); [intros s; rewrite profile_slope; reflexivity|].
      eapply is_derive_eq; [apply (mult_rest _ _ _ CG X); rewrite Z; reflexivity|]. rewrite Z. unfold v2_add, v2_scale. cbn [v2x v2y]. ring.
    + apply (is_derive_ext (fun s => (lam s * slope k fp (v2_norm (w s)) + fp_viscous fp) * v2y (w s))); [intros s; rewrite profile_slope; reflexivity|].
      eapply is_derive_eq; [apply (mult_rest _ _ _ CG Y); rewrite Z; reflexivity|]. rewrite Z. unfold v2_add, v2_scale. cbn [v2x v2y]. ring.
  - pose proof (v2_norm_pos _ N) as P. pose proof (norm2_derive w dw M N) as DN. pose proof (slope_derive k fp _ V P) as DS.
    set (ds := (fp_static fp - fp_dynamic fp) * falloff_slope (v2_norm (w 0)) (fp_stribeck fp) * sliding_profile k (v2_norm (w 0)) (fp_epsilon fp) + (fp_dynamic fp + (fp_static fp - fp_dynamic fp) * falloff (v2_norm (w 0)) (fp_stribeck fp)) * sliding_profile_derivative k (v2_norm (w 0)) (fp_epsilon fp)) in *.
    assert (DC : is_derive (fun s => slope k fp (v2_norm (w s))) 0 (v2_dot (w 0) dw / v2_norm (w 0) * ds)) by exact (is_derive_comp (slope k fp) (fun s => v2_norm (w s)) 0 ds (v2_dot (w 0) dw / v2_norm (w 0)) DS DN).
    assert (DG : is_derive (fun s => lam s * slope k fp (v2_norm (w s)) + fp_viscous fp) 0 (dl * slope k fp (v2_norm (w 0)) + lam 0 * (v2_dot (w 0) dw / v2_norm (w 0) * ds))).
    { eapply is_derive_eq; [apply @is_derive_plus; [exact (mult_derive _ _ _ _ DL DC)|apply @is_derive_const]|]. unfold plus, zero; simpl. ring. }
    assert (E : friction_jacobian_mul k (w 0) (lam 0) fp dw = v2_add (v2_scale (lam 0 * slope k fp (v2_norm (w 0)) + fp_viscous fp) dw) (v2_scale (lam 0 * (v2_dot (w 0) dw / v2_norm (w 0) * ds)) (w 0))).
    { rewrite jacobian_code by exact N. replace (eta_dg k (lam 0) fp (v2_norm (w 0)) (dfalloff (v2_norm (w 0)) (fp_stribeck fp))) with (lam 0 * ds).
      - unfold eta_g, slope, v2_add, v2_scale. cbn [v2x v2y]. f_equal; ring.
      - unfold eta_dg, ds. destruct H as [H|H]; [rewrite H; ring|]. rewrite (dfalloff_right _ _ P Hw H). ring. }
    rewrite E. destruct M as [X Y]. split.
    + apply (is_derive_ext (fun s => (lam s * slope k fp (v2_norm (w s)) + fp_viscous fp) * v2x (w s))); [intros s; rewrite profile_slope; reflexivity|].
      eapply is_derive_eq; [exact (mult_derive _ _ _ _ DG X)|]. unfold v2_add, v2_scale. cbn [v2x v2y]. ring.
    + apply (is_derive_ext (fun s => (lam s * slope k fp (v2_norm (w s)) + fp_viscous fp) * v2y (w s))); [intros s; rewrite profile_slope; reflexivity|].
      eapply is_derive_eq; [exact (mult_derive _ _ _ _ DG Y)|]. unfold v2_add, v2_scale. cbn [v2x v2y]. ring.
Qed.

(** ** Products of moving matrices with moving vectors *)
Definition unit3 (c : nat) : v3 := match c with O => V3 1 0 0 | 1%nat => V3 0 1 0 | _ => V3 0 0 1 end.
Definition comp3 (v : v3) (c : nat) : R := match c with O => vx v | 1%nat => vy v | _ => vz v end.
Definition spike (j c : nat) (i : nat) : v3 := if Nat.eqb i j then unit3 c else v3_0.
(** A linear function of the vectors below [N]. *)
Definition linear_below (N : nat) (T : (nat -> v3) -> v3) : Prop :=
  (forall x y, (forall j, (j < N)%nat -> x j = y j) -> T x = T y) /\ (forall x y, T (fun j => v3_add (x j) (y j)) = v3_add (T x) (T y)) /\ forall a x, T (fun j => v3_scale a (x j)) = v3_scale a (T x).
Definition expansion (N : nat) (T : (nat -> v3) -> v3) (y : nat -> v3) : v3 :=
  vsum (map (fun j => vsum (map (fun c => v3_scale (comp3 (y j) c) (T (spike j c))) [0; 1; 2]%nat)) (seq 0 N)).
Lemma linear_expansion N T y : linear_below N T -> T y = expansion N T y.
Proof.
  intros (EX & AD & SC). transitivity (T (fun j => if Nat.ltb j N then y j else v3_0)).
  { apply EX. intros j J. apply Nat.ltb_lt in J. rewrite J. reflexivity. }
  assert (T0 : T (fun _ => v3_0) = v3_0).
  { pose proof (SC 0 (fun _ => v3_0)) as Z. cbv beta in Z. rewrite !scale_0_l in Z. exact Z. }
  assert (G : forall M, (M <= N)%nat -> T (fun j => if Nat.ltb j M then y j else v3_0) = expansion M T y); [|apply G; lia].
  induction M as [|M IH]; intros L; [exact T0|]. unfold expansion. rewrite seq_S, map_app, vsum_app. change (vsum (map _ (seq 0 M))) with (expansion M T y). cbn [map Nat.add]. rewrite <- IH by lia.
  rewrite (EX _ (fun j => v3_add (if Nat.ltb j M then y j else v3_0) (v3_add (v3_scale (vx (y M)) (spike M 0 j)) (v3_add (v3_scale (vy (y M)) (spike M 1 j)) (v3_scale (vz (y M)) (spike M 2 j)))))).
  - rewrite AD, AD, AD, !SC. f_equal. rewrite !vsum_cons. change (vsum []) with v3_0. cbn [comp3]. rewrite !add_0_r. reflexivity.
  - intros j J. unfold spike, unit3. destruct (Nat.eqb_spec j M) as [->|NE].
    + destruct (Nat.ltb_spec M (Datatypes.S M)); [|lia]. destruct (Nat.ltb_spec M M); [lia|]. destruct (y M) as [a b c]. apply v3_eq; cbv [v3_add v3_scale v3_0 vx vy vz]; ring.
    + destruct (Nat.ltb_spec j (Datatypes.S M)), (Nat.ltb_spec j M); try lia; [destruct (y j) as [a b c]|]; apply v3_eq; cbv [v3_add v3_scale v3_0 vx vy vz]; ring.
Qed.
Lemma moves_unique f a b : moves f a -> moves f b -> a = b.
Proof.
  intros (A1 & A2 & A3) (B1 & B2 & B3). apply v3_eq; [rewrite <- (is_derive_unique _ _ _ A1); exact (is_derive_unique _ _ _ B1)|rewrite <- (is_derive_unique _ _ _ A2); exact (is_derive_unique _ _ _ B2)|rewrite <- (is_derive_unique _ _ _ A3); exact (is_derive_unique _ _ _ B3)].
Qed.
(** If a moving linear function moves for every fixed argument, it also does for moving arguments. *)
Lemma linear_moves N (T : R -> (nat -> v3) -> v3) (D : (nat -> v3) -> v3) (y : R -> nat -> v3) (dy : nat -> v3) :
  (forall s, linear_below N (T s)) -> (forall x, moves (fun s => T s x) (D x)) -> (forall j, (j < N)%nat -> moves (fun s => y s j) (dy j)) ->
  moves (fun s => T s (y s)) (v3_add (D (y 0)) (T 0 dy)).
Proof.
  intros LI MD MY.
  assert (MC : forall j c, (j < N)%nat -> is_derive (fun s => comp3 (y s j) c) 0 (comp3 (dy j) c)).
  { intros j c J. destruct (MY j J) as (A & B & C). destruct c as [|[|c]]; assumption. }
  set (E := fun x => vsum (map (fun j => vsum (map (fun c => v3_scale (comp3 (x j) c) (D (spike j c))) [0; 1; 2]%nat)) (seq 0 N))).
  assert (ED : forall x, D x = E x).
  { intros x. eapply moves_unique; [apply MD|]. eapply moves_ext; [intros s; symmetry; apply (linear_expansion N _ x (LI s))|]. unfold expansion, E.
    apply (moves_vsum (fun s j => vsum (map (fun c => v3_scale (comp3 (x j) c) (T s (spike j c))) [0; 1; 2]%nat))). intros j J. apply (moves_vsum (fun s c => v3_scale (comp3 (x j) c) (T s (spike j c)))). intros c _. apply moves_scale, MD. }
  eapply moves_is; [eapply moves_ext; [intros s; symmetry; apply (linear_expansion N _ (y s) (LI s))|]|].
  - unfold expansion. apply (moves_vsum (fun s j => vsum (map (fun c => v3_scale (comp3 (y s j) c) (T s (spike j c))) [0; 1; 2]%nat))
      (fun j => vsum (map (fun c => v3_add (v3_scale (comp3 (dy j) c) (T 0 (spike j c))) (v3_scale (comp3 (y 0 j) c) (D (spike j c)))) [0; 1; 2]%nat))).
    intros j J. apply in_seq in J. apply (moves_vsum (fun s c => v3_scale (comp3 (y s j) c) (T s (spike j c)))). intros c _. apply (moves_times (fun s => comp3 (y s j) c) (fun s => T s (spike j c))); [apply MC; lia|apply MD].
  - rewrite ED, (linear_expansion N (T 0) dy (LI 0)). unfold E, expansion. rewrite <- vsum_plus. apply vsum_ext. intros j _. rewrite <- vsum_plus. apply vsum_ext. intros c _. generalize (v3_scale (comp3 (dy j) c) (T 0 (spike j c))) (v3_scale (comp3 (y 0 j) c) (D (spike j c))). intros p q. apply v3_eq; unv; ring.
Qed.
