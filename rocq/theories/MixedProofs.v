(** Proofs about mixed second derivatives of functions of a displacement of all vertices: the functions that have them, with a symmetric
    bilinear second derivative, are closed under sums, products and smooth functions; the potential is among them. *)
From Coq Require Import Reals List Bool Lra Lia Psatz FunctionalExtensionality.
From Coquelicot Require Import Coquelicot.
From Verif Require Import Vec3 Mat3 RList Calc KernelModel KernelSpec KernelProofs FieldModel FieldSpec FieldProofs FieldDerivProofs
  NeighborModel NeighborSpec UpdateProps SurfJacModel SurfJacSpec SurfJacProofs HessModel HessSpec HessProofs HessMixProofs SurfHessModel SurfHessSpec JetProofs
  SurfHessProofs.
Import ListNotations.
Local Open Scope R_scope.

Definition disp := nat -> v3.
Definition blend (a : R) (W : disp) (b : R) (U : disp) : disp := fun i => v3_add (v3_scale a (W i)) (v3_scale b (U i)).
Definition rest : disp := fun _ => v3_0.
Lemma blend_00 W U : blend 0 W 0 U = rest.
Proof. apply functional_extensionality. intros i. unfold blend, rest. apply v3_eq; unv; ring. Qed.
Definition linear_in (L : disp -> R) : Prop := forall a U b W, L (blend a U b W) = a * L U + b * L W.
Definition bilinear_in (B : disp -> disp -> R) : Prop := (forall a U b W Z, B (blend a U b W) Z = a * B U Z + b * B W Z) /\ forall U W, B U W = B W U.
Definition crossed (f : R -> R -> R) (bs bt c : R) : Prop :=
  is_derive (fun s => f s 0) 0 bs /\ exists g : R -> R, locally 0 (fun s => is_derive (f s) 0 (g s)) /\ g 0 = bt /\ is_derive g 0 c.
Definition mixed (F : disp -> R) : Prop := exists L B, linear_in L /\ bilinear_in B /\
  forall U W, crossed (fun s t => F (blend s W t U)) (L W) (L U) (B U W).
Lemma crossed_ext f f' a b c : locally 0 (fun s => locally 0 (fun t => f s t = f' s t)) -> crossed f a b c -> crossed f' a b c.
Proof.
  intros E (D & g & L & V & G). split.
  - apply (is_derive_ext_loc (fun s => f s 0)); [|exact D]. eapply filter_imp; [|exact E]. intros s Hs. exact (locally_singleton 0 _ Hs).
  - exists g. split; [|split; assumption]. eapply filter_imp; [|exact (filter_and _ _ E L)]. intros s [H1 H2]. exact (is_derive_ext_loc _ _ _ _ H1 H2).
Qed.
Lemma mixed_ext_loc F F' : (forall U W, locally 0 (fun s => locally 0 (fun t => F (blend s W t U) = F' (blend s W t U)))) -> mixed F -> mixed F'.
Proof. intros E (L & B & HL & HB & C). exists L, B. split; [exact HL|]. split; [exact HB|]. intros U W. exact (crossed_ext _ _ _ _ _ (E U W) (C U W)). Qed.
Lemma mixed_ext F F' : (forall D, F D = F' D) -> mixed F -> mixed F'.
Proof. intros E. apply mixed_ext_loc. intros U W. apply filter_forall. intros s. apply filter_forall. intros t. apply E. Qed.
Lemma mixed_affine a L : linear_in L -> mixed (fun D => a + L D).
Proof.
  intros HL. exists L, (fun _ _ => 0). split; [exact HL|]. split; [split; intros; ring|]. intros U W. split.
  - assert (E : forall s : R, a + s * L W = a + L (blend s W 0 U)) by (intros s; rewrite HL; ring). apply (is_derive_ext (fun s => a + s * L W) _ _ _ E). auto_derive; [exact Logic.I|ring].
  - exists (fun _ => L U). split; [|split; [reflexivity|apply @is_derive_const]]. apply filter_forall. intros s. assert (E : forall t : R, a + s * L W + t * L U = a + L (blend s W t U)) by (intros t; rewrite HL; ring). apply (is_derive_ext (fun t => a + s * L W + t * L U) _ _ _ E). auto_derive; [exact Logic.I|ring].
Qed.
Lemma mixed_const a : mixed (fun _ => a).
Proof. apply (mixed_ext (fun D => a + 0)); [intros; ring|]. apply (mixed_affine a (fun _ => 0)). intros x U y W. ring. Qed.
Lemma mixed_plus F F' : mixed F -> mixed F' -> mixed (fun D => F D + F' D).
Proof.
  intros (L & B & HL & [HB HS] & C) (L' & B' & HL' & [HB' HS'] & C'). exists (fun U => L U + L' U), (fun U W => B U W + B' U W).
  split; [intros a U b W; rewrite HL, HL'; ring|]. split; [split; [intros a U b W Z; rewrite HB, HB'; ring|intros U W; rewrite HS, HS'; reflexivity]|].
  intros U W. destruct (C U W) as (D & g & G & V & DG), (C' U W) as (D' & g' & G' & V' & DG'). split; [exact (@is_derive_plus _ _ _ _ _ _ _ D D')|].
  exists (fun s => g s + g' s). split; [|split; [rewrite V, V'; reflexivity|exact (@is_derive_plus _ _ _ _ _ _ _ DG DG')]].
  eapply filter_imp; [|exact (filter_and _ _ G G')]. intros s [H H']. exact (@is_derive_plus _ _ _ _ _ _ _ H H').
Qed.
Lemma mixed_mult F F' : mixed F -> mixed F' -> mixed (fun D => F D * F' D).
Proof.
  intros (L & B & HL & [HB HS] & C) (L' & B' & HL' & [HB' HS'] & C'). set (a := F rest). set (a' := F' rest).
  exists (fun U => L U * a' + a * L' U), (fun U W => B U W * a' + L U * L' W + L W * L' U + a * B' U W).
  split; [intros x U y W; rewrite HL, HL'; ring|]. split; [split; [intros x U y W Z; rewrite HB, HB', HL, HL'; ring|intros U W; rewrite (HS U W), (HS' U W); ring]|].
  intros U W. destruct (C U W) as (D & g & G & V & DG), (C' U W) as (D' & g' & G' & V' & DG'). split.
  - pose proof (real_mult_derive _ _ _ _ _ D D') as H. cbv beta in H. rewrite blend_00 in H. exact H.
  - exists (fun s => g s * F' (blend s W 0 U) + F (blend s W 0 U) * g' s). split; [|split].
    + eapply filter_imp; [|exact (filter_and _ _ G G')]. intros s [H H']. exact (real_mult_derive _ _ _ _ _ H H').
    + rewrite V, V', blend_00. reflexivity.
    + evar_last; [apply @is_derive_plus; [exact (real_mult_derive _ _ _ _ _ DG D')|exact (real_mult_derive _ _ _ _ _ D DG')]|]. cbv [plus]; cbn. rewrite V, V', blend_00. fold a a'. ring.
Qed.
Lemma mixed_scal k F : mixed F -> mixed (fun D => k * F D).
Proof. intros M. exact (mixed_mult (fun _ => k) F (mixed_const k) M). Qed.
Lemma mixed_minus F F' : mixed F -> mixed F' -> mixed (fun D => F D - F' D).
Proof. intros M M'. apply (mixed_ext (fun D => F D + -1 * F' D)); [intros; ring|]. apply mixed_plus; [exact M|apply mixed_scal; exact M']. Qed.
Lemma mixed_near F (Q : R -> Prop) : mixed F -> locally (F rest) Q -> forall U W, locally 0 (fun s => locally 0 (fun t => Q (F (blend s W t U)))).
Proof.
  intros (L & B & _ & _ & C) H U W. destruct (C U W) as (D & g & G & _). apply locally_locally in H.
  assert (C0 : continuous (fun s => F (blend s W 0 U)) 0) by (apply (@ex_derive_continuous R_AbsRing R_NormedModule); eexists; exact D).
  assert (H0 : locally 0 (fun s => locally (F (blend s W 0 U)) Q)) by (apply (C0 (fun y => locally y Q)); cbv beta; rewrite blend_00; exact H).
  eapply filter_imp; [|exact (filter_and _ _ H0 G)]. intros s [H1 H2].
  assert (C1 : continuous (fun t => F (blend s W t U)) 0) by (apply (@ex_derive_continuous R_AbsRing R_NormedModule); eexists; exact H2). exact (C1 Q H1).
Qed.
Lemma mixed_comp (h h' : R -> R) h2 F : mixed F -> locally (F rest) (fun x => is_derive h x (h' x)) -> is_derive h' (F rest) h2 -> mixed (fun D => h (F D)).
Proof.
  intros M HD H2. pose proof (mixed_near F _ M HD) as N. destruct M as (L & B & HL & [HB HS] & C). set (a := F rest) in *.
  exists (fun U => h' a * L U), (fun U W => h2 * L U * L W + h' a * B U W).
  split; [intros x U y W; rewrite HL; ring|]. split; [split; [intros x U y W Z; rewrite HB, HL; ring|intros U W; rewrite (HS U W); ring]|].
  intros U W. destruct (C U W) as (D & g & G & V & DG). specialize (N U W). assert (A0 : F (blend 0 W 0 U) = a) by (rewrite blend_00; reflexivity). split.
  - evar_last; [apply (is_derive_comp h (fun s => F (blend s W 0 U))); [|exact D]; cbv beta; rewrite A0; exact (locally_singleton _ _ HD)|]. cbv [scal mult]; cbn. cbv [mult]; cbn. ring.
  - exists (fun s => h' (F (blend s W 0 U)) * g s). split; [|split].
    + eapply filter_imp; [|exact (filter_and _ _ N G)]. intros s [H1 H3]. apply locally_singleton in H1. evar_last; [apply (is_derive_comp h (fun t => F (blend s W t U))); [exact H1|exact H3]|]. cbv [scal mult]; cbn. cbv [mult]; cbn. ring.
    + rewrite A0, V. reflexivity.
    + evar_last.
      * apply real_mult_derive; [apply (is_derive_comp h' (fun s => F (blend s W 0 U))); [cbv beta; rewrite A0; exact H2|exact D]|exact DG].
      * cbv beta. rewrite A0, V. cbv [scal mult]; cbn. cbv [mult]; cbn. ring.
Qed.
Lemma mixed_inv F : mixed F -> F rest <> 0 -> mixed (fun D => 1 / F D).
Proof.
  intros M N. apply (mixed_comp (fun x => 1 / x) (fun x => - (1 / (x * x))) (2 / (F rest * F rest * F rest))); [exact M| |].
  - eapply filter_imp; [|exact (locally_ne _ 0 N)]. intros x X. evar_last; [apply is_derive_div; [apply @is_derive_const|apply @is_derive_id|exact X]|]. cbv [zero one]; cbn. field. exact X.
  - evar_last; [apply @is_derive_opp, is_derive_div; [apply @is_derive_const|apply real_mult_derive; apply @is_derive_id|nra]|]. cbv [zero one opp]; cbn. field. exact N.
Qed.
Lemma mixed_div F F' : mixed F -> mixed F' -> F' rest <> 0 -> mixed (fun D => F D / F' D).
Proof. intros M M' N. apply (mixed_ext (fun D => F D * (1 / F' D))); [intros; unfold Rdiv; ring|]. apply mixed_mult; [exact M|apply mixed_inv; assumption]. Qed.
Lemma mixed_sqrt F : mixed F -> 0 < F rest -> mixed (fun D => sqrt (F D)).
Proof.
  intros M P. set (a := F rest) in *. pose proof (sqrt_lt_R0 a P) as Q. apply (mixed_comp sqrt (fun x => 1 / (2 * sqrt x)) (- 1 / (4 * sqrt a * sqrt a * sqrt a))); [exact M| |]; fold a.
  - assert (L : locally a (fun x => 0 < x)).
    { exists (mkposreal a P). intros y Hy. unfold ball in Hy; cbn in Hy. unfold AbsRing_ball, abs, minus, plus, opp in Hy; cbn in Hy. apply Rabs_def2 in Hy. lra. }
    eapply filter_imp; [|exact L]. intros x X. evar_last; [apply is_derive_sqrt; [apply @is_derive_id|exact X]|]. cbv [one]; cbn. field. apply Rgt_not_eq, sqrt_lt_R0, X.
  - evar_last.
    + apply is_derive_div; [apply @is_derive_const|apply is_derive_scal, is_derive_sqrt; [apply @is_derive_id|exact P]|nra].
    + cbv [zero one]; cbn. field. lra.
Qed.
Lemma mixed_rsum {A} (F : A -> disp -> R) l : (forall i, In i l -> mixed (F i)) -> mixed (fun D => rsum (map (fun i => F i D) l)).
Proof.
  induction l as [|i l IH]; intros H; cbn [map]; [apply mixed_const|].
  apply (mixed_ext (fun D => F i D + rsum (map (fun i => F i D) l))); [intros; rewrite rsum_cons; reflexivity|]. apply mixed_plus; [apply H; left; reflexivity|apply IH; intros j J; apply H; right; exact J].
Qed.

(** Vectors. *)
Definition vmixed (F : disp -> v3) : Prop := mixed (fun D => vx (F D)) /\ mixed (fun D => vy (F D)) /\ mixed (fun D => vz (F D)).
Lemma vmixed_ext F F' : (forall D, F D = F' D) -> vmixed F -> vmixed F'.
Proof. intros E (A & B & C). refine (conj _ (conj _ _)); (eapply mixed_ext; [intros D; rewrite <- E; reflexivity|assumption]). Qed.
Lemma vmixed_moves a j x : vmixed (fun D => v3_line a (D j) x).
Proof.
  refine (conj _ (conj _ _)); cbv beta; unfold v3_line, v3_add, v3_scale; cbn [vx vy vz].
  - apply (mixed_affine (vx a) (fun D => x * vx (D j))). intros y U z W. unfold blend, v3_add, v3_scale. cbn [vx]. ring.
  - apply (mixed_affine (vy a) (fun D => x * vy (D j))). intros y U z W. unfold blend, v3_add, v3_scale. cbn [vy]. ring.
  - apply (mixed_affine (vz a) (fun D => x * vz (D j))). intros y U z W. unfold blend, v3_add, v3_scale. cbn [vz]. ring.
Qed.
Lemma vmixed_sub F F' : vmixed F -> vmixed F' -> vmixed (fun D => v3_sub (F D) (F' D)).
Proof. intros (A & B & C) (A' & B' & C'). refine (conj _ (conj _ _)); cbv beta; unfold v3_sub; cbn [vx vy vz]; apply mixed_minus; assumption. Qed.
Lemma vmixed_add F F' : vmixed F -> vmixed F' -> vmixed (fun D => v3_add (F D) (F' D)).
Proof. intros (A & B & C) (A' & B' & C'). refine (conj _ (conj _ _)); cbv beta; unfold v3_add; cbn [vx vy vz]; apply mixed_plus; assumption. Qed.
Lemma vmixed_scale k F : vmixed F -> vmixed (fun D => v3_scale k (F D)).
Proof. intros (A & B & C). refine (conj _ (conj _ _)); cbv beta; unfold v3_scale; cbn [vx vy vz]; apply mixed_scal; assumption. Qed.
Lemma vmixed_cross F F' : vmixed F -> vmixed F' -> vmixed (fun D => v3_cross (F D) (F' D)).
Proof. intros (A & B & C) (A' & B' & C'). refine (conj _ (conj _ _)); cbv beta; unfold v3_cross; cbn [vx vy vz]; apply mixed_minus; apply mixed_mult; assumption. Qed.
Lemma mixed_dot F F' : vmixed F -> vmixed F' -> mixed (fun D => v3_dot (F D) (F' D)).
Proof. intros (A & B & C) (A' & B' & C'). unfold v3_dot. apply mixed_plus; [apply mixed_plus|]; apply mixed_mult; assumption. Qed.
Lemma mixed_norm F : vmixed F -> F rest <> v3_0 -> mixed (fun D => v3_norm (F D)).
Proof.
  intros M N. pose proof (v3_norm_pos _ N) as Q. assert (P : 0 < v3_dot (F rest) (F rest)) by (rewrite <- v3_norm_sq; nra). unfold v3_norm. apply mixed_sqrt; [apply mixed_dot; exact M|exact P].
Qed.
(** Velocities of a vector along the two directions. *)
Lemma mixed_first F U W : mixed F -> ex_derive (fun s => F (blend s W 0 U)) 0.
Proof. intros (L & B & _ & _ & C). destruct (C U W) as (D & _). eexists. exact D. Qed.
Lemma mixed_second F U W : mixed F -> locally 0 (fun s => ex_derive (fun t => F (blend s W t U)) 0).
Proof. intros (L & B & _ & _ & C). destruct (C U W) as (_ & g & G & _). eapply filter_imp; [|exact G]. intros s H. eexists. exact H. Qed.
Definition rate_of (f : R -> v3) : v3 := V3 (Derive (fun s => vx (f s)) 0) (Derive (fun s => vy (f s)) 0) (Derive (fun s => vz (f s)) 0).
Lemma vmixed_first F U W : vmixed F -> moves (fun s => F (blend s W 0 U)) (rate_of (fun s => F (blend s W 0 U))).
Proof. intros (A & B & C). refine (conj _ (conj _ _)); apply Derive_correct; [exact (mixed_first _ U W A)|exact (mixed_first _ U W B)|exact (mixed_first _ U W C)]. Qed.
Lemma vmixed_second F U W : vmixed F -> locally 0 (fun s => moves (fun t => F (blend s W t U)) (rate_of (fun t => F (blend s W t U)))).
Proof.
  intros (A & B & C). eapply filter_imp; [|exact (filter_and _ _ (mixed_second _ U W A) (filter_and _ _ (mixed_second _ U W B) (mixed_second _ U W C)))].
  intros s (H1 & H2 & H3). refine (conj _ (conj _ _)); apply Derive_correct; assumption.
Qed.

(** ** The potential *)
Lemma mixed_kernel k F : valid_kernel k -> mixed F -> regular_distance k (F rest) -> mixed (fun D => k_f k (F D)).
Proof.
  intros V M RD. apply (mixed_comp (k_f k) (k_df k) (k_ddf k (F rest)) F M); [|apply (kernel_derivatives k _ V RD)].
  eapply filter_imp; [|exact (regular_locally k _ RD)]. intros x X. apply (kernel_derivatives k x V X).
Qed.
Lemma locally_below (x r : R) : x < r -> locally x (fun y => y < r).
Proof. intros H. apply (open_lt r x H). Qed.
Lemma locally_above (x r : R) : r < x -> locally x (fun y => r < y).
Proof. intros H. apply (open_gt r x H). Qed.
Lemma mixed_weight k weighted F : valid_kernel k -> mixed F -> (match k_radius k with None => True | Some r => F rest <> r end) -> 0 < F rest ->
  (weighted = true -> match k with Interpolating _ _ => False | _ => True end) -> mixed (fun D => bgw k weighted (F D)).
Proof.
  intros V M RR P WI. unfold bgw. destruct (k_radius k) as [r|] eqn:E; [|apply mixed_const]. destruct (Rlt_le_dec r (F rest)) as [L|L].
  - apply (mixed_ext_loc (fun _ => 1)); [|apply mixed_const]. intros U W. eapply filter_imp; [|exact (mixed_near F _ M (locally_above _ _ L) U W)]. intros s Hs. cbv beta in Hs. eapply filter_imp; [|exact Hs]. intros t Ht. cbv beta in Ht. destruct (Rlt_dec r _); [reflexivity|contradiction].
  - assert (L' : F rest < r) by lra. pose proof (mixed_near F _ M (locally_below _ _ L')) as N. destruct weighted.
    + apply (mixed_ext_loc (fun D => k_f k (r - F D))).
      { intros U W. eapply filter_imp; [|exact (N U W)]. intros s Hs. cbv beta in Hs. eapply filter_imp; [|exact Hs]. intros t Ht. cbv beta in Ht. destruct (Rlt_dec r _); [lra|reflexivity]. }
      apply (mixed_kernel k (fun D => r - F D)); [exact V|apply mixed_minus; [apply mixed_const|exact M]|]. specialize (WI eq_refl). destruct k as [e0|r'|r' c|r' t|r' e0]; simpl in *; inversion E; subst; try contradiction; lra.
    + apply (mixed_ext_loc (fun _ => 0)); [|apply mixed_const]. intros U W. eapply filter_imp; [|exact (N U W)]. intros s Hs. cbv beta in Hs. eapply filter_imp; [|exact Hs]. intros t Ht. cbv beta in Ht. destruct (Rlt_dec r _); [lra|reflexivity].
Qed.
Lemma mixed_field P v F G : mixed F -> mixed G -> (p_type P = FDistance -> G rest <> 0) -> mixed (fun D => fval P v (F D) (G D)).
Proof.
  intros MF MG N. unfold fval. destruct (p_type P); [apply mixed_const|apply mixed_const|]. specialize (N eq_refl).
  apply (mixed_ext_loc (fun D => F D * signum (G rest))); [|apply mixed_mult; [exact MF|apply mixed_const]]. intros U W. destruct (Rlt_le_dec (G rest) 0) as [L|L].
  - eapply filter_imp; [|exact (mixed_near G _ MG (locally_below _ _ L) U W)]. intros s Hs. cbv beta in Hs. eapply filter_imp; [|exact Hs]. intros t Ht. cbv beta in Ht. rewrite !signum_neg by assumption. reflexivity.
  - assert (L' : 0 < G rest) by lra. eapply filter_imp; [|exact (mixed_near G _ MG (locally_above _ _ L') U W)]. intros s Hs. cbv beta in Hs. eapply filter_imp; [|exact Hs]. intros t Ht. cbv beta in Ht. unfold signum. destruct (Rlt_dec (G rest) 0), (Rlt_dec (G (blend s W t U)) 0); lra.
Qed.
Section MixedPotential.
Variables (k : kernel) (P : bg_params) (v : R) (view : list nat) (c : nat) (q : disp -> v3) (S : disp -> list sample) (val : nat -> R).
Hypothesis Vk : valid_kernel k.
Hypothesis MQ : vmixed q.
Hypothesis MV : forall i, In i view -> vmixed (fun D => s_pos (smp (S D) i)) /\ vmixed (fun D => s_nml (smp (S D) i)) /\ forall D, s_value (smp (S D) i) = val i.
Hypothesis NE : nearest (S rest) (q rest) view c.
Hypothesis RV : regular_view k (S rest) (q rest) view.
Hypothesis SB : smooth_background k P v (S rest) (q rest) c.
Definition sound_at (D : disp) : Prop := nearest (S D) (q D) view c /\ regular_view k (S D) (q D) view /\ smooth_background k P v (S D) (q D) c.
Lemma sound_first U W : locally 0 (fun s => sound_at (blend s W 0 U)).
Proof.
  apply (view_near k P v view c (fun s => q (blend s W 0 U)) (fun s => S (blend s W 0 U)) (rate_of (fun s => q (blend s W 0 U)))
    (fun i => rate_of (fun s => s_pos (smp (S (blend s W 0 U)) i))) (fun i => rate_of (fun s => s_nml (smp (S (blend s W 0 U)) i)))).
  - exact (vmixed_first q U W MQ).
  - intros i Hi. destruct (MV i Hi) as (A & B & C). refine (conj _ (conj _ _)); [exact (vmixed_first _ U W A)|exact (vmixed_first _ U W B)|]. intros s. rewrite !C. reflexivity.
  - cbv beta. rewrite blend_00. exact NE.
  - cbv beta. rewrite blend_00. exact RV.
  - cbv beta. rewrite blend_00. exact SB.
Qed.
Lemma sound_second U W : locally 0 (fun s => locally 0 (fun t => sound_at (blend s W t U))).
Proof.
  assert (LV : locally 0 (fun s => forall i, In i view -> moves (fun t => s_pos (smp (S (blend s W t U)) i)) (rate_of (fun t => s_pos (smp (S (blend s W t U)) i))) /\
    moves (fun t => s_nml (smp (S (blend s W t U)) i)) (rate_of (fun t => s_nml (smp (S (blend s W t U)) i))))).
  { apply FieldProofs.locally_all. intros i Hi. destruct (MV i Hi) as (A & B & _). exact (filter_and _ _ (vmixed_second _ U W A) (vmixed_second _ U W B)). }
  eapply filter_imp; [|exact (filter_and _ _ (sound_first U W) (filter_and _ _ (vmixed_second q U W MQ) LV))]. intros s ((N & G & B) & Q & M).
  apply (view_near k P v view c (fun t => q (blend s W t U)) (fun t => S (blend s W t U)) (rate_of (fun t => q (blend s W t U)))
    (fun i => rate_of (fun t => s_pos (smp (S (blend s W t U)) i))) (fun i => rate_of (fun t => s_nml (smp (S (blend s W t U)) i)))); try assumption.
  intros i Hi. destruct (M i Hi) as [M1 M2]. refine (conj M1 (conj M2 _)). intros t. rewrite !(proj2 (proj2 (MV i Hi))). reflexivity.
Qed.
Let k0 := with_closest k (v3_norm (away (S rest) (q rest) c)).
Lemma mixed_potential : mixed (fun D => potential_at (q D) (S D) view k P v).
Proof.
  assert (D0 : 0 < v3_norm (away (S rest) (q rest) c)) by (apply v3_norm_pos, RV, NE). assert (IC : In c view) by apply NE.
  assert (NI : p_weighted P = true -> match k with Interpolating _ _ => False | _ => True end) by (intros H; destruct SB as (_ & A & _); specialize (A H); destruct k; auto).
  apply (mixed_ext_loc (fun D => quotient k k0 P v view (fun i => v3_norm (away (S D) (q D) i)) (fun i => val i + v3_dot (s_nml (smp (S D) i)) (away (S D) (q D) i) / v3_norm (s_nml (smp (S D) i))) c (v3_dot (s_nml (smp (S D) c)) (away (S D) (q D) c)))).
  { intros U W. eapply filter_imp; [|exact (sound_second U W)]. intros s Hs. cbv beta in Hs. eapply filter_imp; [|exact Hs]. intros t (A & B & _). set (D := blend s W t U) in *. symmetry.
    rewrite (potential_quotient k (v3_norm (away (S rest) (q rest) c)) P v (q D) (S D) view c Vk D0 A).
    - unfold quotient. fold k0. f_equal. f_equal. apply rsum_ext. intros i Hi. f_equal. unfold plane_value. rewrite (proj2 (proj2 (MV i Hi)) D). reflexivity.
    - intros i Hi. apply v3_norm_pos, B, Hi.
    - destruct (k_radius k) as [r|] eqn:E; [|exact Logic.I]. apply (regular_radius k _ r); [apply B, A|exact E].
    - exact NI. }
  assert (MA : forall i, In i view -> vmixed (fun D => away (S D) (q D) i)) by (intros i Hi; unfold away; apply vmixed_sub; [exact MQ|apply (MV i Hi)]).
  assert (MN : forall i, In i view -> mixed (fun D => v3_norm (away (S D) (q D) i))) by (intros i Hi; apply mixed_norm; [apply MA, Hi|apply (RV i Hi)]).
  assert (RD : forall i, In i view -> regular_distance k0 (v3_norm (away (S rest) (q rest) i))) by (intros i Hi; apply with_closest_regular; apply (RV i Hi)).
  assert (VK0 : valid_kernel k0) by (apply with_closest_valid; assumption). assert (EK : k_radius k0 = k_radius k) by apply with_closest_radius.
  assert (RR : match k_radius k with None => True | Some r => v3_norm (away (S rest) (q rest) c) <> r end).
  { destruct (k_radius k) as [r|] eqn:E; [|exact Logic.I]. apply (regular_radius k _ r); [apply RV, NE|exact E]. }
  assert (MW : mixed (fun D => bgw k (p_weighted P) (v3_norm (away (S D) (q D) c)))) by (apply mixed_weight; [exact Vk|apply MN, IC|exact RR|exact D0|exact NI]).
  assert (MK : forall i, In i view -> mixed (fun D => k_f k0 (v3_norm (away (S D) (q D) i)))) by (intros i Hi; apply (mixed_kernel k0 (fun D => v3_norm (away (S D) (q D) i))); [exact VK0|apply MN, Hi|apply RD, Hi]).
  unfold quotient. apply mixed_mult; [apply mixed_plus; [apply mixed_mult; [|exact MW]|]|apply mixed_inv].
  - apply (mixed_field P v (fun D => v3_norm (away (S D) (q D) c)) (fun D => v3_dot (s_nml (smp (S D) c)) (away (S D) (q D) c))); [apply MN, IC|apply mixed_dot; [apply (MV c IC)|apply MA, IC]|]. intros T. apply (proj1 SB T).
  - apply (mixed_rsum (fun i D => k_f k0 (v3_norm (away (S D) (q D) i)) * (val i + v3_dot (s_nml (smp (S D) i)) (away (S D) (q D) i) / v3_norm (s_nml (smp (S D) i))))). intros i Hi.
    apply mixed_mult; [apply MK, Hi|]. apply mixed_plus; [apply mixed_const|]. destruct (MV i Hi) as (_ & B & _).
    apply mixed_div; [apply mixed_dot; [exact B|apply MA, Hi]|apply mixed_norm; [exact B|apply (RV i Hi)]|]. apply Rgt_not_eq, v3_norm_pos, (RV i Hi).
  - apply mixed_plus; [|exact MW]. apply (mixed_rsum (fun i D => k_f k0 (v3_norm (away (S D) (q D) i)))). exact MK.
  - cbv beta. apply Rgt_not_eq. apply (total_weight_pos k k0 (p_weighted P) view (fun i => v3_norm (away (S rest) (q rest) i)) c Vk VK0 EK IC); [intros i Hi; apply v3_norm_pos, (RV i Hi)|exact RR].
Qed.
End MixedPotential.
