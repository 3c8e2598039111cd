(** Second derivatives of functions of one variable at zero: values, slopes and curvatures together. *)
From Coq Require Import Reals List Lra.
From Coquelicot Require Import Coquelicot.
From Verif Require Import Vec3 RList FieldSpec FieldProofs SurfHessSpec HessProofs.
Import ListNotations.
Local Open Scope R_scope.

Definition jet (f : R -> R) (a b c : R) : Prop :=
  f 0 = a /\ exists g : R -> R, locally 0 (fun s => is_derive f s (g s)) /\ g 0 = b /\ is_derive g 0 c.
Lemma jet_second f a b c : jet f a b c -> second_rate f c.
Proof. intros (_ & g & L & _ & D). exists g. split; assumption. Qed.
Lemma jet_value f a b c : jet f a b c -> f 0 = a.
Proof. intros (V & _). exact V. Qed.
Lemma jet_derive f a b c : jet f a b c -> is_derive f 0 b.
Proof. intros (_ & g & L & <- & _). exact (locally_singleton 0 _ L). Qed.
Lemma jet_eq f a b c a' b' c' : jet f a b c -> a = a' -> b = b' -> c = c' -> jet f a' b' c'.
Proof. intros J -> -> ->. exact J. Qed.
Lemma jet_ext_loc f f' a b c : locally 0 (fun s => f s = f' s) -> jet f a b c -> jet f' a b c.
Proof.
  intros E (V & g & L & B & D). split; [rewrite <- (locally_singleton 0 _ E); exact V|]. exists g. split; [|split; assumption].
  apply locally_locally in E. eapply filter_imp; [|exact (filter_and _ _ E L)]. intros s [H H']. eapply is_derive_ext_loc; [exact H|exact H'].
Qed.
Lemma jet_ext f f' a b c : (forall s, f s = f' s) -> jet f a b c -> jet f' a b c.
Proof. intros E. apply jet_ext_loc, filter_forall, E. Qed.
Lemma jet_const (a : R) : jet (fun _ => a) a 0 0.
Proof. split; [reflexivity|]. exists (fun _ => 0). split; [apply filter_forall; intros s; apply @is_derive_const|]. split; [reflexivity|apply @is_derive_const]. Qed.
Lemma jet_id : jet (fun s => s) 0 1 0.
Proof. split; [reflexivity|]. exists (fun _ => 1). split; [apply filter_forall; intros s; apply @is_derive_id|]. split; [reflexivity|apply @is_derive_const]. Qed.
Lemma jet_plus f f' a b c a' b' c' : jet f a b c -> jet f' a' b' c' -> jet (fun s => f s + f' s) (a + a') (b + b') (c + c').
Proof.
  intros (V & g & L & B & D) (V' & g' & L' & B' & D'). split; [congruence|]. exists (fun s => g s + g' s). split; [|split; [congruence|apply @is_derive_plus; assumption]].
  eapply filter_imp; [|exact (filter_and _ _ L L')]. intros s [H H']. apply @is_derive_plus; assumption.
Qed.
Lemma real_mult_derive (f g : R -> R) s b b' : is_derive f s b -> is_derive g s b' -> is_derive (fun s => f s * g s) s (b * g s + f s * b').
Proof. intros A B. evar_last; [apply @is_derive_mult; [exact A|exact B|intros; apply Rmult_comm]|reflexivity]. Qed.
Lemma jet_mult f f' a b c a' b' c' : jet f a b c -> jet f' a' b' c' -> jet (fun s => f s * f' s) (a * a') (b * a' + a * b') (c * a' + 2 * b * b' + a * c').
Proof.
  intros J J'. pose proof (jet_derive _ _ _ _ J) as D1. pose proof (jet_derive _ _ _ _ J') as D1'.
  destruct J as (V & g & L & B & D), J' as (V' & g' & L' & B' & D'). split; [congruence|]. exists (fun s => g s * f' s + f s * g' s). split; [|split].
  - eapply filter_imp; [|exact (filter_and _ _ L L')]. intros s [H H']. apply real_mult_derive; assumption.
  - congruence.
  - evar_last; [apply @is_derive_plus; apply real_mult_derive; eassumption|]. cbv [plus]; cbn. rewrite V, V', B, B'. ring.
Qed.
Lemma jet_scal k f a b c : jet f a b c -> jet (fun s => k * f s) (k * a) (k * b) (k * c).
Proof. intros J. eapply jet_eq; [exact (jet_mult _ _ _ _ _ _ _ _ (jet_const k) J)| | |]; ring. Qed.
Lemma jet_opp f a b c : jet f a b c -> jet (fun s => - f s) (- a) (- b) (- c).
Proof. intros J. apply (jet_ext (fun s => -1 * f s)); [intros; ring|]. eapply jet_eq; [exact (jet_scal (-1) _ _ _ _ J)| | |]; ring. Qed.
Lemma jet_minus f f' a b c a' b' c' : jet f a b c -> jet f' a' b' c' -> jet (fun s => f s - f' s) (a - a') (b - b') (c - c').
Proof. intros J J'. exact (jet_plus _ _ _ _ _ _ _ _ J (jet_opp _ _ _ _ J')). Qed.
Lemma jet_cont f a b c (Q : R -> Prop) : jet f a b c -> locally a Q -> locally 0 (fun s => Q (f s)).
Proof.
  intros J H. pose proof (jet_derive _ _ _ _ J) as D. rewrite <- (jet_value _ _ _ _ J) in H.
  assert (C : continuous f 0) by (apply (@ex_derive_continuous R_AbsRing R_NormedModule); eexists; exact D). exact (C Q H).
Qed.
Lemma jet_comp (h h' : R -> R) h2 f a b c : jet f a b c -> locally a (fun x => is_derive h x (h' x)) -> is_derive h' a h2 ->
  jet (fun s => h (f s)) (h a) (h' a * b) (h2 * b * b + h' a * c).
Proof.
  intros J H H2. pose proof (jet_derive _ _ _ _ J) as D1. pose proof (jet_cont _ _ _ _ _ J H) as C. destruct J as (V & g & L & B & D).
  split; [rewrite V; reflexivity|]. exists (fun s => h' (f s) * g s). split; [|split].
  - eapply filter_imp; [|exact (filter_and _ _ C L)]. intros s [P Q]. evar_last; [apply (is_derive_comp h f); [exact P|exact Q]|]. cbv [scal mult]; cbn. cbv [mult]; cbn. ring.
  - rewrite V, B. reflexivity.
  - evar_last.
    + apply real_mult_derive; [apply (is_derive_comp h' f); [rewrite V; exact H2|exact D1]|exact D].
    + cbv beta. rewrite V, B. cbv [scal mult]; cbn. cbv [mult]; cbn. ring.
Qed.
Lemma locally_ne (x a : R) : x <> a -> locally x (fun y => y <> a).
Proof.
  intros N. assert (P : 0 < Rabs (x - a)) by (apply Rabs_pos_lt; lra). exists (mkposreal _ P). intros y Hy E. subst y. unfold ball in Hy; cbn in Hy. unfold AbsRing_ball, abs, minus, plus, opp in Hy; cbn in Hy.
  rewrite (Rabs_minus_sym x a) in Hy. unfold Rminus in Hy. lra.
Qed.
Lemma jet_inv f a b c : a <> 0 -> jet f a b c -> jet (fun s => 1 / f s) (1 / a) (- b / (a * a)) (2 * b * b / (a * a * a) - c / (a * a)).
Proof.
  intros N J. eapply jet_eq; [apply (jet_comp (fun x => 1 / x) (fun x => - (1 / (x * x))) (2 / (a * a * a)) f a b c J)| | |].
  - eapply filter_imp; [|exact (locally_ne a 0 N)]. intros x X. evar_last; [apply is_derive_div; [apply @is_derive_const|apply @is_derive_id|exact X]|]. cbv [zero one]; cbn. field. exact X.
  - evar_last; [apply @is_derive_opp, is_derive_div; [apply @is_derive_const|apply real_mult_derive; apply @is_derive_id|nra]|]. cbv [zero one opp]; cbn. field. exact N.
  - reflexivity.
  - field. exact N.
  - field. exact N.
Qed.
Lemma jet_div f f' a b c a' b' c' : a' <> 0 -> jet f a b c -> jet f' a' b' c' ->
  jet (fun s => f s / f' s) (a / a') (b / a' - a * b' / (a' * a')) (c / a' - 2 * b * b' / (a' * a') + a * (2 * b' * b' / (a' * a' * a') - c' / (a' * a'))).
Proof.
  intros N J J'. apply (jet_ext (fun s => f s * (1 / f' s))); [intros; unfold Rdiv; ring|]. eapply jet_eq; [exact (jet_mult _ _ _ _ _ _ _ _ J (jet_inv _ _ _ _ N J'))| | |]; field; exact N.
Qed.
Lemma jet_sqrt f a b c : 0 < a -> jet f a b c -> jet (fun s => sqrt (f s)) (sqrt a) (b / (2 * sqrt a)) (c / (2 * sqrt a) - b * b / (4 * sqrt a * sqrt a * sqrt a)).
Proof.
  intros P J. pose proof (sqrt_lt_R0 a P) as Q.
  eapply jet_eq; [apply (jet_comp sqrt (fun x => 1 / (2 * sqrt x)) (- 1 / (4 * sqrt a * sqrt a * sqrt a)) f a b c J)| | |].
  - assert (L : locally a (fun x => 0 < x)).
    { exists (mkposreal a P). intros y Hy. unfold ball in Hy; cbn in Hy. unfold AbsRing_ball, abs, minus, plus, opp in Hy; cbn in Hy. apply Rabs_def2 in Hy. lra. }
    eapply filter_imp; [|exact L]. intros x X. evar_last; [apply is_derive_sqrt; [apply @is_derive_id|exact X]|]. cbv [one]; cbn. field. apply Rgt_not_eq, sqrt_lt_R0, X.
  - evar_last.
    + apply is_derive_div; [apply @is_derive_const|apply is_derive_scal, is_derive_sqrt; [apply @is_derive_id|exact P]|nra].
    + cbv [zero one]; cbn. field. lra.
  - reflexivity.
  - field. lra.
  - field. lra.
Qed.
Lemma jet_rsum {A} (f : A -> R -> R) (a b c : A -> R) l : (forall i, In i l -> jet (f i) (a i) (b i) (c i)) ->
  jet (fun s => rsum (map (fun i => f i s) l)) (rsum (map a l)) (rsum (map b l)) (rsum (map c l)).
Proof.
  induction l as [|i l IH]; intros H; cbn [map].
  - apply jet_const.
  - apply (jet_ext (fun s => f i s + rsum (map (fun i => f i s) l))); [intros; rewrite rsum_cons; reflexivity|]. rewrite !rsum_cons.
    apply jet_plus; [apply H; left; reflexivity|apply IH; intros j J; apply H; right; exact J].
Qed.

(** Vectors. *)
Definition vjet (f : R -> v3) (a b c : v3) : Prop :=
  jet (fun s => vx (f s)) (vx a) (vx b) (vx c) /\ jet (fun s => vy (f s)) (vy a) (vy b) (vy c) /\ jet (fun s => vz (f s)) (vz a) (vz b) (vz c).
Lemma vjet_value f a b c : vjet f a b c -> f 0 = a.
Proof. intros (A & B & C). apply v3_eq; [exact (jet_value _ _ _ _ A)|exact (jet_value _ _ _ _ B)|exact (jet_value _ _ _ _ C)]. Qed.
Lemma vjet_moves f a b c : vjet f a b c -> moves f b.
Proof. intros (A & B & C). refine (conj _ (conj _ _)); [exact (jet_derive _ _ _ _ A)|exact (jet_derive _ _ _ _ B)|exact (jet_derive _ _ _ _ C)]. Qed.
Lemma vjet_ext f f' a b c : (forall s, f s = f' s) -> vjet f a b c -> vjet f' a b c.
Proof. intros E (A & B & C). refine (conj _ (conj _ _)); eapply jet_ext; [|exact A| |exact B| |exact C]; intros s; cbv beta; rewrite E; reflexivity. Qed.
Lemma vjet_const a : vjet (fun _ => a) a v3_0 v3_0.
Proof. refine (conj _ (conj _ _)); apply jet_const. Qed.
Lemma vjet_line a u : vjet (fun s => v3_line a u s) a u v3_0.
Proof.
  assert (E : forall x y : R, jet (fun s => x + s * y) x y 0).
  { intros x y. eapply jet_eq; [exact (jet_plus _ _ _ _ _ _ _ _ (jet_const x) (jet_mult _ _ _ _ _ _ _ _ jet_id (jet_const y)))| | |]; ring. }
  refine (conj _ (conj _ _)); unfold v3_line, v3_add, v3_scale, v3_0; cbn [vx vy vz]; apply E.
Qed.
Lemma vjet_add f f' a b c a' b' c' : vjet f a b c -> vjet f' a' b' c' -> vjet (fun s => v3_add (f s) (f' s)) (v3_add a a') (v3_add b b') (v3_add c c').
Proof. intros (A & B & C) (A' & B' & C'). refine (conj _ (conj _ _)); unfold v3_add; cbn [vx vy vz]; apply jet_plus; assumption. Qed.
Lemma vjet_sub f f' a b c a' b' c' : vjet f a b c -> vjet f' a' b' c' -> vjet (fun s => v3_sub (f s) (f' s)) (v3_sub a a') (v3_sub b b') (v3_sub c c').
Proof. intros (A & B & C) (A' & B' & C'). refine (conj _ (conj _ _)); unfold v3_sub; cbn [vx vy vz]; apply jet_minus; assumption. Qed.
Lemma vjet_scale k f a b c : vjet f a b c -> vjet (fun s => v3_scale k (f s)) (v3_scale k a) (v3_scale k b) (v3_scale k c).
Proof. intros (A & B & C). refine (conj _ (conj _ _)); unfold v3_scale; cbn [vx vy vz]; apply jet_scal; assumption. Qed.
Lemma vjet_dot f f' a b c a' b' c' : vjet f a b c -> vjet f' a' b' c' ->
  jet (fun s => v3_dot (f s) (f' s)) (v3_dot a a') (v3_dot b a' + v3_dot a b') (v3_dot c a' + 2 * v3_dot b b' + v3_dot a c').
Proof.
  intros (A & B & C) (A' & B' & C'). unfold v3_dot.
  eapply jet_eq; [exact (jet_plus _ _ _ _ _ _ _ _ (jet_plus _ _ _ _ _ _ _ _ (jet_mult _ _ _ _ _ _ _ _ A A') (jet_mult _ _ _ _ _ _ _ _ B B')) (jet_mult _ _ _ _ _ _ _ _ C C'))| | |]; ring.
Qed.
Lemma vjet_cross f f' a b c a' b' c' : vjet f a b c -> vjet f' a' b' c' ->
  vjet (fun s => v3_cross (f s) (f' s)) (v3_cross a a') (v3_add (v3_cross b a') (v3_cross a b'))
    (v3_add (v3_add (v3_cross c a') (v3_scale 2 (v3_cross b b'))) (v3_cross a c')).
Proof.
  intros (A & B & C) (A' & B' & C'). unfold v3_cross, v3_add, v3_scale. refine (conj _ (conj _ _)); cbn [vx vy vz].
  - eapply jet_eq; [exact (jet_minus _ _ _ _ _ _ _ _ (jet_mult _ _ _ _ _ _ _ _ B C') (jet_mult _ _ _ _ _ _ _ _ C B'))| | |]; ring.
  - eapply jet_eq; [exact (jet_minus _ _ _ _ _ _ _ _ (jet_mult _ _ _ _ _ _ _ _ C A') (jet_mult _ _ _ _ _ _ _ _ A C'))| | |]; ring.
  - eapply jet_eq; [exact (jet_minus _ _ _ _ _ _ _ _ (jet_mult _ _ _ _ _ _ _ _ A B') (jet_mult _ _ _ _ _ _ _ _ B A'))| | |]; ring.
Qed.
