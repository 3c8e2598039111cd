(** Proofs about the implicit potential: nearest sample, positivity of the weight sum, derivatives. *)
From Coq Require Import Reals List Lra Lia Psatz Bool.
From Coquelicot Require Import Coquelicot.
From Verif Require Import Vec3 Mat3 RList Calc KernelModel KernelSpec KernelProofs FieldModel FieldSpec.
Import ListNotations.
Local Open Scope R_scope.

(** ** Vectors *)
Ltac unv := cbv [v3_sub v3_add v3_scale v3_neg v3_dot v3_line v3_0 vx vy vz].
Ltac dv := repeat match goal with v : v3 |- _ => destruct v end.
Lemma v3_eq (a b : v3) : vx a = vx b -> vy a = vy b -> vz a = vz b -> a = b.
Proof. destruct a, b; simpl; intros -> -> ->; reflexivity. Qed.
Lemma dot_vsum {A} (f : A -> v3) (l : list A) (u : v3) : v3_dot (vsum (map f l)) u = rsum (map (fun i => v3_dot (f i) u) l).
Proof.
  induction l as [|a l IH]; simpl; [rewrite rsum_nil; unv; ring|].
  rewrite rsum_cons, <- IH. destruct (f a), (vsum (map f l)), u. unv. ring.
Qed.
Lemma dot_add_l a b u : v3_dot (v3_add a b) u = v3_dot a u + v3_dot b u.
Proof. dv. unv. ring. Qed.
Lemma dot_sub_l a b u : v3_dot (v3_sub a b) u = v3_dot a u - v3_dot b u.
Proof. dv. unv. ring. Qed.
Lemma dot_sub_r a b u : v3_dot u (v3_sub a b) = v3_dot u a - v3_dot u b.
Proof. dv. unv. ring. Qed.
Lemma dot_scale_l s a u : v3_dot (v3_scale s a) u = s * v3_dot a u.
Proof. dv. unv. ring. Qed.
Lemma dot_neg_l a u : v3_dot (v3_neg a) u = - v3_dot a u.
Proof. dv. unv. ring. Qed.
Lemma dot_0_l u : v3_dot v3_0 u = 0.
Proof. dv. unv. ring. Qed.
Lemma dot_comm a u : v3_dot a u = v3_dot u a.
Proof. dv. unv. ring. Qed.
Lemma norm_nonneg a : 0 <= v3_norm a.
Proof. apply sqrt_pos. Qed.
Lemma norm2_lt a b : v3_norm a < v3_norm b <-> norm2 a < norm2 b.
Proof.
  unfold v3_norm, norm2. split; intros H.
  - apply sqrt_lt_0_alt. exact H.
  - apply sqrt_lt_1_alt. split; [unfold v3_dot; nra|exact H].
Qed.
Lemma norm_pos_ne a : 0 < v3_norm a -> a <> v3_0.
Proof. intros H ->. unfold v3_norm in H. rewrite dot_0_l, sqrt_0 in H. lra. Qed.

(** ** Moving vectors *)
Lemma moves_sub f g l m : moves f l -> moves g m -> moves (fun s => v3_sub (f s) (g s)) (v3_sub l m).
Proof.
  intros (A & B & C) (A' & B' & C').
  split; [|split]; unfold v3_sub; cbn [vx vy vz]; apply @is_derive_minus; assumption.
Qed.
Lemma moves_ext f g l : (forall s, f s = g s) -> moves f l -> moves g l.
Proof. intros E (A & B & C). split; [|split]; eapply is_derive_ext; try exact A; try exact B; try exact C; intros s; simpl; rewrite E; reflexivity. Qed.
Lemma moves_const a : moves (fun _ => a) v3_0.
Proof. split; [|split]; cbn [vx vy vz v3_0]; apply @is_derive_const. Qed.
Lemma moves_line a u : moves (fun s => v3_line a u s) u.
Proof. destruct a, u. split; [|split]; cbn; auto_derive; auto; ring. Qed.
Lemma moves_dot f g l m : moves f l -> moves g m -> is_derive (fun s => v3_dot (f s) (g s)) 0 (v3_dot l (g 0) + v3_dot (f 0) m).
Proof.
  intros (A & B & C) (A' & B' & C'). unfold v3_dot.
  evar_last.
  - apply @is_derive_plus; [apply @is_derive_plus|]; (apply @is_derive_mult; [eassumption|eassumption|intros; apply Rmult_comm]).
  - cbv [plus mult]; cbn. ring.
Qed.
Lemma moves_norm f l : moves f l -> f 0 <> v3_0 -> is_derive (fun s => v3_norm (f s)) 0 (v3_dot (f 0) l / v3_norm (f 0)).
Proof.
  intros M H. pose proof (v3_norm_pos _ H) as P.
  assert (Q : 0 < v3_dot (f 0) (f 0)) by (rewrite <- v3_norm_sq; nra).
  unfold v3_norm. evar_last.
  - apply (is_derive_comp sqrt (fun s => v3_dot (f s) (f s))); [apply is_derive_Reals, derivable_pt_lim_sqrt; exact Q|apply (moves_dot f f l l M M)].
  - unfold scal; simpl; unfold mult; simpl. rewrite (dot_comm l). unfold v3_norm in P. field. lra.
Qed.
Lemma derive_rsum {A} (E : A -> R -> R) (g : A -> R) (l : list A) : (forall a, In a l -> is_derive (E a) 0 (g a)) ->
  is_derive (fun s => rsum (map (fun a => E a s) l)) 0 (rsum (map g l)).
Proof.
  induction l as [|a l IH]; intros H.
  - simpl. rewrite rsum_nil. apply (is_derive_ext (fun _ => 0)); [reflexivity|]. apply @is_derive_const.
  - simpl. rewrite rsum_cons. eapply is_derive_ext; [intros s; symmetry; apply rsum_cons|].
    apply @is_derive_plus; [apply H; left; reflexivity|apply IH; intros b Hb; apply H; right; exact Hb].
Qed.
Lemma locally_lt (f g : R -> R) (l m : R) : is_derive f 0 l -> is_derive g 0 m -> f 0 < g 0 -> locally 0 (fun s => f s < g s).
Proof.
  intros D E H. assert (L : locally 0 (fun s => 0 < g s - f s)).
  { eapply (locally_pos (fun s => g s - f s)); [apply @is_derive_minus; eassumption|lra]. }
  eapply filter_imp; [|exact L]. intros s Hs. cbv beta in Hs. lra.
Qed.
Lemma locally_all {A} (Q : A -> R -> Prop) (l : list A) : (forall a, In a l -> locally 0 (Q a)) ->
  locally 0 (fun s => forall a, In a l -> Q a s).
Proof.
  induction l as [|a l IH]; intros H.
  - apply filter_forall. intros s b [].
  - pose proof (filter_and _ _ (H a (or_introl eq_refl)) (IH (fun b Hb => H b (or_intror Hb)))) as L.
    eapply filter_imp; [|exact L]. intros s [X Y] b [<-|Hb]; auto.
Qed.

(** ** Nearest sample *)
Lemma nearest_dist2 S q view c : nearest S q view c <-> (In c view /\ forall j, In j view -> j <> c -> dist2 S q c < dist2 S q j).
Proof.
  unfold nearest, away, dist2. split; intros [A B]; (split; [exact A|]); intros j Hj Hne; apply norm2_lt; apply B; assumption.
Qed.
Lemma fold_min_nearest S q : forall l b c, (c = b \/ In c l) -> (forall j, (j = b \/ In j l) -> j <> c -> dist2 S q c < dist2 S q j) ->
  fold_left (fun best j => if Rlt_dec (dist2 S q j) (dist2 S q best) then j else best) l b = c.
Proof.
  induction l as [|a l IH]; intros b c H1 H2; simpl.
  - destruct H1 as [->|[]]. reflexivity.
  - apply IH.
    + destruct (Rlt_dec (dist2 S q a) (dist2 S q b)) as [L|L].
      * destruct H1 as [->|[<-|H]]; auto. destruct (Nat.eq_dec a b) as [->|N]; [lra|].
        exfalso. specialize (H2 a (or_intror (or_introl eq_refl)) N). lra.
      * destruct H1 as [->|[<-|H]]; auto. destruct (Nat.eq_dec a b) as [->|N]; [left; reflexivity|].
        exfalso. apply L. apply H2; [left; reflexivity|congruence].
    + intros j [E|Hj] N.
      * destruct (Rlt_dec (dist2 S q a) (dist2 S q b)); subst; (apply H2; [|exact N]); simpl; auto.
      * apply H2; [right; right; exact Hj|exact N].
Qed.
Lemma nearest_closest S q view c : nearest S q view c -> closest_sample q S view = Some c.
Proof.
  intros H. apply nearest_dist2 in H. destruct H as [A B]. destruct view as [|i l]; [destruct A|].
  simpl. f_equal. apply fold_min_nearest.
  - destruct A as [<-|A]; auto.
  - intros j [->|Hj] N; apply B; auto; simpl; auto.
Qed.
Lemma closest_in q S view i : closest_sample q S view = Some i -> In i view /\ forall j, In j view -> dist2 S q i <= dist2 S q j.
Proof.
  destruct view as [|a l]; [discriminate|]. intros E. injection E as <-.
  revert a. induction l as [|b l IH]; intros a; simpl.
  - split; [left; reflexivity|]. intros j [<-|[]]. lra.
  - destruct (Rlt_dec (dist2 S q b) (dist2 S q a)) as [L|L].
    + destruct (IH b) as [X Y]. split.
      * destruct X as [X|X]; auto.
      * intros j [<-|[<-|Hj]].
        -- pose proof (Y b (or_introl eq_refl)). lra.
        -- apply Y. left; reflexivity.
        -- apply Y. right; exact Hj.
    + destruct (IH a) as [X Y]. split.
      * destruct X as [X|X]; auto.
      * intros j [<-|[<-|Hj]].
        -- apply Y. left; reflexivity.
        -- pose proof (Y a (or_introl eq_refl)). lra.
        -- apply Y. right; exact Hj.
Qed.
Lemma closest_some q S view : view <> [] -> exists i, closest_sample q S view = Some i.
Proof. destruct view; [congruence|]. intros _. simpl. eauto. Qed.
Lemma dist2_norm S q i j : dist2 S q i <= dist2 S q j -> v3_norm (away S q i) <= v3_norm (away S q j).
Proof. intros H. unfold v3_norm. apply sqrt_le_1_alt. exact H. Qed.

(** ** Kernels are positive inside and vanish outside *)
Lemma k_radius_support k : k_radius k = support k.
Proof. destruct k; reflexivity. Qed.
Lemma kernel_pos k x : valid_kernel k -> 0 < x -> match k_radius k with None => True | Some r => x < r end -> 0 < k_f k x.
Proof.
  intros V X I. destruct k as [e|r|r c|r t|r e]; simpl in *.
  - unfold global_f, global_f_gen; simpl. assert (0 < 1 / (x * x + e * e)) by (apply Rdiv_lt_0_compat; nra). nra.
  - assert (H : 0 < 1 - x / r /\ 0 < x / r).
    { assert (0 < / r) by (apply Rinv_0_lt_compat; lra). assert (r * / r = 1) by (field; lra). unfold Rdiv. split; nra. }
    rewrite (cubic_in_ratio r x V) by lra. set (d := x / r) in *.
    replace (2 * (d * d * d) - 3 * (d * d) + 1) with ((1 - d) * (1 - d) * (1 + 2 * d)) by ring. repeat apply Rmult_lt_0_compat; lra.
  - destruct V. apply interp_positive; assumption.
  - destruct V as [V T]. assert (H : 0 < 1 - x / r /\ 0 < x / r).
    { assert (0 < / r) by (apply Rinv_0_lt_compat; lra). assert (r * / r = 1) by (field; lra). unfold Rdiv. split; nra. }
    unfold smooth_f. destruct (Rlt_dec r x); [lra|]. cbv zeta. set (d := x / r) in *.
    apply Rdiv_lt_0_compat; [|nra]. apply Rmult_lt_0_compat; [exact T|].
    replace (2 * (d * d * d) - 3 * (d * d) + 1) with ((1 - d) * (1 - d) * (1 + 2 * d)) by ring. repeat apply Rmult_lt_0_compat; lra.
  - destruct V as [V T]. assert (H : 0 < 1 - x / r /\ 0 < x / r).
    { assert (0 < / r) by (apply Rinv_0_lt_compat; lra). assert (r * / r = 1) by (field; lra). unfold Rdiv. split; nra. }
    unfold approx_f. destruct (Rlt_dec r x); [lra|]. cbv zeta. set (d := x / r) in *.
    apply Rmult_lt_0_compat; [apply Rdiv_lt_0_compat; nra|].
    assert (A : d * d + e < 1 + e) by nra. assert (B : 0 < d * d + e) by nra.
    assert (C : 1 / (1 + e) < 1 / (d * d + e)) by (unfold Rdiv; rewrite !Rmult_1_l; apply Rinv_lt_contravar; nra).
    assert (E : 0 < 1 / (1 + e)) by (apply Rdiv_lt_0_compat; lra).
    replace (1 / ((1 + e) * (1 + e))) with (1 / (1 + e) * (1 / (1 + e))) by (field; lra). nra.
Qed.
Lemma kernel_nonneg k x : valid_kernel k -> 0 < x -> 0 <= k_f k x.
Proof.
  intros V X. destruct (k_radius k) as [r|] eqn:E.
  - destruct (Rtotal_order x r) as [L|[->|L]].
    + apply Rlt_le, kernel_pos; [assumption|assumption|rewrite E; exact L].
    + rewrite (local_at_radius k r V); [lra|rewrite <- k_radius_support; exact E].
    + rewrite k_radius_support in E. rewrite (proj1 (kernel_support k r x E L)). lra.
  - apply Rlt_le, kernel_pos; [assumption|assumption|rewrite E; exact Logic.I].
Qed.
Lemma with_closest_radius k d : k_radius (with_closest k d) = k_radius k.
Proof. destruct k; reflexivity. Qed.
Lemma with_closest_valid k d : valid_kernel k -> 0 < d -> valid_kernel (with_closest k d).
Proof. destruct k; simpl; tauto. Qed.
Lemma with_closest_regular k d x : regular_distance (with_closest k d) x <-> regular_distance k x.
Proof. destruct k; reflexivity. Qed.
Lemma regular_radius k x r : regular_distance k x -> k_radius k = Some r -> x <> r.
Proof. destruct k; simpl; intros H E; inversion E; subst; tauto. Qed.
