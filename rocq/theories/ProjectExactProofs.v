From Coq Require Import Reals List Bool Lra Lia.
From Verif Require Import Dual Vec3 RList KernelModel FieldModel FieldSpec FieldProofs NeighborModel NeighborSpec ProjectModel ProjectSpec ProjectProofs.
Import ListNotations.
Local Open Scope R_scope.

Lemma existsb_nth_false {A} (p : A -> bool) l : (forall i a, nth_error l i = Some a -> p a = false) -> existsb p l = false.
Proof.
  intros H. destruct (existsb p l) eqn:E; [|reflexivity]. apply existsb_exists in E. destruct E as (a & I & P).
  apply In_nth_error in I. destruct I as [i I]. rewrite (H i a I) in P. discriminate.
Qed.
Lemma overshoots_false iso eps w : w_cpot w <= iso + eps -> overshoots iso eps w = false.
Proof. intros H. destruct (overshoots iso eps w) eqn:E; [|reflexivity]. apply overshoots_true in E. lra. Qed.
Lemma violating_false iso w : iso <= w_pot w -> violating iso w = false.
Proof. intros H. destruct (violating iso w) eqn:E; [|reflexivity]. apply violating_true in E. lra. Qed.
Lemma not_violating iso w : violating iso w = false -> iso <= w_pot w \/ w_nml w = 0.
Proof.
  intros H. destruct (Rle_dec iso (w_pot w)) as [L|L]; [left; exact L|]. destruct (Req_EM_T (w_nml w) 0) as [Z|Z]; [right; exact Z|].
  assert (violating iso w = true); [|congruence]. apply violating_true. split; [lra|exact Z].
Qed.

Lemma toward_dot s n q c : v3_dot n (v3_add q (v3_scale c (toward s n))) = v3_dot n q + c * multiplier s * v3_dot n n.
Proof. destruct n, q, s; unfold v3_dot, v3_add, v3_scale, toward, v3_neg, multiplier; cbn; ring. Qed.
Lemma land_at s iso eps a b : (a + (b + (eps / 2 + short s iso (a + b)) * multiplier s * 1)) * multiplier s = iso * multiplier s + eps / 2.
Proof. destruct s; unfold short, multiplier; field. Qed.
Lemma land_level s iso eps x : x * multiplier s = iso * multiplier s + eps / 2 -> x = match s with Above => iso + eps / 2 | Below => iso - eps / 2 end.
Proof. destruct s; unfold multiplier; lra. Qed.

(** A potential that is an affine function with a gradient of unit length. *)
Section Affine.
Context (F : field) (s : side) (iso eps : R) (qs : list v3) (n : nat -> v3) (d : nat -> R).
Hypothesis Hpot : forall i q v, (i < length qs)%nat -> f_pot F i q v = d i + v3_dot (n i) q.
Hypothesis Hjac : forall i q, (i < length qs)%nat -> f_jac F i q = n i.
Hypothesis Hunit : forall i, (i < length qs)%nat -> v3_norm (n i) = 1.
Hypothesis Heps : 0 <= eps.
Let mult := multiplier s.
Let lvl := iso * mult.

Lemma unit_dot i : (i < length qs)%nat -> v3_dot (n i) (n i) = 1.
Proof.
  intros L. pose proof (Hunit i L) as U. unfold v3_norm in U. rewrite <- (sqrt_sqrt (v3_dot (n i) (n i))); [rewrite U; ring|].
  destruct (n i). unfold v3_dot. cbn. nra.
Qed.

Definition seen_at i q := evaluate F mult i (walker_new q).
Definition tried_at i q := try_step F mult lvl i (aim mult lvl eps (seen_at i q)).
Lemma seen_pot i q : (i < length qs)%nat -> w_pot (seen_at i q) = level F i q * mult.
Proof. intros L. unfold seen_at, evaluate, level. cbn [w_pot walker_new w_q]. rewrite !Hpot by exact L. reflexivity. Qed.
Lemma seen_nml i q : (i < length qs)%nat -> w_nml (seen_at i q) = 1.
Proof. intros L. unfold seen_at, evaluate. cbn [w_nml walker_new w_q]. rewrite Hjac by exact L. apply Hunit, L. Qed.
Lemma seen_violating i q : (i < length qs)%nat -> violating lvl (seen_at i q) = true <-> ~ on_side s iso (level F i q).
Proof.
  intros L. rewrite violating_true, seen_nml, seen_pot by exact L. unfold lvl, mult. rewrite below_level. split; [intros [H _]; exact H|intros H; split; [exact H|lra]].
Qed.
Lemma tried_fields i q : w_q (tried_at i q) = q /\ w_pot (tried_at i q) = w_pot (seen_at i q) /\ w_nml (tried_at i q) = w_nml (seen_at i q).
Proof. unfold tried_at, try_step, aim. destruct (violating lvl (seen_at i q)); repeat split. Qed.
Lemma tried_still i q : violating lvl (seen_at i q) = false -> w_cand (tried_at i q) = q.
Proof. intros V. unfold tried_at, try_step, aim. rewrite V. cbn [w_cand]. rewrite V. reflexivity. Qed.
Lemma tried_moved i q : (i < length qs)%nat -> violating lvl (seen_at i q) = true ->
  w_cand (tried_at i q) = v3_add q (v3_scale (eps / 2 + short s iso (level F i q)) (toward s (n i))).
Proof.
  intros L V. unfold tried_at, try_step. cbn [w_cand]. rewrite (violating_ext lvl (seen_at i q)); [|unfold aim; rewrite V; reflexivity|unfold aim; rewrite V; reflexivity].
  rewrite V. unfold aim. rewrite V. cbn [w_q w_step]. change (w_q (seen_at i q)) with q. f_equal.
  rewrite seen_nml, seen_pot by exact L. unfold lvl, mult. rewrite short_level. rewrite (toward_level s iso).
  change (w_step (seen_at i q)) with (f_jac F i q). rewrite Hjac by exact L. f_equal. field.
Qed.
Lemma tried_level i q : (i < length qs)%nat ->
  level F i (w_cand (tried_at i q)) * mult = if violating lvl (seen_at i q) then lvl + eps / 2 else level F i q * mult.
Proof.
  intros L. destruct (violating lvl (seen_at i q)) eqn:V; [|rewrite tried_still by exact V; reflexivity].
  rewrite tried_moved by assumption. unfold level. rewrite !Hpot by exact L. fold (level F i q).
  rewrite toward_dot, unit_dot by exact L. apply land_at.
Qed.
Lemma tried_cpot i q : (i < length qs)%nat -> w_cpot (tried_at i q) = level F i (w_cand (tried_at i q)) * mult.
Proof. intros L. unfold tried_at at 1. unfold try_step. cbn [w_cpot]. change (if violating lvl (aim mult lvl eps (seen_at i q)) then _ else _) with (w_cand (tried_at i q)). unfold level. rewrite !Hpot by exact L. reflexivity. Qed.

Lemma project_affine : exists qs', project_field F s iso eps qs = (qs', true) /\ length qs' = length qs /\
  forall i q, nth_error qs i = Some q -> exists q', nth_error qs' i = Some q' /\
    (on_side s iso (level F i q) -> q' = q) /\
    (~ on_side s iso (level F i q) -> q' = v3_add q (v3_scale (eps / 2 + short s iso (level F i q)) (toward s (n i))) /\
       level F i q' = match s with Above => iso + eps / 2 | Below => iso - eps / 2 end).
Proof.
  assert (LEN : forall qs', (exists c, project_field F s iso eps qs = (qs', c)) -> length qs' = length qs) by (intros qs' [c H]; exact (proj1 (project_spec _ _ _ _ _ _ _ H))).
  assert (SN : forall i, nth_error (mapi (evaluate F mult) (map walker_new qs)) i = option_map (seen_at i) (nth_error qs i)).
  { intros i. rewrite mapi_nth, nth_error_map. destruct (nth_error qs i); reflexivity. }
  assert (BND : forall i q, nth_error qs i = Some q -> (i < length qs)%nat) by (intros i q H; apply nth_error_Some; congruence).
  destruct (existsb (violating lvl) (mapi (evaluate F mult) (map walker_new qs))) eqn:V.
  - set (tried := mapi (try_step F mult lvl) (map (aim mult lvl eps) (mapi (evaluate F mult) (map walker_new qs)))).
    assert (TN : forall i, nth_error tried i = option_map (tried_at i) (nth_error qs i)).
    { intros i. unfold tried. rewrite mapi_nth, nth_error_map, SN. destruct (nth_error qs i); reflexivity. }
    assert (OV : existsb (overshoots lvl eps) tried = false).
    { apply existsb_nth_false. intros i w N. rewrite TN in N. destruct (nth_error qs i) as [q|] eqn:Q; [|discriminate]. injection N as <-. pose proof (BND _ _ Q) as L.
      destruct (violating lvl (seen_at i q)) eqn:VI.
      - apply overshoots_false. rewrite tried_cpot, tried_level, VI by exact L. lra.
      - destruct (overshoots lvl eps (tried_at i q)) eqn:O; [|reflexivity]. apply overshoots_true in O. destruct O as (O1 & _ & O3).
        destruct (tried_fields i q) as (_ & T2 & T3). rewrite T2 in O1. rewrite T3 in O3. assert (violating lvl (seen_at i q) = true); [|congruence]. apply violating_true. split; assumption. }
    set (final := mapi (evaluate F mult) (map accept tried)).
    assert (FN : forall i, nth_error final i = option_map (fun q => evaluate F mult i (accept (tried_at i q))) (nth_error qs i)).
    { intros i. unfold final. rewrite mapi_nth, nth_error_map, TN. destruct (nth_error qs i); reflexivity. }
    assert (NV : existsb (violating lvl) final = false).
    { apply existsb_nth_false. intros i w N. rewrite FN in N. destruct (nth_error qs i) as [q|] eqn:Q; [|discriminate]. injection N as <-. pose proof (BND _ _ Q) as L.
      apply violating_false. unfold evaluate. cbn [w_pot accept w_q]. 
      replace (f_pot F i (w_cand (tried_at i q)) (w_pot (tried_at i q))) with (level F i (w_cand (tried_at i q))) by (unfold level; rewrite !Hpot by exact L; reflexivity).
      rewrite tried_level by exact L. destruct (violating lvl (seen_at i q)) eqn:VI; [lra|].
      destruct (not_violating _ _ VI) as [H|H]; [rewrite seen_pot in H by exact L; exact H|rewrite seen_nml in H by exact L; lra]. }
    assert (E : project_field F s iso eps qs = (map w_q final, true)).
    { unfold project_field. fold mult lvl. change 20%nat with (S 19). cbn [walk]. rewrite V.
      change 10%nat with (S 9). cbn [search]. fold tried. rewrite OV. cbn [Nat.eqb negb andb]. change 19%nat with (S 18). cbn [walk]. fold final. rewrite NV. reflexivity. }
    exists (map w_q final). split; [exact E|]. split; [apply LEN; eauto|].
    intros i q Q. pose proof (BND _ _ Q) as L. exists (w_cand (tried_at i q)). split; [rewrite nth_error_map, FN, Q; reflexivity|].
    pose proof (seen_violating i q L) as SV. destruct (violating lvl (seen_at i q)) eqn:VI.
    + split; [intros H; exfalso; exact (proj1 SV eq_refl H)|]. intros _. split; [apply tried_moved; assumption|].
      pose proof (tried_level i q L) as T. rewrite VI in T. exact (land_level _ _ _ _ T).
    + split; [intros _; apply tried_still, VI|]. intros H. apply SV in H. discriminate.
  - exists (map w_q (mapi (evaluate F mult) (map walker_new qs))).
    assert (E : project_field F s iso eps qs = (map w_q (mapi (evaluate F mult) (map walker_new qs)), true)).
    { unfold project_field. fold mult lvl. change 20%nat with (S 19). cbn [walk]. rewrite V. reflexivity. }
    split; [exact E|]. split; [apply LEN; eauto|].
    intros i q Q. pose proof (BND _ _ Q) as L. exists q. split; [rewrite nth_error_map, SN, Q; reflexivity|]. split; [reflexivity|].
    intros H. exfalso. assert (N : nth_error (mapi (evaluate F mult) (map walker_new qs)) i = Some (seen_at i q)) by (rewrite SN, Q; reflexivity).
    pose proof (existsb_none _ _ _ _ V N) as VI. apply (seen_violating i q L) in H. congruence.
Qed.
End Affine.

(** A single point. *)
Lemma walk_one F mult iso eps m c w :
  let w1 := evaluate F mult 0 w in let w2 := aim mult iso eps w1 in let w3 := try_step F mult iso 0 w2 in
  violating iso w1 = true -> w_cpot w3 <= iso + eps ->
  walk F mult iso eps (S m) c [w] = walk F mult iso eps m (c && negb (Nat.eqb m 0)) [accept w3].
Proof.
  intros w1 w2 w3 V O. cbn [walk]. change (mapi (evaluate F mult) [w]) with [w1]. cbn [existsb]. rewrite V. cbn [orb map].
  fold w2. change 10%nat with (S 9). cbn [search]. change (mapi (try_step F mult iso) [w2]) with [w3]. cbn [existsb]. rewrite overshoots_false by exact O.
  cbn [orb map]. rewrite andb_true_r. reflexivity.
Qed.

(** Potentials of surfaces. *)
Lemma mls_steady t i : p_type (sb_bg (q_base t)) <> FInput -> steady (mls_field t) i.
Proof.
  intros H. unfold steady, mls_field. cbn [f_pot]. destruct (nth i (trivial_neighborhood t) []) as [|a l] eqn:E.
  - right. reflexivity.
  - left. intros q v. unfold potential_at, bg_local. destruct (closest_some q (sb_samples (q_base t)) (a :: l) ltac:(discriminate)) as [c C]. rewrite C.
    replace (bg_new_impl q (sb_samples (q_base t)) (a :: l) (Local c) (q_kernel t) (sb_bg (q_base t)) (Some v))
      with (bg_new_impl q (sb_samples (q_base t)) (a :: l) (Local c) (q_kernel t) (sb_bg (q_base t)) (Some 0)); [reflexivity|].
    unfold bg_new_impl. destruct (p_type (sb_bg (q_base t))); [reflexivity|contradiction|reflexivity].
Qed.

(** A global surface whose samples all lie on one plane. *)
Definition coplanar (S : list sample) (view : list nat) (n : v3) (d : R) : Prop :=
  forall i, In i view -> s_nml (smp S i) <> v3_0 /\ unit_of (s_nml (smp S i)) = n /\ s_value (smp S i) - v3_dot n (s_pos (smp S i)) = d.

Lemma global_pos e x : 0 < e -> 0 < k_f (Global e) x.
Proof.
  intros E. unfold k_f, global_f, global_f_gen. cbn. assert (0 < / (x * x + e * e)) by (apply Rinv_0_lt_compat; nra).
  unfold Rdiv. rewrite Rmult_1_l. nra.
Qed.
Lemma rsum_scale_r {A} (f : A -> R) c l : rsum (map (fun a => f a * c) l) = rsum (map f l) * c.
Proof. induction l as [|a l IH]; simpl; rewrite ?rsum_nil, ?rsum_cons, ?IH; lra. Qed.
Lemma rsum_map_pos {A} (f : A -> R) l : l <> [] -> (forall a, 0 < f a) -> 0 < rsum (map f l).
Proof.
  intros N P. destruct l as [|a l]; [contradiction|]. cbn [map]. rewrite rsum_cons.
  assert (0 <= rsum (map f l)); [|pose proof (P a); lra]. apply rsum_nonneg. intros x I. apply in_map_iff in I. destruct I as (y & <- & _). apply Rlt_le, P.
Qed.

Section Flat.
Context (q : v3) (S : list sample) (view : list nat) (e : R) (P : bg_params) (n : v3) (d : R).
Hypothesis He : 0 < e.
Hypothesis Hv : view <> [].
Hypothesis Hc : coplanar S view n d.
Hypothesis Hw : p_weighted P = false.

Let w (i : nat) : R := k_eval (Global e) q (s_pos (smp S i)).
Lemma flat_sum_pos : 0 < rsum (map w view).
Proof. apply rsum_map_pos; [exact Hv|]. intros a. apply global_pos, He. Qed.
Lemma flat_sum c v : b_sum (bg_new_impl q S view c (Global e) P v) = rsum (map w view).
Proof. unfold bg_new_impl. cbn [b_sum with_closest]. unfold background_weight. cbn [b_kernel k_radius]. rewrite Rplus_0_r. reflexivity. Qed.
Lemma flat_inv c v : weight_sum_inv (bg_new_impl q S view c (Global e) P v) = / rsum (map w view).
Proof.
  unfold weight_sum_inv. rewrite flat_sum. pose proof flat_sum_pos. destruct (Req_EM_T (rsum (map w view)) 0); [lra|]. unfold Rdiv. ring.
Qed.
Lemma flat_plane i : In i view -> s_value (smp S i) + v3_dot n (v3_sub q (s_pos (smp S i))) = d + v3_dot n q.
Proof. intros I. destruct (Hc i I) as (_ & _ & D). rewrite dot_sub_r. lra. Qed.
Lemma flat_normal i : In i view -> v3_dot (s_nml (smp S i)) (v3_sub q (s_pos (smp S i))) / v3_norm (s_nml (smp S i)) = v3_dot n (v3_sub q (s_pos (smp S i))).
Proof.
  intros I. destruct (Hc i I) as (Z & U & _). rewrite <- U. unfold unit_of. rewrite dot_scale_l. field. rewrite norm_zero_iff. exact Z.
Qed.
Lemma flat_potential v : potential_at q S view (Global e) P v = d + v3_dot n q.
Proof.
  unfold potential_at, bg_local. destruct (closest_some q S view Hv) as [c C]. rewrite C. rewrite flat_inv. unfold background_weight. cbn [bg_new_impl b_kernel k_radius].
  unfold local_potential_at.
  assert (L : forall f, (forall i, In i view -> f i = w i * (d + v3_dot n q)) -> rsum (map f view) = rsum (map w view) * (d + v3_dot n q)).
  { intros f H. rewrite <- (rsum_scale_r w). apply rsum_ext, H. }
  match goal with |- context [rsum (map ?f view) * / _] => rewrite (L f) end.
  - pose proof flat_sum_pos. field. lra.
  - intros i I. cbv zeta. rewrite flat_normal, flat_plane by exact I. unfold s_weight. reflexivity.
Qed.
Lemma flat_jacobian c : query_jacobian_at q S view c (Global e) P = Some n.
Proof.
  assert (B : exists x, bg_new q S view c (Global e) P None = Some (bg_new_impl q S view x (Global e) P None)).
  { unfold bg_new, bg_global, bg_local. destruct (closest_some q S view Hv) as [j J]. rewrite J. destruct c; eauto. }
  destruct B as [x B]. unfold query_jacobian_at. rewrite B. set (b := bg_new_impl q S view x (Global e) P None).
  pose proof flat_sum_pos as SP. set (W := rsum (map w view)) in *.
  assert (WI : weight_sum_inv b = / W) by apply flat_inv.
  assert (BJ : bg_query_jacobian b = v3_0).
  { unfold bg_query_jacobian. change (b_weighted b) with (p_weighted P). rewrite Hw. unfold background_weight. cbn [b bg_new_impl b_kernel k_radius].
    rewrite Rmult_0_l. destruct (field_gradient _). unfold v3_add, v3_scale, v3_0. cbn. f_equal; ring. }
  f_equal. rewrite BJ. apply v3_eq.
  all: assert (G : forall u, v3_dot (v3_add (vsum (map (fun i => sample_query_jacobian_at q (smp S i) (Global e) (unit_of (s_nml (smp S i))) (neighbor_weight_gradient b) (weight_sum_inv b) (b_dist b)) view)) v3_0) u = v3_dot n u).
  1, 3, 5: intros u; rewrite dot_add_l, dot_0_l, Rplus_0_r, dot_vsum;
    rewrite (rsum_ext _ (fun i => (/ W * (d + v3_dot n q)) * v3_dot (s_weight_grad (Global e) (b_dist b) q (smp S i)) u + w i * (/ W * (v3_dot n u - (d + v3_dot n q) * v3_dot (neighbor_weight_gradient b) u)))).
  2, 4, 6: intros i I; unfold sample_query_jacobian_at; destruct (Hc i I) as (_ & U & _); rewrite U, flat_plane by exact I; rewrite WI;
    change (s_weight (Global e) (b_dist b) q (smp S i)) with (w i); rewrite dot_scale_l, dot_add_l, !dot_scale_l, dot_sub_l, dot_scale_l; ring.
  1, 2, 3: assert (NG : v3_dot (neighbor_weight_gradient b) u = / W * rsum (map (fun i => v3_dot (s_weight_grad (Global e) (b_dist b) q (smp S i)) u) view));
    [unfold neighbor_weight_gradient; rewrite WI, dot_scale_l, dot_add_l; unfold background_weight_gradient; cbn [b bg_new_impl b_kernel k_radius]; rewrite dot_0_l, Rplus_0_r, dot_vsum; reflexivity|];
    rewrite rsum_plus, (rsum_scale_r w); fold W; rewrite (rsum_ext (fun i => / W * (d + v3_dot n q) * v3_dot (s_weight_grad (Global e) (b_dist b) q (smp S i)) u) (fun i => v3_dot (s_weight_grad (Global e) (b_dist b) q (smp S i)) u * (/ W * (d + v3_dot n q)))) by (intros; ring);
    rewrite rsum_scale_r, NG; field; lra.
  - specialize (G (V3 1 0 0)). unfold v3_dot in G. cbn [vx vy vz] in G. rewrite !Rmult_0_r, !Rplus_0_r, !Rmult_1_r in G. exact G.
  - specialize (G (V3 0 1 0)). unfold v3_dot in G. cbn [vx vy vz] in G. rewrite !Rmult_0_r, !Rplus_0_r, !Rplus_0_l, !Rmult_1_r in G. exact G.
  - specialize (G (V3 0 0 1)). unfold v3_dot in G. cbn [vx vy vz] in G. rewrite !Rmult_0_r, !Rplus_0_l, !Rmult_1_r in G. exact G.
Qed.
End Flat.
