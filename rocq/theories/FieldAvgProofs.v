(** Proofs: the potential is a weighted average; rigid motions and reversed normals. *)
From Coq Require Import Reals List Lra Lia Psatz Bool.
From Coquelicot Require Import Coquelicot.
From Verif Require Import Vec3 Mat3 RList KernelModel KernelSpec KernelProofs ElasticSpec ElasticProofs ElasticMeshProofs ShellProofs FieldModel FieldSpec FieldProofs FieldDerivProofs.
Import ListNotations.
Local Open Scope R_scope.

(** The potential in terms of distances to the samples, signed plane distances and the side of the nearest sample. *)
Definition form (k : kernel) (P : bg_params) (v : R) (view : list nat) (dd psi : nat -> R) (c : nat) (side : R) : R :=
  let W := rsum (map (fun i => k_f (with_closest k (dd c)) (dd i)) view) + bgw k (p_weighted P) (dd c) in
  let wsi := if Req_EM_T W 0 then 0 else 1 / W in
  fval P v (dd c) side * bgw k (p_weighted P) (dd c) * wsi + rsum (map (fun i => k_f (with_closest k (dd c)) (dd i) * psi i) view) * wsi.
Lemma potential_form k P v q S view c : closest_sample q S view = Some c ->
  potential_at q S view k P v = form k P v view (fun i => v3_norm (away S q i)) (plane_value S q) c (v3_dot (s_nml (smp S c)) (away S q c)).
Proof.
  intros C. unfold potential_at, bg_local. rewrite C. unfold form. cbv zeta.
  set (b := bg_new_impl q S view (Local c) k P (Some v)).
  assert (FV : field_value b = fval P v (v3_norm (away S q c)) (v3_dot (s_nml (smp S c)) (away S q c))).
  { unfold field_value, fval. cbn [b b_value bg_new_impl]. destruct (p_type P); reflexivity. }
  rewrite FV. reflexivity.
Qed.
Lemma form_ext k P v view dd dd' psi psi' c side side' : In c view -> (forall i, In i view -> dd i = dd' i) -> (forall i, In i view -> psi i = psi' i) ->
  fval P v (dd c) side = fval P v (dd c) side' -> form k P v view dd psi c side = form k P v view dd' psi' c side'.
Proof.
  intros I D Q F. unfold form. cbv zeta. rewrite <- (D c I), F.
  assert (A : rsum (map (fun i => k_f (with_closest k (dd c)) (dd i)) view) = rsum (map (fun i => k_f (with_closest k (dd c)) (dd' i)) view)).
  { apply rsum_ext. intros i Hi. rewrite (D i Hi). reflexivity. }
  assert (B : rsum (map (fun i => k_f (with_closest k (dd c)) (dd i) * psi i) view) = rsum (map (fun i => k_f (with_closest k (dd c)) (dd' i) * psi' i) view)).
  { apply rsum_ext. intros i Hi. rewrite (D i Hi), (Q i Hi). reflexivity. }
  rewrite A, B. reflexivity.
Qed.

(** ** Weighted average *)
Lemma wavg lo hi {A} (w psi : A -> R) (l : list A) : (forall i, In i l -> 0 <= w i) -> (forall i, In i l -> lo <= psi i <= hi) ->
  lo * rsum (map w l) <= rsum (map (fun i => w i * psi i) l) <= hi * rsum (map w l).
Proof.
  induction l as [|a l IH]; intros W B; simpl.
  - rewrite !rsum_nil. lra.
  - rewrite !rsum_cons. pose proof (W a (or_introl eq_refl)). pose proof (B a (or_introl eq_refl)).
    pose proof (IH (fun i Hi => W i (or_intror Hi)) (fun i Hi => B i (or_intror Hi))). nra.
Qed.
Lemma quotient_bounds lo hi x bw s W : 0 < W + bw -> 0 <= bw -> (bw <> 0 -> lo <= x <= hi) -> lo * W <= s <= hi * W ->
  lo <= x * bw * (1 / (W + bw)) + s * (1 / (W + bw)) <= hi.
Proof.
  intros P B X S. replace (x * bw * (1 / (W + bw)) + s * (1 / (W + bw))) with ((x * bw + s) / (W + bw)) by (field; lra).
  assert (lo * bw <= x * bw <= hi * bw) by (destruct (Req_dec bw 0) as [->|N]; [lra|specialize (X N); nra]).
  split; [apply Rle_div_r|apply Rle_div_l]; nra.
Qed.
Lemma form_bounds k P v view dd psi c side lo hi : valid_kernel k -> In c view -> (forall i, In i view -> 0 < dd i) ->
  (match k_radius k with None => True | Some r => dd c <> r end) ->
  (forall i, In i view -> lo <= psi i <= hi) -> (bgw k (p_weighted P) (dd c) <> 0 -> lo <= fval P v (dd c) side <= hi) ->
  lo <= form k P v view dd psi c side <= hi.
Proof.
  intros V I D R PS F. unfold form. cbv zeta.
  assert (V0 : valid_kernel (with_closest k (dd c))) by (apply with_closest_valid; auto).
  pose proof (total_weight_pos k (with_closest k (dd c)) (p_weighted P) view dd c V V0 (with_closest_radius k (dd c)) I D R) as W.
  destruct (Req_EM_T _ 0); [lra|]. apply quotient_bounds; auto.
  - apply bgw_nonneg; assumption.
  - apply wavg; auto. intros i Hi. apply kernel_nonneg; auto.
Qed.
Lemma form_outside k P v view dd psi c side r : k_radius k = Some r -> In c view -> (forall i, In i view -> r < dd i) ->
  form k P v view dd psi c side = fval P v (dd c) side.
Proof.
  intros E I D. unfold form. cbv zeta.
  assert (Z : forall i, In i view -> k_f (with_closest k (dd c)) (dd i) = 0).
  { intros i Hi. apply (kernel_support (with_closest k (dd c)) r); [rewrite <- k_radius_support, with_closest_radius; exact E|auto]. }
  rewrite (rsum_zero (fun i => k_f (with_closest k (dd c)) (dd i)) view) by exact Z.
  rewrite (rsum_zero (fun i => k_f (with_closest k (dd c)) (dd i) * psi i) view) by (intros i Hi; rewrite Z by exact Hi; ring).
  assert (B : bgw k (p_weighted P) (dd c) = 1).
  { unfold bgw. rewrite E. destruct (Rlt_dec r (dd c)); [reflexivity|]. exfalso. pose proof (D c I). contradiction. }
  rewrite B. destruct (Req_EM_T (0 + 1) 0); [lra|]. field.
Qed.

(** ** Rigid motion *)
Lemma smp_map f S i : (i < length S)%nat -> smp (map f S) i = f (smp S i).
Proof. intros H. unfold smp. rewrite <- (map_nth f). apply nth_indep. rewrite map_length. exact H. Qed.
Lemma rotation_dot Q u w : rotation Q -> v3_dot (m3_mulv Q u) (m3_mulv Q w) = v3_dot u w.
Proof. intros H. apply rows_orth, left_right_inverse, H. Qed.
Lemma rotation_norm Q u : rotation Q -> v3_norm (m3_mulv Q u) = v3_norm u.
Proof. intros H. unfold v3_norm. rewrite rotation_dot by exact H. reflexivity. Qed.
Lemma away_rigid Q t S q i : (i < length S)%nat -> away (map (move_sample Q t) S) (rigid Q t q) i = m3_mulv Q (away S q i).
Proof.
  intros H. unfold away. rewrite smp_map by exact H. cbn [s_pos move_sample]. generalize (s_pos (smp S i)). intros p.
  unfold rigid. destruct Q as [[a1 a2 a3] [b1 b2 b3] [c1 c2 c3]], t as [t1 t2 t3], q as [q1 q2 q3], p as [p1 p2 p3]. apply v3_eq; cbv [v3_sub v3_add m3_mulv v3_dot vx vy vz r0 r1 r2]; ring.
Qed.
Lemma fold_closest_ext S S' q q' l : forall a, (In a l \/ True) -> (forall i, In i (a :: l) -> dist2 S q i = dist2 S' q' i) ->
  fold_left (fun best j => if Rlt_dec (dist2 S q j) (dist2 S q best) then j else best) l a =
  fold_left (fun best j => if Rlt_dec (dist2 S' q' j) (dist2 S' q' best) then j else best) l a.
Proof.
  induction l as [|b l IH]; intros a _ H; simpl; [reflexivity|].
  rewrite <- (H b) by (right; left; reflexivity). rewrite <- (H a) by (left; reflexivity).
  destruct (Rlt_dec (dist2 S q b) (dist2 S q a)); apply IH; auto; intros i [<-|Hi]; apply H; simpl; auto.
Qed.
Lemma closest_ext S S' q q' view : (forall i, In i view -> dist2 S q i = dist2 S' q' i) -> closest_sample q S view = closest_sample q' S' view.
Proof. destruct view as [|a l]; [reflexivity|]. intros H. simpl. f_equal. apply fold_closest_ext; auto. Qed.
Lemma potential_rigid Q t q S view k P v : rotation Q -> (forall i, In i view -> (i < length S)%nat) ->
  potential_at (rigid Q t q) (map (move_sample Q t) S) view k P v = potential_at q S view k P v.
Proof.
  intros HQ HV. set (S' := map (move_sample Q t) S). set (q' := rigid Q t q).
  assert (A : forall i, In i view -> away S' q' i = m3_mulv Q (away S q i)) by (intros i Hi; apply away_rigid; auto).
  assert (D : forall i, In i view -> dist2 S' q' i = dist2 S q i).
  { intros i Hi. unfold dist2, norm2. fold (away S' q' i). fold (away S q i). rewrite A by exact Hi. apply rotation_dot, HQ. }
  destruct (closest_sample q S view) as [c|] eqn:C.
  - assert (C' : closest_sample q' S' view = Some c) by (rewrite <- C; apply closest_ext; exact D).
    rewrite (potential_form _ _ _ _ _ _ _ C), (potential_form _ _ _ _ _ _ _ C').
    assert (IC : In c view) by (apply (closest_in _ _ _ _ C)).
    apply form_ext; auto.
    + intros i Hi. rewrite A by exact Hi. apply rotation_norm, HQ.
    + intros i Hi. unfold plane_value. rewrite A by exact Hi. unfold S'. rewrite smp_map by auto. cbn [s_nml s_value move_sample].
      rewrite rotation_dot, rotation_norm by exact HQ. reflexivity.
    + f_equal. rewrite A by exact IC. unfold S'. rewrite smp_map by auto. cbn [s_nml move_sample]. apply rotation_dot, HQ.
  - assert (C' : closest_sample q' S' view = None) by (rewrite <- C; apply closest_ext; exact D).
    unfold potential_at, bg_local. rewrite C, C'. reflexivity.
Qed.
(** ** Reversed normals *)
Lemma potential_reverse q S view k P v : (forall i, In i view -> (i < length S)%nat /\ s_value (smp S i) = 0) ->
  (p_type P = FDistance -> forall i, In i view -> v3_dot (s_nml (smp S i)) (away S q i) <> 0) ->
  potential_at q (reverse S) view k P (- v) = - potential_at q S view k P v.
Proof.
  intros HV SD. set (S' := reverse S).
  assert (SM : forall i, In i view -> smp S' i = Sample (s_pos (smp S i)) (v3_neg (s_nml (smp S i))) (s_vel (smp S i)) (s_value (smp S i))).
  { intros i Hi. unfold S', reverse. rewrite smp_map by (apply HV; exact Hi). reflexivity. }
  assert (A : forall i, In i view -> away S' q i = away S q i) by (intros i Hi; unfold away; rewrite SM by exact Hi; reflexivity).
  assert (D : forall i, In i view -> dist2 S' q i = dist2 S q i).
  { intros i Hi. unfold dist2. fold (away S' q i). fold (away S q i). rewrite A by exact Hi. reflexivity. }
  destruct (closest_sample q S view) as [c|] eqn:C.
  - assert (C' : closest_sample q S' view = Some c) by (rewrite <- C; apply closest_ext; exact D).
    rewrite (potential_form _ _ _ _ _ _ _ C), (potential_form _ _ _ _ _ _ _ C').
    assert (IC : In c view) by (apply (closest_in _ _ _ _ C)).
    assert (PV : forall i, In i view -> plane_value S' q i = - plane_value S q i).
    { intros i Hi. unfold plane_value. rewrite A, SM by exact Hi. cbn [s_nml s_value]. rewrite (proj2 (HV i Hi)), dot_neg_l.
      assert (NN : v3_norm (v3_neg (s_nml (smp S i))) = v3_norm (s_nml (smp S i))).
      { unfold v3_norm. f_equal. generalize (s_nml (smp S i)). intros x. destruct x. unv. ring. }
      rewrite NN. unfold Rdiv. ring. }
    assert (FV : fval P (- v) (v3_norm (away S q c)) (v3_dot (s_nml (smp S' c)) (away S' q c)) = - fval P v (v3_norm (away S q c)) (v3_dot (s_nml (smp S c)) (away S q c))).
    { unfold fval. destruct (p_type P) eqn:T; [ring|ring|]. rewrite A, SM by exact IC. cbn [s_nml]. rewrite dot_neg_l.
      pose proof (SD eq_refl c IC) as N. set (x := v3_dot (s_nml (smp S c)) (away S q c)) in *.
      destruct (Rdichotomy _ _ N) as [L|L]; [rewrite (signum_neg x), (signum_pos (- x)) by lra|rewrite (signum_pos x), (signum_neg (- x)) by lra]; ring. }
    transitivity (form k P (- v) view (fun i => v3_norm (away S q i)) (fun i => - plane_value S q i) c (v3_dot (s_nml (smp S' c)) (away S' q c))).
    + apply form_ext; auto. intros i Hi. rewrite A by exact Hi. reflexivity.
    + unfold form. cbv zeta. rewrite FV.
      rewrite (rsum_ext (fun i => k_f (with_closest k (v3_norm (away S q c))) (v3_norm (away S q i)) * - plane_value S q i) (fun i => (-1) * (k_f (with_closest k (v3_norm (away S q c))) (v3_norm (away S q i)) * plane_value S q i)) view) by (intros i Hi; ring).
      rewrite rsum_scale. ring.
  - assert (C' : closest_sample q S' view = None) by (rewrite <- C; apply closest_ext; exact D).
    unfold potential_at, bg_local. rewrite C, C'. reflexivity.
Qed.
