(** Lemmas about the contact Jacobian and contact frames. *)
From Coq Require Import Reals List Arith Lia Lra Psatz.
From Verif Require Import Vec3 Mat3 RList FrictionModel FrictionSpec FrictionProofs ContactJacModel ContactJacSpec.
Import ListNotations.
Local Open Scope R_scope.

Ltac v3_ring := unfold v3_dot, v3_sub, v3_add, v3_scale, v3_neg, v3_cross, v3_0 in *; simpl; ring.

Lemma dot_sum_l (l : list v3) (w : v3) : v3_dot (v3_sum l) w = rsum (map (fun x => v3_dot x w) l).
Proof. induction l as [|a l IH]; simpl; [rewrite rsum_nil; v3_ring|]. rewrite rsum_cons, <- IH. v3_ring. Qed.
Lemma dot_comm (a b : v3) : v3_dot a b = v3_dot b a.
Proof. v3_ring. Qed.
Lemma dot_adj (B : m3) (a b : v3) : v3_dot (m3_mulv B a) b = v3_dot a (m3_mulv (m3_transpose B) b).
Proof. unfold m3_mulv, m3_transpose, v3_dot; simpl. ring. Qed.
Lemma dot_0_l (a : v3) : v3_dot v3_0 a = 0.
Proof. v3_ring. Qed.
Lemma dot_0_r (a : v3) : v3_dot a v3_0 = 0.
Proof. v3_ring. Qed.

Lemma dot_scale2 (s : R) (a : v3) : v3_dot (v3_scale s a) (v3_scale s a) = s * s * v3_dot a a.
Proof. v3_ring. Qed.
Lemma dot_scale_r (s : R) (a b : v3) : v3_dot a (v3_scale s b) = s * v3_dot a b.
Proof. v3_ring. Qed.

Lemma at3_map_seq (f : nat -> v3) (n i : nat) : (i < n)%nat -> at3 (map f (seq 0 n)) i = f i.
Proof.
  intros Hi. unfold at3. rewrite nth_indep with (d' := f O) by (rewrite map_length, seq_length; exact Hi).
  rewrite map_nth, seq_nth by exact Hi. reflexivity.
Qed.
Lemma at3_map (f : nat -> v3) (l : list nat) (i : nat) : (i < length l)%nat -> at3 (map f l) i = f (nth i l O).
Proof. intros Hi. unfold at3. rewrite nth_indep with (d' := f O) by (rewrite map_length; exact Hi). apply map_nth. Qed.

(** ** Sparse products *)
Definition bilinear (m : list block) (x y : list v3) : R :=
  rsum (map (fun b => match b with (i, j, B) => v3_dot (m3_mulv B (at3 x j)) (at3 y i) end) m).
Lemma rsum_if_seq (n i : nat) (f : nat -> R) : (i < n)%nat ->
  rsum (map (fun k => if Nat.eqb i k then f k else 0) (seq 0 n)) = f i.
Proof.
  intros Hi. rewrite <- (rsum_seq_single f n i Hi). apply rsum_ext. intros k _. rewrite Nat.eqb_sym. reflexivity.
Qed.
Lemma sparse_mul_inner (m : list block) (n : nat) (x y : list v3) :
  (forall b, In b m -> (fst (fst b) < n)%nat) -> inner n (sparse_mul m n x) y = bilinear m x y.
Proof.
  intros H. unfold inner, sparse_mul, bilinear.
  rewrite (rsum_ext _ (fun r => rsum (map (fun b => match b with (i, j, B) =>
      if Nat.eqb i r then v3_dot (m3_mulv B (at3 x j)) (at3 y r) else 0 end) m))).
  - rewrite rsum_swap. apply rsum_ext. intros [[i j] B] Hb. specialize (H _ Hb). simpl in H.
    rewrite (rsum_if_seq n i (fun r => v3_dot (m3_mulv B (at3 x j)) (at3 y r)) H). reflexivity.
  - intros r Hr. apply in_seq in Hr. rewrite at3_map_seq by lia. rewrite dot_sum_l, map_map. apply rsum_ext.
    intros [[i j] B] _. destruct (Nat.eqb i r); [reflexivity|apply dot_0_l].
Qed.
Lemma sparse_tmul_inner (m : list block) (n : nat) (x y : list v3) :
  (forall b, In b m -> (snd (fst b) < n)%nat) -> inner n x (sparse_tmul m n y) = bilinear m x y.
Proof.
  intros H. unfold inner, sparse_tmul, bilinear.
  rewrite (rsum_ext _ (fun c => rsum (map (fun b => match b with (i, j, B) =>
      if Nat.eqb j c then v3_dot (at3 x c) (m3_mulv (m3_transpose B) (at3 y i)) else 0 end) m))).
  - rewrite rsum_swap. apply rsum_ext. intros [[i j] B] Hb. specialize (H _ Hb). simpl in H.
    rewrite (rsum_if_seq n j (fun c => v3_dot (at3 x c) (m3_mulv (m3_transpose B) (at3 y i))) H). symmetry. apply dot_adj.
  - intros r Hr. apply in_seq in Hr. rewrite at3_map_seq by lia. rewrite dot_comm, dot_sum_l, map_map. apply rsum_ext.
    intros [[i j] B] _. destruct (Nat.eqb j r); [apply dot_comm|apply dot_0_l].
Qed.

(** ** Assignment loops *)
Lemma set_at_length (l : list v3) (i : nat) (w : v3) : length (set_at l i w) = length l.
Proof. revert i. induction l as [|a l IH]; intros [|i]; simpl; auto. Qed.
Lemma at3_set_same (l : list v3) (i : nat) (w : v3) : (i < length l)%nat -> at3 (set_at l i w) i = w.
Proof. revert i. induction l as [|a l IH]; intros [|i] H; simpl in *; try lia; [reflexivity|]. apply IH. lia. Qed.
Lemma at3_set_other (l : list v3) (i j : nat) (w : v3) : i <> j -> at3 (set_at l i w) j = at3 l j.
Proof.
  revert i j. induction l as [|a l IH]; intros [|i] [|j] H; simpl; try reflexivity; try lia. unfold at3 in *; simpl. apply IH. lia.
Qed.
Definition assign (l : list v3) (ps : list (nat * v3)) : list v3 := fold_left (fun v p => set_at v (fst p) (snd p)) ps l.
Lemma assign_length (l : list v3) (ps : list (nat * v3)) : length (assign l ps) = length l.
Proof. revert l. induction ps as [|p ps IH]; intros l; simpl; [reflexivity|]. unfold assign in *; simpl. rewrite IH. apply set_at_length. Qed.
Lemma assign_other (l : list v3) (ps : list (nat * v3)) (j : nat) : ~ In j (map fst ps) -> at3 (assign l ps) j = at3 l j.
Proof.
  revert l. induction ps as [|p ps IH]; intros l H; simpl; [reflexivity|]. unfold assign in *; simpl. simpl in H. rewrite IH by tauto.
  apply at3_set_other. tauto.
Qed.
Lemma rsum_single_change (n i : nat) (f g : nat -> R) : (i < n)%nat -> (forall k, k <> i -> f k = g k) ->
  rsum (map f (seq 0 n)) = rsum (map g (seq 0 n)) + (f i - g i).
Proof.
  intros Hi H.
  rewrite <- (rsum_seq_single (fun k => f k - g k) n i Hi), <- rsum_plus. apply rsum_ext. intros k _.
  destruct (Nat.eqb_spec k i); [subst; ring|]. rewrite (H k n0). ring.
Qed.
Lemma inner_set (n : nat) (x l : list v3) (i : nat) (w : v3) : (i < n)%nat -> length l = n -> at3 l i = v3_0 ->
  inner n x (set_at l i w) = inner n x l + v3_dot (at3 x i) w.
Proof.
  intros Hi Hl H0. unfold inner.
  rewrite (rsum_single_change n i (fun k => v3_dot (at3 x k) (at3 (set_at l i w) k)) (fun k => v3_dot (at3 x k) (at3 l k)) Hi).
  - rewrite at3_set_same by lia. rewrite H0, dot_0_r. ring.
  - intros k Hk. rewrite at3_set_other by auto. reflexivity.
Qed.
Lemma inner_assign (n : nat) (x : list v3) (ps : list (nat * v3)) : forall l, length l = n -> NoDup (map fst ps) ->
  (forall i, In i (map fst ps) -> (i < n)%nat /\ at3 l i = v3_0) ->
  inner n x (assign l ps) = inner n x l + rsum (map (fun p => v3_dot (at3 x (fst p)) (snd p)) ps).
Proof.
  induction ps as [|[i w] ps IH]; intros l Hl Hnd H; simpl.
  - rewrite rsum_nil, Rplus_0_r. reflexivity.
  - inversion Hnd as [|? ? Hni Hnd']; subst. unfold assign in *; simpl.
    destruct (H i (or_introl eq_refl)) as [Hi H0].
    rewrite IH; [|rewrite set_at_length; reflexivity|exact Hnd'|].
    + rewrite inner_set by (auto; lia). rewrite rsum_cons. simpl. ring.
    + intros j Hj. destruct (H j (or_intror Hj)) as [Hjn Hj0]. split; [exact Hjn|].
      rewrite at3_set_other; [exact Hj0|]. intros E. subst. contradiction.
Qed.
Lemma at3_repeat (n i : nat) : at3 (repeat v3_0 n) i = v3_0.
Proof. revert i. induction n as [|n IH]; intros [|i]; simpl; try reflexivity. apply IH. Qed.
Lemma inner_zero (n m : nat) (x : list v3) : inner n x (repeat v3_0 m) = 0.
Proof. unfold inner. apply rsum_zero. intros i _. rewrite at3_repeat. apply dot_0_r. Qed.

Lemma map_fst_combine {A B} (l : list A) (m : list B) : length l = length m -> map fst (combine l m) = l.
Proof. revert m. induction l as [|a l IH]; intros [|b m] H; simpl in *; try lia; [reflexivity|]. f_equal. apply IH. lia. Qed.
Lemma rsum_combine_seq (f : nat -> v3 -> R) (l : list nat) : forall m, length l = length m ->
  rsum (map (fun p => f (fst p) (snd p)) (combine l m)) = rsum (map (fun k => f (nth k l O) (at3 m k)) (seq 0 (length l))).
Proof.
  induction l as [|a l IH]; intros [|b m] H; simpl in *; try lia; [reflexivity|].
  rewrite !rsum_cons. rewrite IH by lia. f_equal. rewrite <- seq_shift, map_map. reflexivity.
Qed.

Lemma contact_adjoint (c : contact_maps) (v vc : list v3) (n : nat) :
  maps_in_range c n -> maps_separate c -> length v = n -> length vc = length (cm_constrained c) ->
  inner (length (cm_constrained c)) (contact_mul c v) vc = inner n v (contact_tmul c vc n).
Proof.
  intros (Hm & Hs & Hc & Hk) (Ns & Nc & Nk & Hd) Hv Hvc.
  set (m := cm_matrix c) in *. set (K := cm_constrained c) in *. set (S := cm_surface c) in *. set (C := cm_collider c) in *.
  set (surf_v := map (at3 v) S).
  assert (Lmul : inner (length K) (contact_mul c v) vc =
      bilinear m surf_v vc - rsum (map (fun k => v3_dot (at3 v (nth (nth k K O) C O)) (at3 vc k)) (seq 0 (length K)))).
  { rewrite <- (sparse_mul_inner m (length K)) by (intros b Hb; apply (Hm b Hb)).
    unfold inner. unfold Rminus. rewrite <- (Rmult_1_l (rsum (map (fun k => v3_dot (at3 v _) _) _))), <- Ropp_mult_distr_l_reverse, <- rsum_scale, <- rsum_plus.
    apply rsum_ext. intros r Hr. apply in_seq in Hr.
    assert (Hlen : length (sparse_mul m (length K) surf_v) = length K) by (unfold sparse_mul; rewrite map_length, seq_length; reflexivity).
    assert (E : at3 (contact_mul c v) r = v3_sub (at3 (sparse_mul m (length K) surf_v) r) (at3 v (nth (nth r K O) C O))).
    { unfold contact_mul. fold m K S C surf_v. unfold at3 at 1.
      rewrite nth_indep with (d' := v3_sub v3_0 (at3 v (nth O C O))).
      2:{ rewrite map_length, combine_length, Hlen, map_length. lia. }
      pose (F := fun p : v3 * v3 => v3_sub (fst p) (snd p)).
      change (nth r (map F (combine (sparse_mul m (length K) surf_v) (map (at3 (map (at3 v) C)) K))) (F (v3_0, at3 v (nth O C O))) =
        v3_sub (at3 (sparse_mul m (length K) surf_v) r) (at3 v (nth (nth r K O) C O))).
      rewrite map_nth. unfold F. rewrite combine_nth by (rewrite Hlen, map_length; reflexivity). simpl. f_equal.
      rewrite nth_indep with (d' := at3 (map (at3 v) C) O) by (rewrite map_length; lia).
      rewrite map_nth. apply at3_map. apply Hk. apply nth_In. lia. }
    rewrite E. v3_ring. }
  assert (Ltmul : inner n v (contact_tmul c vc n) =
      bilinear m surf_v vc - rsum (map (fun k => v3_dot (at3 v (nth (nth k K O) C O)) (at3 vc k)) (seq 0 (length K)))).
  { unfold contact_tmul. fold m K S C. set (sv := sparse_tmul m (length S) vc).
    assert (Hsv : length S = length sv) by (unfold sv, sparse_tmul; rewrite map_length, seq_length; reflexivity).
    fold (assign (repeat v3_0 n) (combine S sv)).
    assert (E : forall l, fold_left (fun (v : list v3) (p : nat * v3) => set_at v (nth (fst p) C O) (v3_neg (snd p))) (combine K vc) l
      = assign l (map (fun p => (nth (fst p) C O, v3_neg (snd p))) (combine K vc))).
    { intros l. unfold assign. revert l. generalize (combine K vc) as ps. induction ps as [|p ps IH]; intros l; simpl; [reflexivity|apply IH]. }
    rewrite E.
    assert (F2 : map fst (map (fun p : nat * v3 => (nth (fst p) C O, v3_neg (snd p))) (combine K vc)) = map (fun k => nth k C O) K).
    { rewrite map_map. simpl. rewrite <- (map_fst_combine K vc) at 2 by (symmetry; exact Hvc). rewrite map_map. reflexivity. }
    assert (ND2 : NoDup (map (fun k => nth k C O) K)).
    { clear - Nk Nc Hk. revert Nk Hk. generalize K as L. induction L as [|a L IH]; intros NL HL; simpl; [constructor|].
      inversion NL as [|? ? Ha NL']; subst. constructor; [|apply IH; [exact NL'|intros i Hi; apply HL; right; exact Hi]].
      intros Hin. apply in_map_iff in Hin. destruct Hin as (b & Hb1 & Hb2).
      assert (b = a). { apply (proj1 (NoDup_nth C O) Nc b a); [apply HL; right; exact Hb2|apply HL; left; reflexivity|exact Hb1]. }
      subst. contradiction. }
    rewrite inner_assign.
    - rewrite inner_assign.
      + rewrite inner_zero, Rplus_0_l. rewrite map_map. simpl.
        rewrite (rsum_combine_seq (fun i w => v3_dot (at3 v i) w) S sv Hsv).
        rewrite (rsum_combine_seq (fun i w => v3_dot (at3 v (nth i C O)) (v3_neg w)) K vc) by (symmetry; exact Hvc).
        rewrite <- (sparse_tmul_inner m (length S)) by (intros b Hb; apply (Hm b Hb)).
        fold sv. unfold inner, Rminus. f_equal.
        * apply rsum_ext. intros k Hk'. apply in_seq in Hk'. unfold surf_v. rewrite at3_map by lia. reflexivity.
        * rewrite <- (Rmult_1_l (rsum (map (fun k => v3_dot (at3 v (nth (nth k K O) C O)) (at3 vc k)) (seq 0 (length K))))), <- Ropp_mult_distr_l_reverse, <- rsum_scale. apply rsum_ext. intros k _. v3_ring.
      + apply repeat_length.
      + rewrite map_fst_combine by exact Hsv. exact Ns.
      + rewrite map_fst_combine by exact Hsv. intros i Hi. split; [apply Hs; exact Hi|apply at3_repeat].
    - rewrite assign_length. apply repeat_length.
    - rewrite F2. exact ND2.
    - rewrite F2. intros i Hi. apply in_map_iff in Hi. destruct Hi as (k & Hk1 & Hk2). subst i.
      assert (Hin : In (nth k C O) C) by (apply nth_In, Hk; exact Hk2).
      split; [apply Hc; exact Hin|]. rewrite assign_other; [apply at3_repeat|].
      rewrite map_fst_combine by exact Hsv. intros Hs'. exact (Hd _ Hs' Hin). }
  rewrite Lmul, Ltmul. reflexivity.
Qed.

(** ** Frames *)
Lemma frame_round_trip (f : frame) (v : v3) : orthonormal f ->
  from_contact_coordinates f (to_contact_coordinates f v) = v /\ to_contact_coordinates f (from_contact_coordinates f v) = v.
Proof.
  intros (Hn & Ht & Hnt). destruct f as [[n0 n1 n2] [t0 t1 t2]], v as [x y z].
  unfold from_contact_coordinates, to_contact_coordinates, contact_basis_matrix, m3_mulv, m3_transpose, v3_cross, v3_dot in *; simpl in *.
  set (b0 := n1 * t2 - n2 * t1). set (b1 := n2 * t0 - n0 * t2). set (b2 := n0 * t1 - n1 * t0).
  assert (Bn : n0 * b0 + n1 * b1 + n2 * b2 = 0) by (unfold b0, b1, b2; ring).
  assert (Bt : t0 * b0 + t1 * b1 + t2 * b2 = 0) by (unfold b0, b1, b2; ring).
  assert (BB : b0 * b0 + b1 * b1 + b2 * b2 = 1).
  { replace (b0 * b0 + b1 * b1 + b2 * b2) with ((n0*n0+n1*n1+n2*n2)*(t0*t0+t1*t1+t2*t2) - (n0*t0+n1*t1+n2*t2)*(n0*t0+n1*t1+n2*t2))
      by (unfold b0, b1, b2; ring). rewrite Hn, Ht, Hnt. ring. }
  (* rows orthonormal implies columns orthonormal *)
  assert (C : n0*n0+t0*t0+b0*b0 = 1 /\ n1*n1+t1*t1+b1*b1 = 1 /\ n2*n2+t2*t2+b2*b2 = 1 /\
              n0*n1+t0*t1+b0*b1 = 0 /\ n0*n2+t0*t2+b0*b2 = 0 /\ n1*n2+t1*t2+b1*b2 = 0).
  { assert (b0b0 : b0*b0 = (n1*n1+n2*n2)*(t1*t1+t2*t2) - (n1*t1+n2*t2)*(n1*t1+n2*t2)) by (unfold b0; ring).
    assert (b1b1 : b1*b1 = (n2*n2+n0*n0)*(t2*t2+t0*t0) - (n2*t2+n0*t0)*(n2*t2+n0*t0)) by (unfold b1; ring).
    assert (b2b2 : b2*b2 = (n0*n0+n1*n1)*(t0*t0+t1*t1) - (n0*t0+n1*t1)*(n0*t0+n1*t1)) by (unfold b2; ring).
    assert (E1 : n1*n1+n2*n2 = 1-n0*n0) by lra. assert (E2 : t1*t1+t2*t2 = 1-t0*t0) by lra. assert (E3 : n1*t1+n2*t2 = -(n0*t0)) by lra.
    assert (E4 : n2*n2+n0*n0 = 1-n1*n1) by lra. assert (E5 : t2*t2+t0*t0 = 1-t1*t1) by lra. assert (E6 : n2*t2+n0*t0 = -(n1*t1)) by lra.
    assert (E7 : n0*n0+n1*n1 = 1-n2*n2) by lra. assert (E8 : t0*t0+t1*t1 = 1-t2*t2) by lra. assert (E9 : n0*t0+n1*t1 = -(n2*t2)) by lra.
    rewrite E1, E2, E3 in b0b0. rewrite E4, E5, E6 in b1b1. rewrite E7, E8, E9 in b2b2.
    repeat split; try nra.
    - assert (E : b0*b1 = n0*t0*(n1*t2*0) + (n1*t2-n2*t1)*(n2*t0-n0*t2)) by (unfold b0, b1; ring).
      replace ((n1*t2-n2*t1)*(n2*t0-n0*t2)) with (n1*t0*(n2*t2) - n0*n1*(t2*t2) - t0*t1*(n2*n2) + n0*t1*(n2*t2)) in E by ring.
      replace (n2*t2) with (-(n0*t0+n1*t1)) in E by lra. replace (t2*t2) with (1-t0*t0-t1*t1) in E by lra.
      replace (n2*n2) with (1-n0*n0-n1*n1) in E by lra. rewrite E. ring.
    - assert (E : b0*b2 = n1*t2*(n0*t1) - n1*n1*(t0*t2) - n0*n2*(t1*t1) + n2*t0*(n1*t1)) by (unfold b0, b2; ring).
      replace (n1*t2*(n0*t1)) with (n0*t2*(n1*t1)) in E by ring.
      replace (n1*t1) with (-(n0*t0+n2*t2)) in E by lra. replace (n1*n1) with (1-n0*n0-n2*n2) in E by lra.
      replace (t1*t1) with (1-t0*t0-t2*t2) in E by lra. rewrite E. ring.
    - assert (E : b1*b2 = n2*t1*(n0*t0) - n1*n2*(t0*t0) - t1*t2*(n0*n0) + n1*t2*(n0*t0)) by (unfold b1, b2; ring).
      replace (n0*t0) with (-(n1*t1+n2*t2)) in E by lra. replace (t0*t0) with (1-t1*t1-t2*t2) in E by lra.
      replace (n0*n0) with (1-n1*n1-n2*n2) in E by lra. rewrite E. ring. }
  destruct C as (C00 & C11 & C22 & C01 & C02 & C12). split; f_equal.
  - transitivity (x*(n0*n0+t0*t0+b0*b0) + y*(n0*n1+t0*t1+b0*b1) + z*(n0*n2+t0*t2+b0*b2)); [ring|rewrite C00, C01, C02; ring].
  - transitivity (x*(n0*n1+t0*t1+b0*b1) + y*(n1*n1+t1*t1+b1*b1) + z*(n1*n2+t1*t2+b1*b2)); [ring|rewrite C11, C01, C12; ring].
  - transitivity (x*(n0*n2+t0*t2+b0*b2) + y*(n1*n2+t1*t2+b1*b2) + z*(n2*n2+t2*t2+b2*b2)); [ring|rewrite C22, C12, C02; ring].
  - transitivity (x*(n0*n0+n1*n1+n2*n2) + y*(n0*t0+n1*t1+n2*t2) + z*(n0*b0+n1*b1+n2*b2)); [ring|rewrite Hn, Hnt, Bn; ring].
  - transitivity (x*(n0*t0+n1*t1+n2*t2) + y*(t0*t0+t1*t1+t2*t2) + z*(t0*b0+t1*b1+t2*b2)); [ring|rewrite Hnt, Ht, Bt; ring].
  - transitivity (x*(n0*b0+n1*b1+n2*b2) + y*(t0*b0+t1*b1+t2*b2) + z*(b0*b0+b1*b1+b2*b2)); [ring|rewrite Bn, Bt, BB; ring].
Qed.
Lemma frame_adjoint (f : frame) (v w : v3) :
  v3_dot (to_contact_coordinates f v) w = v3_dot v (from_contact_coordinates f w).
Proof. apply dot_adj. Qed.
Lemma frame_isometry (f : frame) (v w : v3) : orthonormal f ->
  v3_dot (to_contact_coordinates f v) (to_contact_coordinates f w) = v3_dot v w.
Proof. intros H. rewrite frame_adjoint. f_equal. apply frame_round_trip. exact H. Qed.
Lemma project_out_spec (f : frame) (v : v3) : orthonormal f ->
  v3_dot (fr_normal f) (project_out_normal (fr_normal f) v) = 0 /\
  project_out_normal (fr_normal f) (project_out_normal (fr_normal f) v) = project_out_normal (fr_normal f) v /\
  project_out_normal (fr_normal f) v = from_tangent_space f (to_tangent_space f v).
Proof.
  intros H. assert (Hn := proj1 H). set (n := fr_normal f) in *.
  assert (P0 : forall w, v3_dot n (project_out_normal n w) = 0).
  { intros w. transitivity (v3_dot n w - v3_dot n w * v3_dot n n); [unfold project_out_normal; v3_ring|rewrite Hn; ring]. }
  split; [apply P0|]. split.
  - unfold project_out_normal at 1. rewrite P0. generalize (project_out_normal n v). intros w. destruct w. unfold v3_sub, v3_scale; simpl. f_equal; ring.
  - destruct (frame_round_trip f v H) as [R1 _].
    transitivity (v3_sub (from_contact_coordinates f (to_contact_coordinates f v)) (v3_scale (v3_dot n v) n)).
    + rewrite R1. reflexivity.
    + unfold from_tangent_space, to_tangent_space, from_contact_coordinates. set (c := to_contact_coordinates f v).
      assert (Ec : v3_dot n v = vx c) by reflexivity. rewrite Ec.
      unfold m3_mulv, m3_transpose, contact_basis_matrix, v3_sub, v3_scale, v3_dot; simpl. fold n. f_equal; ring.
Qed.

Lemma frame_from_normal_ok (n : v3) (imax : nat) : v3_dot n n = 1 -> (imax < 3)%nat ->
  (forall j, (j < 3)%nat -> Rabs (v3_get n j) <= Rabs (v3_get n imax)) ->
  let a := Nat.modulo (imax + 1) 3 in
  v3_norm (v3_sub (axis a) (v3_scale (v3_get n a) n)) <> 0 /\ orthonormal (frame_from_normal n imax).
Proof.
  intros Hn Hi Hmax a. set (t := v3_sub (axis a) (v3_scale (v3_get n a) n)).
  assert (Hsq : forall j, (j < 3)%nat -> v3_get n j * v3_get n j <= v3_get n imax * v3_get n imax).
  { intros j Hj. specialize (Hmax j Hj). apply Rsqr_le_abs_1 in Hmax. exact Hmax. }
  assert (Ha : (a < 3)%nat) by (apply Nat.mod_upper_bound; lia).
  assert (Haeq : v3_dot n (axis a) = v3_get n a /\ v3_dot (axis a) (axis a) = 1).
  { destruct a as [|[|[|a']]]; try lia; unfold v3_dot, axis, v3_get; simpl; split; ring. }
  destruct Haeq as [Ea1 Ea2].
  assert (Htt : v3_dot t t = 1 - v3_get n a * v3_get n a).
  { transitivity (v3_dot (axis a) (axis a) - 2 * v3_get n a * v3_dot n (axis a) + v3_get n a * v3_get n a * v3_dot n n);
      [unfold t; v3_ring|rewrite Ea1, Ea2, Hn; ring]. }
  assert (Hnt : v3_dot n t = 0).
  { transitivity (v3_dot n (axis a) - v3_get n a * v3_dot n n); [unfold t; v3_ring|rewrite Ea1, Hn; ring]. }
  assert (Hpos : 0 < v3_dot t t).
  { rewrite Htt. pose proof (Hsq a Ha) as H1.
    assert (Hsum : v3_get n a * v3_get n a + v3_get n imax * v3_get n imax <= 1).
    { clear - Hn Hi. unfold a. rewrite <- Hn. unfold v3_dot.
      destruct imax as [|[|[|k]]]; try lia; simpl; nra. }
    lra. }
  assert (Hnorm : 0 < v3_norm t) by (apply sqrt_lt_R0; exact Hpos).
  split; [lra|]. assert (Etan : tangent_from_normal n imax = v3_scale (/ v3_norm t) t) by reflexivity.
  unfold orthonormal, frame_from_normal. cbn [fr_normal fr_tangent]. rewrite Etan. clearbody t.
  split; [exact Hn|]. split.
  - rewrite dot_scale2.
    assert (E : v3_dot t t = v3_norm t * v3_norm t) by (unfold v3_norm; rewrite sqrt_sqrt; lra). rewrite E. field. lra.
  - rewrite dot_scale_r, Hnt. ring.
Qed.
Lemma binormal_right_handed (f : frame) : orthonormal f -> m3_det (contact_basis_matrix f) = 1.
Proof.
  intros (Hn & Ht & Hnt). unfold m3_det, contact_basis_matrix; simpl.
  transitivity (v3_dot (fr_normal f) (fr_normal f) * v3_dot (fr_tangent f) (fr_tangent f) - v3_dot (fr_normal f) (fr_tangent f) * v3_dot (fr_normal f) (fr_tangent f)).
  - v3_ring.
  - rewrite Hn, Ht, Hnt. ring.
Qed.

(** ** Sparse basis matrices *)
Definition comp (v : v3) (i : nat) : R := v3_get v i.
Lemma fold_right_app_plus (l m : list R) : fold_right Rplus 0 (l ++ m) = fold_right Rplus 0 l + fold_right Rplus 0 m.
Proof. induction l as [|a l IH]; simpl; [ring|rewrite IH; ring]. Qed.
Lemma triplets_row_app (l m : list triplet) (x : nat -> R) (r : nat) : triplets_row (l ++ m) x r = triplets_row l x r + triplets_row m x r.
Proof. unfold triplets_row. rewrite map_app. apply fold_right_app_plus. Qed.
(** A generator whose triplets of contact [k] lie in rows [3k, 3k+3). *)
Definition block_rows (g : nat -> frame -> list triplet) : Prop :=
  forall k f t, In t (g k f) -> (3 * k <= fst (fst t) < 3 * k + 3)%nat.
Lemma triplets_row_out (l : list triplet) (x : nat -> R) (r : nat) : (forall t, In t l -> fst (fst t) <> r) -> triplets_row l x r = 0.
Proof.
  intros H. unfold triplets_row. induction l as [|[[i j] a] l IH]; simpl; [reflexivity|].
  pose proof (H _ (or_introl eq_refl)) as Hn; simpl in Hn. destruct (Nat.eqb_spec i r); [contradiction|].
  rewrite IH; [ring|]. intros t Ht. apply H. right. exact Ht.
Qed.
Lemma all_triplets_rows (g : nat -> frame -> list triplet) (Hg : block_rows g) : forall fs k t,
  In t (all_triplets g k fs) -> (3 * k <= fst (fst t))%nat.
Proof.
  induction fs as [|f fs IH]; intros k t Ht; simpl in Ht; [contradiction|]. apply in_app_or in Ht. destruct Ht as [Ht|Ht].
  - pose proof (Hg _ _ _ Ht). lia.
  - pose proof (IH (S k) t Ht). lia.
Qed.
Lemma all_triplets_row (g : nat -> frame -> list triplet) (Hg : block_rows g) (x : nat -> R) : forall fs k c i d,
  (c < length fs)%nat -> (i < 3)%nat ->
  triplets_row (all_triplets g k fs) x (3 * (k + c) + i) = triplets_row (g (k + c)%nat (nth c fs d)) x (3 * (k + c) + i).
Proof.
  induction fs as [|f fs IH]; intros k c i d Hc Hi; simpl in Hc; [lia|]. simpl all_triplets. rewrite triplets_row_app.
  destruct c as [|c].
  - rewrite Nat.add_0_r. rewrite (triplets_row_out (all_triplets g (S k) fs)); [apply Rplus_0_r|].
    intros t Ht. pose proof (all_triplets_rows g Hg fs (S k) t Ht). lia.
  - rewrite (triplets_row_out (g k f)).
    + replace (k + S c)%nat with (S k + c)%nat by lia. rewrite (IH (S k) c i d) by lia. apply Rplus_0_l.
    + intros t Ht. pose proof (Hg _ _ _ Ht). lia.
Qed.
Lemma normal_rows : block_rows normal_basis_triplets.
Proof. intros k f t Ht. unfold normal_basis_triplets in Ht; simpl in Ht. destruct Ht as [E|[E|[E|[]]]]; subst; simpl; lia. Qed.
Lemma tangent_rows : block_rows tangent_basis_triplets.
Proof. intros k f t Ht. unfold tangent_basis_triplets in Ht; simpl in Ht. destruct Ht as [E|[E|[E|[E|[E|[E|[]]]]]]]; subst; simpl; lia. Qed.

Lemma normal_sprs_ok (fs : list frame) (x : nat -> R) (c i : nat) (d : frame) : (c < length fs)%nat -> (i < 3)%nat ->
  triplets_row (all_triplets normal_basis_triplets 0 fs) x (3 * c + i) = v3_get (from_normal_space (nth c fs d) (x c)) i.
Proof.
  intros Hc Hi. pose proof (all_triplets_row _ normal_rows x fs 0 c i d Hc Hi) as E. rewrite Nat.add_0_l in E. rewrite E. clear E.
  set (f := nth c fs d). unfold normal_basis_triplets, triplets_row. cbn [map fold_right].
  destruct i as [|[|[|i]]]; try lia;
    repeat match goal with |- context [Nat.eqb ?a ?b] => let H := fresh in destruct (Nat.eqb_spec a b) as [H|H]; try lia end;
    unfold from_normal_space, from_contact_coordinates, m3_mulv, m3_transpose, contact_basis_matrix, v3_dot, v3_get; simpl; ring.
Qed.
Lemma tangent_sprs_value (fs : list frame) (x : nat -> R) (c i : nat) (d : frame) : (c < length fs)%nat -> (i < 3)%nat ->
  triplets_row (all_triplets tangent_basis_triplets 0 fs) x (3 * c + i) =
  let f := nth c fs d in let t := fr_tangent f in let b := v3_cross (fr_normal f) (fr_tangent f) in
  let x0 := x (2 * c)%nat in let x1 := x (1 + 2 * c)%nat in
  v3_get (V3 (vx t * x0 + vy t * x1) (vz t * x0 + vx b * x1) (vy b * x0 + vz b * x1)) i.
Proof.
  intros Hc Hi. pose proof (all_triplets_row _ tangent_rows x fs 0 c i d Hc Hi) as E. rewrite Nat.add_0_l in E. rewrite E. clear E.
  set (f := nth c fs d). unfold tangent_basis_triplets, triplets_row. cbn [map fold_right]. cbv zeta.
  destruct i as [|[|[|i]]]; try lia;
    repeat match goal with |- context [Nat.eqb ?a ?b] => let H := fresh in destruct (Nat.eqb_spec a b) as [H|H]; try lia end;
    unfold contact_basis_matrix, v3_get; simpl; ring.
Qed.
Lemma tangent_block_ok (f : frame) (v : v2) : tangent_block_mul f v = from_tangent_space f v.
Proof.
  unfold tangent_block_mul, from_tangent_space, from_contact_coordinates, m3_mulv, m3_transpose, contact_basis_matrix, v3_dot; simpl.
  f_equal; ring.
Qed.
Lemma tangent_sprs_wrong : exists (f : frame) (x : nat -> R),
  orthonormal f /\ triplets_row (all_triplets tangent_basis_triplets 0 [f]) x 1 <> vy (from_tangent_space f (V2 (x 0%nat) (x 1%nat))).
Proof.
  exists {| fr_normal := V3 1 0 0; fr_tangent := V3 0 1 0 |}, (fun j => if Nat.eqb j 0 then 1 else 0). split.
  - unfold orthonormal, v3_dot; simpl. repeat split; ring.
  - pose proof (tangent_sprs_value [{| fr_normal := V3 1 0 0; fr_tangent := V3 0 1 0 |}] (fun j => if Nat.eqb j 0 then 1 else 0) 0 1
      {| fr_normal := V3 1 0 0; fr_tangent := V3 0 1 0 |} ltac:(simpl; lia) ltac:(lia)) as E.
    simpl (3 * 0 + 1)%nat in E. rewrite E. unfold from_tangent_space, from_contact_coordinates, m3_mulv, m3_transpose, contact_basis_matrix, v3_dot; simpl. lra.
Qed.

(** ** Dissipation *)
Lemma inner_map_combine (k : profile_kind) (fp : friction_params) (vc : list v3) : forall (lambda : list R) (frames : list frame),
  valid_params fp -> length lambda = length vc -> length frames = length vc -> List.Forall (fun l => 0 <= l) lambda ->
  inner (length vc) vc (map (contact_friction k fp) (combine vc (combine lambda frames))) <= 0.
Proof.
  intros lambda frames Hfp. revert lambda frames. induction vc as [|a vc IH]; intros [|l lambda] [|f frames] H1 H2 HF; simpl in *; try lia.
  - unfold inner; simpl. rewrite rsum_nil. lra.
  - inversion HF as [|? ? Hl HF']; subst. unfold inner. simpl seq. cbn [map]. rewrite rsum_cons.
    rewrite <- seq_shift, map_map.
    assert (H := IH lambda frames ltac:(lia) ltac:(lia) HF'). unfold inner in H.
    assert (Hd : v3_dot (at3 (a :: vc) 0) (at3 (contact_friction k fp (a, (l, f)) :: map (contact_friction k fp) (combine vc (combine lambda frames))) 0) <= 0).
    { change (v3_dot a (contact_friction k fp (a, (l, f))) <= 0). unfold contact_friction. cbv zeta.
      rewrite <- (frame_adjoint f a). set (c := to_contact_coordinates f a).
      destruct (friction_opposes k (V2 (vy c) (vz c)) l fp Hfp Hl) as (_ & _ & Hdiss & _).
      set (fc := friction_profile k (V2 (vy c) (vz c)) l fp) in *. clearbody c fc.
      replace (v3_dot c (v3_scale (-1) (V3 0 (v2x fc) (v2y fc)))) with (- v2_dot fc (V2 (vy c) (vz c)))
        by (unfold v3_dot, v3_scale, v2_dot; simpl; ring).
      lra. }
    apply Rle_trans with (0 + 0); [|lra]. apply Rplus_le_compat; [exact Hd|exact H].
Qed.
Lemma friction_dissipates (k : profile_kind) (fp : friction_params) (c : contact_maps) (lambda : list R) (frames : list frame) (v : list v3) :
  valid_params fp -> maps_in_range c (length v) -> maps_separate c ->
  length lambda = length (cm_constrained c) -> length frames = length (cm_constrained c) -> List.Forall (fun l => 0 <= l) lambda ->
  inner (length v) v (friction_force k fp c lambda frames v) <= 0.
Proof.
  intros Hfp Hr Hs Hl Hf HF. unfold friction_force.
  assert (Hlen : length (contact_mul c v) = length (cm_constrained c)).
  { unfold contact_mul. rewrite map_length, combine_length, map_length. unfold sparse_mul. rewrite map_length, seq_length. lia. }
  set (fc := map (contact_friction k fp) (combine (contact_mul c v) (combine lambda frames))).
  assert (Hfc : length fc = length (cm_constrained c)).
  { unfold fc. rewrite map_length, !combine_length, Hlen. lia. }
  rewrite <- contact_adjoint by auto. rewrite <- Hlen. apply inner_map_combine; auto; congruence.
Qed.

(** ** A vertex on both sides *)
Definition half_I : m3 := m3_scale (1 / 2) m3_I.
Definition shared_maps : contact_maps :=
  {| cm_matrix := [(O, O, half_I); (O, 1%nat, half_I)]; cm_constrained := [O]; cm_surface := [O; 1%nat]; cm_collider := [O] |}.
Lemma shared_in_range : maps_in_range shared_maps 2.
Proof.
  unfold maps_in_range, shared_maps; simpl. repeat split; intros; repeat match goal with H : _ \/ _ |- _ => destruct H | H : False |- _ => destruct H end;
    subst; simpl; lia.
Qed.
Ltac compute_contact := unfold inner, contact_mul, contact_tmul, sparse_mul, sparse_tmul, v3_sum, shared_maps, half_I, at3, rsum,
  m3_mulv, m3_transpose, m3_scale, m3_I, v3_sub, v3_add, v3_neg, v3_scale, v3_dot, v3_0; simpl.
Lemma shared_not_adjoint : exists (v vc : list v3), length v = 2%nat /\ length vc = 1%nat /\
  inner 1 (contact_mul shared_maps v) vc <> inner 2 v (contact_tmul shared_maps vc 2).
Proof.
  exists [V3 1 0 0; v3_0], [V3 1 0 0]. split; [reflexivity|]. split; [reflexivity|]. compute_contact. lra.
Qed.
Lemma v2_norm_unit : v2_norm (V2 1 0) = 1.
Proof. unfold v2_norm, v2_dot; simpl. replace (1 * 1 + 0 * 0) with 1 by ring. apply sqrt_1. Qed.
Lemma shared_not_dissipative :
  let fp := {| fp_dynamic := 1; fp_static := 1; fp_viscous := 0; fp_stribeck := 0; fp_epsilon := 1 / 2 |} in
  let f := {| fr_normal := V3 1 0 0; fr_tangent := V3 0 1 0 |} in
  let v := [V3 0 4 0; V3 0 6 0] in
  valid_params fp /\ orthonormal f /\ 0 < inner 2 v (friction_force Quadratic fp shared_maps [1] [f] v).
Proof.
  intros fp f v. split; [unfold valid_params; simpl; lra|]. split; [unfold orthonormal, v3_dot; simpl; repeat split; ring|].
  assert (E1 : contact_mul shared_maps v = [V3 0 1 0]) by (unfold v; compute_contact; f_equal; f_equal; lra).
  assert (E2 : contact_friction Quadratic fp (V3 0 1 0, (1, f)) = V3 0 (-1) 0).
  { unfold contact_friction. cbv zeta.
    assert (C : to_contact_coordinates f (V3 0 1 0) = V3 0 1 0).
    { unfold to_contact_coordinates, contact_basis_matrix, m3_mulv, v3_cross, v3_dot, f; simpl. f_equal; ring. }
    rewrite C. simpl vy. simpl vz.
    assert (P : friction_profile Quadratic (V2 1 0) 1 fp = V2 1 0).
    { unfold friction_profile. cbv zeta. rewrite v2_norm_unit. unfold sliding_profile, falloff, fp; simpl.
      destruct (Rlt_dec 1 (1 / 2)); [lra|]. destruct (Rlt_dec 0 1); [|lra]. unfold v2_scale; simpl. f_equal; field. }
    rewrite P. unfold from_contact_coordinates, contact_basis_matrix, m3_mulv, m3_transpose, v3_cross, v3_scale, v3_dot, f; simpl. f_equal; ring. }
  unfold friction_force. rewrite E1. cbn [combine map]. rewrite E2. unfold v. compute_contact. lra.
Qed.
