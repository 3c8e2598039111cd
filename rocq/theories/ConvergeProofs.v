(** Proofs for the stopping condition. *)
From Coq Require Import Reals List Arith Bool Lra Lia Psatz.
From Verif Require Import Vec3 RList ConvergeModel ConvergeSpec.
Import ListNotations.
Local Open Scope R_scope.

Lemma Rltb_true a b : Rltb a b = true <-> a < b.
Proof. unfold Rltb. destruct Rlt_dec; split; intros; try reflexivity; try discriminate; lra. Qed.
Lemma Rle_b_true a b : Rle_b a b = true <-> a <= b.
Proof. unfold Rle_b. destruct Rle_dec; split; intros; try reflexivity; try discriminate; lra. Qed.

Lemma inf_fold (r : list R) (m tol : R) : fold_left (fun m x => Rmax m (Rabs x)) r m < tol <-> m < tol /\ forall x, In x r -> Rabs x < tol.
Proof.
  revert m. induction r as [|a r IH]; intros m; simpl; [intuition|]. rewrite IH. split.
  - intros [H1 H2]. pose proof (Rmax_l m (Rabs a)). pose proof (Rmax_r m (Rabs a)). split; [lra|].
    intros x [<-|Hx]; [lra|apply H2, Hx].
  - intros [H1 H2]. split; [apply Rmax_lub_lt; [exact H1|apply H2; left; reflexivity]|]. intros x Hx. apply H2. right. exact Hx.
Qed.
Lemma r_criterion_spec r tol : r_criterion r tol = true <-> 0 < tol /\ force_small r tol.
Proof.
  unfold r_criterion, force_small, inf_norm. rewrite andb_true_iff, !Rltb_true, inf_fold. split.
  - intros [H [_ H2]]. split; [exact H|]. intros i Hi. apply H2, nth_In, Hi.
  - intros [H H2]. split; [exact H|split; [exact H|]]. intros x Hx. destruct (In_nth _ _ 0 Hx) as [i [Hi <-]]. apply H2, Hi.
Qed.

Lemma sum_below_ext f g n : (forall i, (i < n)%nat -> f i = g i) -> sum_below f n = sum_below g n.
Proof. induction n as [|n IH]; intros H; [reflexivity|]. simpl. rewrite IH, H by (intros; try apply H; lia). reflexivity. Qed.
Lemma sum_below_S f n : sum_below f (S n) = f O + sum_below (fun i => f (S i)) n.
Proof. induction n as [|n IH]; [simpl; lra|]. change (sum_below f (S (S n))) with (sum_below f (S n) + f (S n)). rewrite IH. simpl. lra. Qed.
Lemma rsum_indexed {A} (f : A -> R) (d : A) (l : list A) : rsum (map f l) = sum_below (fun i => f (nth i l d)) (length l).
Proof.
  induction l as [|a l IH]; [reflexivity|]. simpl map. rewrite rsum_cons, IH. change (length (a :: l)) with (S (length l)).
  rewrite sum_below_S. reflexivity.
Qed.
Lemma x_criterion_spec x_prev x tol : length x_prev = length x ->
  x_criterion x_prev x tol = true <-> 0 < tol /\ step_small x_prev x tol.
Proof.
  intros HL. unfold x_criterion, step_small, norm2. rewrite andb_true_iff, !Rltb_true.
  rewrite (rsum_indexed _ (0, 0)), (rsum_indexed _ 0), combine_length, HL, Nat.min_id.
  assert (E1 : sum_below (fun i => (fst (nth i (combine x_prev x) (0, 0)) - snd (nth i (combine x_prev x) (0, 0))) * (fst (nth i (combine x_prev x) (0, 0)) - snd (nth i (combine x_prev x) (0, 0)))) (length x)
     = sum_below (fun i => (nth i x_prev 0 - nth i x 0)^2) (length x)).
  { apply sum_below_ext. intros i Hi. rewrite combine_nth by exact HL. simpl. ring. }
  assert (E2 : sum_below (fun i => nth i x 0 * nth i x 0) (length x) = sum_below (fun i => (nth i x 0)^2) (length x)).
  { apply sum_below_ext. intros i Hi. ring. }
  rewrite E1, E2.
  reflexivity.
Qed.

Lemma v3_norm_scale m a : 0 <= m -> v3_norm (v3_scale m a) = m * v3_norm a.
Proof.
  intros Hm. unfold v3_norm.
  replace (v3_dot (v3_scale m a) (v3_scale m a)) with ((m * m) * v3_dot a a) by (unfold v3_dot, v3_scale; simpl; ring).
  rewrite sqrt_mult_alt by nra. rewrite sqrt_square by exact Hm. reflexivity.
Qed.
Lemma chunks3_spec (l : list R) (n : nat) : length l = (3 * n)%nat -> length (chunks3 l) = n /\ forall i, (i < n)%nat -> nth i (chunks3 l) v3_0 = block l i.
Proof.
  revert l. induction n as [|n IH]; intros l H.
  - destruct l; [split; [reflexivity|intros; lia]|simpl in H; lia].
  - destruct l as [|a [|b [|c l]]]; simpl in H; try lia. destruct (IH l ltac:(lia)) as [H1 H2].
    split; [simpl; lia|]. intros [|i] Hi; [reflexivity|]. cbn [chunks3 nth]. rewrite H2 by lia. unfold block.
    replace (3 * S i)%nat with (S (S (S (3 * i)))) by lia.
    replace (S (S (S (3 * i))) + 1)%nat with (S (S (S (3 * i + 1)))) by lia.
    replace (S (S (S (3 * i))) + 2)%nat with (S (S (S (3 * i + 2)))) by lia. reflexivity.
Qed.
Lemma nth_combine {A B} (l : list A) (m : list B) da db i : (i < length l)%nat -> (i < length m)%nat ->
  nth i (combine l m) (da, db) = (nth i l da, nth i m db).
Proof.
  revert m i. induction l as [|a l IH]; intros [|b m] [|i] H1 H2; simpl in *; try lia; [reflexivity|]. apply IH; lia.
Qed.
Lemma forallb_nth {A} (f : A -> bool) (d : A) (l : list A) : forallb f l = true <-> forall i, (i < length l)%nat -> f (nth i l d) = true.
Proof.
  rewrite forallb_forall. split.
  - intros H i Hi. apply H, nth_In, Hi.
  - intros H x Hx. destruct (In_nth _ _ d Hx) as [i [Hi <-]]. apply H, Hi.
Qed.
Lemma a_criterion_spec n x_prev x r m s h_inv tol :
  length x_prev = (3 * n)%nat -> length x = (3 * n)%nat -> length r = (3 * n)%nat -> (n <= length m)%nat -> (n <= length s)%nat ->
  (forall i, 0 <= nth i m 0) ->
  a_criterion x_prev x r m s h_inv tol = true <-> 0 < tol /\
  forall i, (i < n)%nat -> nth i m 0 * v3_norm (block r i) <= tol * v3_norm (block x i) \/
                           nth i m 0 * v3_norm (block r i) <= tol * (nth i s 0 * h_inv).
Proof.
  intros Hp Hx Hr Hm Hs Hpos. unfold a_criterion. rewrite andb_true_iff, Rltb_true.
  destruct (chunks3_spec _ n Hp) as [Lp Np]. destruct (chunks3_spec _ n Hx) as [Lx Nx]. destruct (chunks3_spec _ n Hr) as [Lr Nr].
  rewrite (forallb_nth _ ((v3_0, 0), 0, (v3_0, v3_0))).
  rewrite !combine_length, Lp, Lx, Lr.
  replace (Init.Nat.min _ _) with n by lia.
  assert (E : forall i, (i < n)%nat -> 
     nth i (combine (combine (combine (chunks3 r) m) s) (combine (chunks3 x_prev) (chunks3 x))) (v3_0, 0, 0, (v3_0, v3_0))
     = (block r i, nth i m 0, nth i s 0, (block x_prev i, block x i))).
  { intros i Hi. rewrite nth_combine by (rewrite ?combine_length; lia). rewrite nth_combine by (rewrite ?combine_length; lia).
    rewrite nth_combine by lia. rewrite nth_combine by lia. rewrite Np, Nx, Nr by exact Hi. reflexivity. }
  split; intros [H1 H2]; (split; [exact H1|]); intros i Hi.
  - specialize (H2 i Hi). rewrite E in H2 by exact Hi. apply Rle_b_true in H2. rewrite v3_norm_scale in H2 by apply Hpos.
    unfold Rmax in H2. destruct Rle_dec; [right|left]; exact H2.
  - rewrite E by exact Hi. apply Rle_b_true. rewrite v3_norm_scale by apply Hpos. specialize (H2 i Hi).
    pose proof (Rmax_l (tol * v3_norm (block x i)) (tol * (nth i s 0 * h_inv))).
    pose proof (Rmax_r (tol * v3_norm (block x i)) (tol * (nth i s 0 * h_inv))).
    destruct H2; lra.
Qed.

Lemma converged_spec n x_prev x r ru m s dt fac x_tol r_tol a_tol :
  length x_prev = (3 * n)%nat -> length x = (3 * n)%nat -> length ru = (3 * n)%nat -> (n <= length m)%nat -> (n <= length s)%nat ->
  (forall i, 0 <= nth i m 0) ->
  converged x_prev x r ru m s dt fac x_tol r_tol a_tol = true <->
  (0 < r_tol /\ force_small r r_tol) \/ (0 < x_tol /\ step_small x_prev x x_tol) \/
  (0 < a_tol /\ acceleration_small n x ru m s (dt * fac) a_tol).
Proof.
  intros Hp Hx Hr Hm Hs Hpos. unfold converged. rewrite !orb_true_iff, r_criterion_spec, x_criterion_spec by lia.
  rewrite (a_criterion_spec n) by assumption. unfold acceleration_small.
  assert (E : forall i, a_tol * (nth i s 0 * (1 / (dt * fac))) = a_tol * nth i s 0 / (dt * fac)).
  { intros i. unfold Rdiv. ring. }
  split.
  - intros [[H|H]|H]; [left; exact H|right; left; exact H|right; right]. destruct H as [H1 H2]. split; [exact H1|].
    intros i Hi. rewrite <- E. apply H2, Hi.
  - intros [H|[H|H]]; [left; left; exact H|left; right; exact H|right]. destruct H as [H1 H2]. split; [exact H1|].
    intros i Hi. rewrite E. apply H2, Hi.
Qed.
