(** Proofs about the slope of the merit. *)
From Coq Require Import Reals List Arith Bool Lra Lia.
From Coquelicot Require Import Coquelicot.
From Verif Require Import Vec3 RList ElasticModel ElasticSpec ContactHessSpec ProblemModel FricProblemModel FricDerivSpec ProductModel DescentModel.
From Verif Require FieldProofs AssemblyModel AssemblyProofs ProductProofs.
Import ListNotations.
Local Open Scope R_scope.

Lemma sum_by_index {A} (f : A -> R) (z : A) : forall l, rsum (map f l) = rsum (map (fun k => f (nth k l z)) (seq 0 (length l))).
Proof. induction l as [|x l IH]; [reflexivity|]. cbn [map length seq]. rewrite !rsum_cons, IH, <- seq_shift, map_map. reflexivity. Qed.
Lemma rescale_length d r : length d = length r -> length (rescale_vector d r) = length r.
Proof. intros L. unfold rescale_vector. rewrite app_length, map_length, combine_length, skipn_length. lia. Qed.
Lemma rescale_nth d r k : length d = length r -> nth k (rescale_vector d r) 0 = nth k d 0 * nth k r 0.
Proof.
  intros L. unfold rescale_vector. rewrite skipn_all2 by lia. rewrite app_nil_r. destruct (Nat.lt_ge_cases k (length r)) as [K|K].
  - rewrite (nth_indep _ 0 ((fun e : R * R => snd e * fst e) (0, 0))) by (rewrite map_length, combine_length; lia). rewrite (map_nth (fun e : R * R => snd e * fst e)), combine_nth by exact L. cbn. ring.
  - rewrite !nth_overflow by (rewrite ?map_length, ?combine_length; lia). ring.
Qed.
Lemma merit_form d r n : length r = n -> length d = n -> residual_merit (rescale_vector d r) = rsum (map (fun k => 1 / 2 * ((nth k d 0 * nth k r 0) * (nth k d 0 * nth k r 0))) (seq 0 n)).
Proof.
  intros LR LD. unfold residual_merit. rewrite (sum_by_index _ 0), rescale_length by lia. rewrite rsum_scale, LR. f_equal. apply rsum_ext. intros k _. rewrite rescale_nth by lia. ring.
Qed.
Lemma slope_form d jp r n : length jp = n -> length r = n -> length d = n -> slope_of d jp (rescale_vector d r) = rsum (map (fun k => (nth k d 0 * nth k jp 0) * (nth k d 0 * nth k r 0)) (seq 0 n)).
Proof.
  intros LJ LR LD. unfold slope_of. rewrite (sum_by_index _ (0, 0)), combine_length, !rescale_length by lia. rewrite LJ, LR, Nat.min_id. apply rsum_ext. intros k _. rewrite combine_nth by (rewrite !rescale_length; lia). cbn [fst snd]. rewrite !rescale_nth by lia. ring.
Qed.
(** The merit along a line from the coordinates of the residual. *)
Lemma merit_derive d n (g : R -> option (list R)) (D : nat -> R) : length d = n -> locally 0 (fun s => exists r, g s = Some r /\ length r = n) ->
  (forall k, (k < n)%nat -> is_derive (fun s => match g s with Some r => nth k r 0 | None => 0 end) 0 (D k)) ->
  exists r, g 0 = Some r /\ length r = n /\
    is_derive (fun s => match option_map (fun r => residual_merit (rescale_vector d r)) (g s) with Some m => m | None => 0 end) 0 (rsum (map (fun k => (nth k d 0 * D k) * (nth k d 0 * nth k r 0)) (seq 0 n))).
Proof.
  intros LD NE DK. destruct (locally_singleton _ _ NE) as (r & E & LR). exists r. split; [exact E|]. split; [exact LR|].
  set (h := fun k s => match g s with Some r => nth k r 0 | None => 0 end).
  apply (is_derive_ext_loc (fun s => rsum (map (fun k => 1 / 2 * ((nth k d 0 * h k s) * (nth k d 0 * h k s))) (seq 0 n)))).
  - revert NE. apply filter_imp. intros s (r' & E' & LR'). unfold h. rewrite E'. cbn [option_map]. symmetry. apply merit_form; assumption.
  - apply (FieldProofs.derive_rsum (fun k s => 1 / 2 * ((nth k d 0 * h k s) * (nth k d 0 * h k s)))). intros k K. apply in_seq in K. assert (H : is_derive (h k) 0 (D k)) by (apply DK; lia). assert (H0 : h k 0 = nth k r 0) by (unfold h; rewrite E; reflexivity).
    assert (EX : ex_derive (fun s : R => h k s) 0) by (exists (D k); exact H). auto_derive; [tauto|]. rewrite (is_derive_unique (fun s : R => h k s) 0 (D k) H). rewrite H0. change (@eq R (1 / 2 * (nth k d 0 * (1 * D k) * (nth k d 0 * nth k r 0) + nth k d 0 * nth k r 0 * (nth k d 0 * (1 * D k)))) (nth k d 0 * D k * (nth k d 0 * nth k r 0))). field.
Qed.
(** ** Steps that are short enough *)
Lemma short_steps f l l' : is_derive f 0 l -> l < l' -> exists a0, 0 < a0 /\ forall a, 0 < a < a0 -> f a <= f 0 + a * l'.
Proof.
  intros D H. apply is_derive_Reals in D. destruct (D (l' - l)) as [del P]; [lra|]. exists del. split; [apply cond_pos|]. intros a [A B]. specialize (P a). rewrite Rplus_0_l in P. assert (Q : Rabs ((f a - f 0) / a - l) < l' - l) by (apply P; [lra|rewrite Rabs_right; lra]).
  apply Rabs_def2 in Q. destruct Q as [Q _]. assert (Q' : (f a - f 0) / a < l') by lra. apply (Rmult_lt_compat_r a) in Q'; [|exact A]. unfold Rdiv in Q'. rewrite Rmult_assoc, Rinv_l, Rmult_1_r in Q' by lra. lra.
Qed.
Lemma sum_mono {A} (f g : A -> R) l : (forall a, In a l -> f a <= g a) -> rsum (map f l) <= rsum (map g l).
Proof. induction l as [|a l IH]; intros H; [apply Rle_refl|]. cbn [map]. rewrite !rsum_cons. pose proof (H a (or_introl eq_refl)). assert (rsum (map f l) <= rsum (map g l)) by (apply IH; intros b B; apply H; right; exact B). lra. Qed.
Lemma inexact_slope {A} (e x : A -> R) eta (l : list A) : 0 <= eta -> rsum (map (fun k => e k * e k) l) <= eta * eta * rsum (map (fun k => x k * x k) l) ->
  rsum (map (fun k => (e k - x k) * x k) l) <= - (1 - eta) * rsum (map (fun k => x k * x k) l).
Proof.
  intros H B. set (S := rsum (map (fun k => x k * x k) l)) in *. assert (S0 : 0 <= S) by (apply rsum_nonneg; intros y Y; apply in_map_iff in Y; destruct Y as (k & <- & _); nra).
  assert (T : forall t, 0 < t -> rsum (map (fun k => (e k - x k) * x k) l) <= (t / 2 - 1) * S + / (2 * t) * (eta * eta * S)).
  { intros t T0. apply Rle_trans with (rsum (map (fun k => (t / 2 - 1) * (x k * x k) + / (2 * t) * (e k * e k)) l)).
    - apply sum_mono. intros k _. assert (Q : 0 <= / (2 * t) * ((e k - t * x k) * (e k - t * x k))) by (apply Rmult_le_pos; [left; apply Rinv_0_lt_compat; lra|apply Rle_0_sqr]). replace (/ (2 * t) * ((e k - t * x k) * (e k - t * x k))) with (/ (2 * t) * (e k * e k) - e k * x k + t / 2 * (x k * x k)) in Q by (field; lra). match goal with |- ?a <= ?b => assert (Z : b - a = / (2 * t) * (e k * e k) - e k * x k + t / 2 * (x k * x k)) by ring; apply Rminus_le; apply Ropp_le_cancel; rewrite Ropp_0, Ropp_minus_distr, Z; exact Q end.
    - rewrite rsum_plus, !rsum_scale. fold S. apply Rplus_le_compat_l, Rmult_le_compat_l; [left; apply Rinv_0_lt_compat; lra|exact B]. }
  destruct (Rle_lt_or_eq_dec _ _ H) as [P|<-].
  - specialize (T eta P). replace ((eta / 2 - 1) * S + / (2 * eta) * (eta * eta * S)) with (- (1 - eta) * S) in T by (field; lra). exact T.
  - apply le_epsilon. intros ep EP. destruct (Rle_lt_or_eq_dec _ _ S0) as [Q|Q].
    + specialize (T (2 * ep / S)). assert (0 < 2 * ep / S) by (apply Rdiv_lt_0_compat; lra). specialize (T H0). replace ((2 * ep / S / 2 - 1) * S + / (2 * (2 * ep / S)) * (0 * 0 * S)) with (- (1 - 0) * S + ep) in T by (field; lra). exact T.
    + specialize (T 1 Rlt_0_1). rewrite <- Q in T |- *. lra.
Qed.
