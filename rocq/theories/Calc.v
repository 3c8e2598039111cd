(** Small facts about derivatives of real functions, shared by several proofs files (no model content). *)
From Coq Require Import Reals Lra Psatz.
From Coquelicot Require Import Coquelicot.
Local Open Scope R_scope.

(** Derivatives of functions that agree locally. *)
Lemma is_derive_left (r x l : R) (f g : R -> R) :
  x < r -> (forall y, y <= r -> f y = g y) -> is_derive g x l -> is_derive f x l.
Proof.
  intros Hx Heq Hd. apply is_derive_ext_loc with g; [|exact Hd].
  exists (mkposreal (r - x) ltac:(lra)). intros y Hy.
  apply eq_sym, Heq. cbv [ball] in Hy. simpl in Hy. cbv [AbsRing_ball abs minus plus opp] in Hy. simpl in Hy.
  apply Rabs_def2 in Hy. lra.
Qed.

Lemma is_derive_right_of (r x l : R) (f g : R -> R) :
  r < x -> (forall y, r < y -> f y = g y) -> is_derive g x l -> is_derive f x l.
Proof.
  intros Hx Heq Hd. apply is_derive_ext_loc with g; [|exact Hd].
  exists (mkposreal (x - r) ltac:(lra)). intros y Hy.
  apply eq_sym, Heq. cbv [ball] in Hy. simpl in Hy. cbv [AbsRing_ball abs minus plus opp] in Hy. simpl in Hy.
  apply Rabs_def2 in Hy. lra.
Qed.

Lemma is_derive_right (r x : R) (f : R -> R) :
  r < x -> (forall y, r < y -> f y = 0) -> is_derive f x 0.
Proof.
  intros Hx Heq. eapply is_derive_right_of; [exact Hx|exact Heq|]. apply @is_derive_const.
Qed.

(** Equality only needed away from a point that is not the one of interest. *)
Lemma is_derive_away (p x l : R) (f g : R -> R) :
  x <> p -> (forall y, y <> p -> f y = g y) -> is_derive g x l -> is_derive f x l.
Proof.
  intros Hx Heq Hd. destruct (Rlt_le_dec x p) as [H|H].
  - apply is_derive_left with (r := (x + p) / 2) (g := g); [lra| |exact Hd]. intros y Hy. apply Heq. lra.
  - apply is_derive_right_of with (r := (x + p) / 2) (g := g); [lra| |exact Hd]. intros y Hy. apply Heq. lra.
Qed.

(** Two branches that meet with equal value and slope. *)
Lemma is_derive_glue (r l : R) (f g1 g2 : R -> R) :
  (forall y, y <= r -> f y = g1 y) -> (forall y, r < y -> f y = g2 y) ->
  g1 r = g2 r -> is_derive g1 r l -> is_derive g2 r l -> is_derive f r l.
Proof.
  intros H1 H2 Hv D1 D2.
  apply is_derive_Reals. apply is_derive_Reals in D1. apply is_derive_Reals in D2.
  intros eps Heps. destruct (D1 eps Heps) as [d1 Hd1]. destruct (D2 eps Heps) as [d2 Hd2].
  assert (Hpos : 0 < Rmin d1 d2) by (apply Rmin_pos; apply cond_pos).
  exists (mkposreal _ Hpos). intros h Hh Hlt. simpl in Hlt.
  pose proof (Rmin_l d1 d2). pose proof (Rmin_r d1 d2).
  rewrite (H1 r ltac:(lra)).
  destruct (Rlt_le_dec 0 h) as [Hp|Hn].
  - rewrite (H2 (r + h)) by lra. rewrite Hv. apply Hd2; [exact Hh|lra].
  - rewrite (H1 (r + h)) by lra. apply Hd1; [exact Hh|lra].
Qed.

(** Two branches that meet with different slopes: no derivative. *)
Lemma not_derive_kink (r l1 l2 : R) (f g1 g2 : R -> R) :
  (forall y, y <= r -> f y = g1 y) -> (forall y, r < y -> f y = g2 y) ->
  g1 r = g2 r -> is_derive g1 r l1 -> is_derive g2 r l2 -> l1 <> l2 -> ~ ex_derive f r.
Proof.
  intros H1 H2 Hv D1 D2 Hne [l D].
  apply is_derive_Reals in D. apply is_derive_Reals in D1. apply is_derive_Reals in D2.
  assert (He : 0 < Rabs (l1 - l2) / 4) by (assert (0 < Rabs (l1 - l2)) by (apply Rabs_pos_lt; lra); lra).
  destruct (D _ He) as [d Hd]. destruct (D1 _ He) as [d1 Hd1]. destruct (D2 _ He) as [d2 Hd2].
  set (m := Rmin d (Rmin d1 d2) / 2).
  assert (Hm : 0 < m /\ m < d /\ m < d1 /\ m < d2).
  { pose proof (cond_pos d). pose proof (cond_pos d1). pose proof (cond_pos d2).
    assert (0 < Rmin d (Rmin d1 d2)) by (repeat apply Rmin_pos; assumption).
    pose proof (Rmin_l d (Rmin d1 d2)). pose proof (Rmin_r d (Rmin d1 d2)).
    pose proof (Rmin_l d1 d2). pose proof (Rmin_r d1 d2). unfold m. lra. }
  destruct Hm as (M0 & Md & Md1 & Md2).
  assert (Habs : Rabs m = m) by (apply Rabs_right; lra).
  assert (Habs' : Rabs (- m) = m) by (rewrite Rabs_Ropp; exact Habs).
  pose proof (Hd m ltac:(lra) ltac:(lra)) as A1.
  pose proof (Hd (- m) ltac:(lra) ltac:(lra)) as A2.
  pose proof (Hd2 m ltac:(lra) ltac:(lra)) as B2.
  pose proof (Hd1 (- m) ltac:(lra) ltac:(lra)) as B1.
  rewrite (H2 (r + m)) in A1 by lra. rewrite (H1 r ltac:(lra)) in A1, A2. rewrite (H1 (r + - m)) in A2 by lra.
  rewrite Hv in A1.
  apply Rabs_def2 in A1. apply Rabs_def2 in A2. apply Rabs_def2 in B1. apply Rabs_def2 in B2.
  set (e := Rabs (l1 - l2) / 4) in *.
  assert (Hc : Rabs (l1 - l2) < 4 * e) by (apply Rabs_def1; lra).
  unfold e in Hc. lra.
Qed.

(** An even-like composition [f (|c s|)] with zero slope of [f] at zero. *)
Lemma is_derive_abs0 (f : R -> R) (c : R) :
  is_derive f 0 0 -> is_derive (fun s => f (Rabs (s * c))) 0 0.
Proof.
  intros D. apply is_derive_Reals. apply is_derive_Reals in D. intros eps Heps.
  destruct (Req_dec c 0) as [Hc|Hc].
  - exists (mkposreal 1 Rlt_0_1). intros h Hh _. subst c.
    rewrite !Rmult_0_r. unfold Rminus. rewrite Rplus_opp_r. unfold Rdiv.
    rewrite Rmult_0_l, Ropp_0, Rplus_0_r, Rabs_R0. exact Heps.
  - assert (Hca : 0 < Rabs c) by (apply Rabs_pos_lt; exact Hc).
    destruct (D (eps / Rabs c)) as [d Hd]; [apply Rdiv_lt_0_compat; lra|].
    assert (Hd' : 0 < d / Rabs c) by (apply Rdiv_lt_0_compat; [apply cond_pos|lra]).
    exists (mkposreal _ Hd'). intros h Hh Hlt. simpl in Hlt.
    assert (Hha : 0 < Rabs h) by (apply Rabs_pos_lt; exact Hh).
    assert (Hk : Rabs (h * c) <> 0) by (rewrite Rabs_mult; nra).
    assert (Hk2 : Rabs (Rabs (h * c)) < d).
    { rewrite Rabs_Rabsolu, Rabs_mult. apply Rmult_lt_compat_r with (r := Rabs c) in Hlt; [|lra].
      replace (d / Rabs c * Rabs c) with (pos d) in Hlt by (field; lra). lra. }
    specialize (Hd _ Hk Hk2).
    rewrite Rplus_0_l in *. rewrite Rmult_0_l, Rabs_R0. rewrite Rminus_0_r in *.
    set (v := f (Rabs (h * c)) - f 0) in *.
    unfold Rdiv in *. rewrite Rabs_mult, Rabs_inv in Hd. rewrite Rabs_mult, Rabs_inv.
    rewrite Rabs_Rabsolu, Rabs_mult in Hd.
    apply Rmult_lt_compat_r with (r := Rabs c) in Hd; [|lra].
    replace (eps * / Rabs c * Rabs c) with eps in Hd by (field; lra).
    eapply Rle_lt_trans; [|exact Hd]. right. field. split; lra.
Qed.

(** [ring] at the carrier of Coquelicot's canonical structures. *)
Ltac ringR := match goal with |- @eq _ ?a ?b => change (@eq R a b) end; ring.
Lemma derive_same (f : R -> R) (x a b : R) : is_derive f x a -> is_derive f x b -> a = b.
Proof. intros Ha Hb. rewrite <- (is_derive_unique f x a Ha). apply is_derive_unique. exact Hb. Qed.
