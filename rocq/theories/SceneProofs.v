(** Proofs about keyframed scenes. *)
From Coq Require Import List Arith Bool ZArith Sorted Permutation Lia.
From Verif Require Import SceneModel SceneSpec.
Import ListNotations.

Lemma list_ext {A} : forall a b : list A, (forall i, nth_error a i = nth_error b i) -> a = b.
Proof.
  induction a as [|x a IH]; intros [|y b] H; [reflexivity|specialize (H 0); discriminate|specialize (H 0); discriminate|].
  f_equal; [specialize (H 0); cbn in H; congruence|]. apply IH. intros i. exact (H (S i)).
Qed.
Lemma nth_map_mark {B} (f : B -> bool) (z : B) : f z = false -> forall x i, nth i (map f x) false = f (nth i x z).
Proof. intros Z x i. rewrite <- Z at 1. apply map_nth. Qed.
Lemma keep_then_assign {A} : forall (q out : list A) (x : list bool) i, length out = length q ->
  length (assign_marked out x (keep_marked q x)) = length q /\ nth_error (assign_marked out x (keep_marked q x)) i = if nth i x false then nth_error q i else nth_error out i.
Proof.
  induction q as [|a q IH]; intros [|o out] x i L; try discriminate; [destruct x as [|b x], i as [|i]; cbn; (split; [reflexivity|]); try reflexivity; match goal with |- context [if ?c then _ else _] => destruct c end; reflexivity|].
  destruct x as [|b x]; [cbn [keep_marked assign_marked]; split; [exact L|destruct i; reflexivity]|]. injection L as L. cbn [keep_marked]. destruct b; cbn [assign_marked].
  - destruct (IH out x (i - 1) L) as [E N]. split; [cbn [length]; rewrite E; reflexivity|]. destruct i as [|i]; [reflexivity|]. cbn [nth_error nth]. replace (S i - 1) with i in N by lia. exact N.
  - destruct (IH out x (i - 1) L) as [E N]. split; [cbn [length]; rewrite E; reflexivity|]. destruct i as [|i]; [reflexivity|]. cbn [nth_error nth]. replace (S i - 1) with i in N by lia. exact N.
Qed.
Lemma assign_all_same {A} : forall (q out : list A), length out = length q -> assign_all out q = q.
Proof. induction q as [|a q IH]; intros [|o out] L; try discriminate; [reflexivity|]. cbn. rewrite IH by (injection L; auto). reflexivity. Qed.
Lemma kept_count {A} : forall (q : list A) (x : list bool) (f : nat -> bool), (forall i, f i = nth i x false) -> length (keep_marked q x) = length (filter f (seq 0 (length q))).
Proof.
  assert (G : forall (q : list A) (x : list bool) k (f : nat -> bool), (forall i, f (k + i) = nth i x false) -> length (keep_marked q x) = length (filter f (seq k (length q)))).
  { induction q as [|a q IH]; intros [|b x] k f H; try reflexivity.
    - cbn [keep_marked length]. symmetry. rewrite (proj2 (length_zero_iff_nil _)); [reflexivity|]. assert (N : forall n j, (k <= j)%nat -> filter f (seq j n) = []); [|apply N; lia].
      induction n as [|n IHn]; intros j J; [reflexivity|]. cbn [seq filter]. replace (f j) with false; [apply IHn; lia|]. replace j with (k + (j - k)) by lia. rewrite H. destruct (j - k); reflexivity.
    - cbn [keep_marked length seq filter]. assert (E : f k = b) by (rewrite <- (Nat.add_0_r k), H; reflexivity). rewrite E. assert (H' : forall i, f (S k + i) = nth i x false) by (intros i; replace (S k + i) with (k + S i) by lia; rewrite H; reflexivity).
      destruct b; cbn [length]; rewrite (IH x (S k) f H'); reflexivity. }
  intros q x f H. apply (G q x 0 f H).
Qed.
Definition merged {A} (t : mesh_topo) (out q : list A) : list A := map (fun e => if follows t (fst e) then snd (snd e) else fst (snd e)) (combine (seq 0 (length out)) (combine out q)).
Lemma merged_at {A} t (out q : list A) i : length out = length q -> nth_error (merged t out q) i = if follows t i then nth_error q i else nth_error out i.
Proof.
  unfold merged. assert (G : forall (out q : list A) k i, length out = length q -> nth_error (map (fun e => if follows t (fst e) then snd (snd e) else fst (snd e)) (combine (seq k (length out)) (combine out q))) i = if follows t (k + i) then nth_error q i else nth_error out i).
  { clear. induction out as [|o out IH]; intros [|a q] k i L; try discriminate; [destruct i; cbn; destruct (follows _ _); reflexivity|]. cbn [length seq combine map]. destruct i as [|i]; cbn [nth_error fst snd]; [rewrite Nat.add_0_r; destruct (follows t k); reflexivity|].
    rewrite IH by (injection L; auto). replace (S k + i) with (k + S i) by lia. reflexivity. }
  intros L. exact (G out q 0 i L).
Qed.
Lemma merged_length {A} t (out q : list A) : length out = length q -> length (merged t out q) = length q.
Proof. intros L. unfold merged. rewrite map_length, !combine_length, seq_length. lia. Qed.
Lemma round_trip {A} t f (q out : list A) : f <> 0 -> length out = length q -> update_positions_with_animated t f (filter_animated t f q) out = merged t out q.
Proof.
  intros F L. apply list_ext. intros i. rewrite merged_at by exact L. unfold update_positions_with_animated, filter_animated, follows. destruct (Nat.eqb_spec f 0); [contradiction|]. cbn [negb].
  destruct (mt_animated t) as [[x|x|x|]|]; try (rewrite assign_all_same by exact L; reflexivity).
  - rewrite (proj2 (keep_then_assign q out (marks_z x) i L)). unfold marks_z. rewrite (nth_map_mark (fun a => negb (Z.eqb a 0)) 0%Z eq_refl). reflexivity.
  - rewrite (proj2 (keep_then_assign q out (marks_z x) i L)). unfold marks_z. rewrite (nth_map_mark (fun a => negb (Z.eqb a 0)) 0%Z eq_refl). reflexivity.
  - rewrite (proj2 (keep_then_assign q out (marks_nat x) i L)). unfold marks_nat. rewrite (nth_map_mark (fun a => negb (Nat.eqb a 0)) 0 eq_refl). reflexivity.
Qed.
Lemma merged_again {A} t (o q r : list A) : length o = length q -> length q = length r -> merged t (merged t o q) r = merged t o r.
Proof. intros L L'. apply list_ext. intros i. rewrite merged_at by (rewrite merged_length; congruence). rewrite !merged_at by congruence. destruct (follows t i); reflexivity. Qed.
Lemma merged_self {A} t (o : list A) : merged t o o = o.
Proof. apply list_ext. intros i. rewrite merged_at by reflexivity. destruct (follows t i); reflexivity. Qed.
Lemma filter_length_ok {A} t f (q : list A) : f <> 0 -> length (filter_animated t f q) = length (filter (follows t) (seq 0 (length q))).
Proof.
  intros F. unfold filter_animated, follows. destruct (Nat.eqb_spec f 0); [contradiction|].
  assert (ALL : forall l : list nat, filter (fun _ => true) l = l) by (induction l as [|a l IH]; [reflexivity|cbn; rewrite IH; reflexivity]).
  destruct (mt_animated t) as [[x|x|x|]|]; try (rewrite ALL, seq_length; reflexivity); apply kept_count; intros i; symmetry.
  - apply (nth_map_mark (fun a => negb (Z.eqb a 0)) 0%Z eq_refl).
  - apply (nth_map_mark (fun a => negb (Z.eqb a 0)) 0%Z eq_refl).
  - apply (nth_map_mark (fun a => negb (Nat.eqb a 0)) 0 eq_refl).
Qed.

(** * The list of keyframes *)
Section Keys.
Context {A : Type}.
Implicit Types l : list (keyframe A).
Lemma sorted_cons a (l : list nat) : StronglySorted lt (a :: l) <-> StronglySorted lt l /\ (forall b, In b l -> (a < b)%nat).
Proof. split; [intros H; inversion H as [|? ? S F]; subst; split; [exact S|apply Forall_forall; exact F]|intros [S F]; constructor; [exact S|apply Forall_forall; exact F]]. Qed.
Lemma sorted_app : forall (a b : list nat), StronglySorted lt (a ++ b) <-> StronglySorted lt a /\ StronglySorted lt b /\ (forall x y, In x a -> In y b -> (x < y)%nat).
Proof.
  induction a as [|c a IH]; intros b; [cbn; split; [intros H; split; [constructor|split; [exact H|intros ? ? []]]|intros (_ & H & _); exact H]|].
  cbn [app]. rewrite !sorted_cons, IH. split.
  - intros ((H1 & H2 & H3) & H4). split; [split; [exact H1|intros d D; apply H4, in_or_app; left; exact D]|]. split; [exact H2|]. intros x y [<-|X] Y; [apply H4, in_or_app; right; exact Y|exact (H3 x y X Y)].
  - intros ((H1 & H4) & H2 & H3). split; [split; [exact H1|split; [exact H2|intros x y X Y; apply H3; [right; exact X|exact Y]]]|]. intros d D. apply in_app_or in D. destruct D as [D|D]; [exact (H4 d D)|apply H3; [left; reflexivity|exact D]].
Qed.
Lemma sorted_le (l : list nat) : StronglySorted lt l -> StronglySorted le l.
Proof. induction 1 as [|a l S IH F]; constructor; [exact IH|]. revert F. apply Forall_impl. intros b B. lia. Qed.
Lemma stored_cons (k : keyframe A) l f : stored_for (k :: l) f = if Nat.eqb (kf_frame k) f then Some (kf_positions k) else stored_for l f.
Proof. unfold stored_for. cbn [find]. destruct (Nat.eqb (kf_frame k) f); reflexivity. Qed.
Lemma stored_app l l' f : stored_for (l ++ l') f = match stored_for l f with Some q => Some q | None => stored_for l' f end.
Proof. induction l as [|k l IH]; [reflexivity|]. cbn [app]. rewrite !stored_cons, IH. destruct (Nat.eqb (kf_frame k) f); reflexivity. Qed.
Lemma stored_none l f : (forall g, In g (map kf_frame l) -> g <> f) -> stored_for l f = None.
Proof. induction l as [|k l IH]; intros H; [reflexivity|]. rewrite stored_cons. destruct (Nat.eqb_spec (kf_frame k) f) as [E|]; [destruct (H (kf_frame k) (or_introl eq_refl) E)|]. apply IH. intros g G. apply H. right. exact G. Qed.
Lemma stored_some l f q : stored_for l f = Some q -> In f (map kf_frame l).
Proof. induction l as [|k l IH]; [discriminate|]. rewrite stored_cons. destruct (Nat.eqb_spec (kf_frame k) f) as [E|]; [intros _; left; exact E|intros H; right; exact (IH H)]. Qed.
Lemma set_positions_ok : forall l i f q, in_order l -> nth_error (map kf_frame l) i = Some f ->
  exists l', set_positions l i q = Some l' /\ map kf_frame l' = map kf_frame l /\ forall g, stored_for l' g = if Nat.eqb g f then Some q else stored_for l g.
Proof.
  induction l as [|k l IH]; intros [|i] f q O N; try discriminate; cbn [set_positions map nth_error] in N |- *.
  - injection N as <-. eexists. split; [reflexivity|]. split; [reflexivity|]. intros g. rewrite !stored_cons. cbn [kf_frame kf_positions]. rewrite (Nat.eqb_sym g). destruct (Nat.eqb (kf_frame k) g); reflexivity.
  - unfold in_order in O. cbn [map] in O. apply sorted_cons in O. destruct O as [O F]. destruct (IH i f q O N) as (l' & E & M & G). rewrite E. eexists. split; [reflexivity|]. split; [cbn [map]; rewrite M; reflexivity|].
    intros g. rewrite !stored_cons, G. apply nth_error_In in N. specialize (F f N). destruct (Nat.eqb_spec (kf_frame k) g) as [<-|]; [|reflexivity]. destruct (Nat.eqb_spec (kf_frame k) f); [lia|reflexivity].
Qed.
Lemma insert_ok : forall l i k, (i <= length l)%nat -> exists a b, l = a ++ b /\ length a = i /\ insert_at l i k = Some (a ++ k :: b).
Proof.
  intros l i. revert l. induction i as [|i IH]; intros l k L; [exists [], l; destruct l; split; [reflexivity|split; reflexivity|reflexivity|split; reflexivity]|].
  destruct l as [|c l]; [cbn in L; lia|]. destruct (IH l k) as (a & b & -> & La & E); [cbn in L; lia|]. exists (c :: a), b. split; [reflexivity|]. split; [cbn; rewrite La; reflexivity|]. cbn [insert_at]. rewrite E. reflexivity.
Qed.
Lemma add_ok search (s : scene_data A) frame q : searches search -> in_order (sd_animation s) -> sd_animation s <> [] -> length q = mt_vertices (sd_topo s) ->
  exists s', add_keyframe search s frame q = Some s' /\ sd_topo s' = sd_topo s /\ in_order (sd_animation s') /\ sd_animation s' <> [] /\
    forall f, stored_for (sd_animation s') f = if Nat.eqb f frame then Some (filter_animated (sd_topo s) frame q) else stored_for (sd_animation s) f.
Proof.
  intros SE O NE L. unfold add_keyframe. cbv zeta. set (l := sd_animation s) in *. set (t := sd_topo s) in *. set (k := filter_animated t frame q).
  assert (KEEP : forall l', map kf_frame l' = map kf_frame l -> in_order l' /\ l' <> []) by (intros l' M; split; [unfold in_order; rewrite M; exact O|intros ->; destruct l; [apply NE; reflexivity|discriminate]]).
  destruct (rev l) as [|last rl] eqn:R; [apply (f_equal (@rev _)) in R; rewrite rev_involutive in R; contradiction|].
  assert (EL : l = rev rl ++ [last]) by (apply (f_equal (@rev _)) in R; rewrite rev_involutive in R; exact R).
  rewrite L, Nat.eqb_refl. cbn [negb]. destruct (Nat.compare_spec frame (kf_frame last)) as [E|E|E].
  - destruct (set_positions_ok l (length l - 1) frame k O) as (l' & E1 & M & G).
    { rewrite EL, map_app, app_length. cbn [length]. replace (length (rev rl) + 1 - 1) with (length (map kf_frame (rev rl)) + 0) by (rewrite map_length; lia). rewrite nth_error_app2 by lia. rewrite Nat.add_0_r, Nat.sub_diag. cbn. rewrite E. reflexivity. }
    rewrite E1. cbn [option_map]. eexists. split; [reflexivity|]. split; [reflexivity|]. destruct (KEEP l' M) as [K1 K2]. split; [exact K1|]. split; [exact K2|exact G].
  - pose proof (SE (map kf_frame l) frame (sorted_le _ O)) as SP. destruct (search (map kf_frame l) frame) as [i|i].
    + destruct (set_positions_ok l i frame k O SP) as (l' & E1 & M & G). rewrite E1. eexists. split; [reflexivity|]. split; [reflexivity|]. destruct (KEEP l' M) as [K1 K2]. split; [exact K1|]. split; [exact K2|exact G].
    + destruct SP as (B & S1 & S2). rewrite map_length in B. destruct (insert_ok l i (Keyframe frame k) B) as (a & b & EA & La & E1). rewrite E1. eexists. split; [reflexivity|]. split; [reflexivity|]. cbn [sd_animation].
      assert (FA : forall x, In x (map kf_frame a) -> (x < frame)%nat). { intros x X. apply In_nth_error in X. destruct X as [j J]. assert (JJ : (j < length (map kf_frame a))%nat) by (apply nth_error_Some; congruence). apply (S1 j x); [rewrite map_length, La in JJ; exact JJ|]. rewrite EA, map_app, nth_error_app1 by exact JJ. exact J. }
      assert (FB : forall x, In x (map kf_frame b) -> (frame < x)%nat). { intros x X. apply In_nth_error in X. destruct X as [j J]. apply (S2 (i + j) x); [lia|]. rewrite EA, map_app, nth_error_app2 by (rewrite map_length; lia). rewrite map_length, La. replace (i + j - i) with j by lia. exact J. }
      unfold in_order in O. rewrite EA, map_app in O. apply sorted_app in O. destruct O as (O1 & O2 & O3).
      split; [|split; [destruct a; discriminate|]].
      * unfold in_order. rewrite map_app. apply sorted_app. split; [exact O1|]. cbn [map kf_frame]. split; [apply sorted_cons; split; assumption|]. intros x y X [<-|Y]; [exact (FA x X)|exact (O3 x y X Y)].
      * intros f. rewrite EA, !stored_app, stored_cons. cbn [kf_frame kf_positions]. rewrite (Nat.eqb_sym f). destruct (Nat.eqb_spec frame f) as [<-|N]; [|reflexivity]. rewrite (stored_none a frame); [reflexivity|]. intros g G. specialize (FA g G). lia.
  - eexists. split; [reflexivity|]. split; [reflexivity|]. cbn [sd_animation]. assert (FA : forall x, In x (map kf_frame l) -> (x < frame)%nat).
    { intros x X. rewrite EL, map_app in X. apply in_app_or in X. destruct X as [X|[<-|[]]]; [|exact E]. unfold in_order in O. rewrite EL, map_app in O. apply sorted_app in O. destruct O as (_ & _ & O). specialize (O x (kf_frame last) X (or_introl eq_refl)). lia. }
    split; [|split; [destruct l; discriminate|]].
    + unfold in_order. rewrite map_app. apply sorted_app. split; [exact O|]. cbn [map kf_frame]. split; [repeat constructor|]. intros x y X [<-|[]]. exact (FA x X).
    + intros f. rewrite stored_app, stored_cons. cbn [kf_frame kf_positions stored_for find option_map]. destruct (Nat.eqb_spec f frame) as [->|N].
      * rewrite stored_none by (intros g G; specialize (FA g G); lia). rewrite Nat.eqb_refl. reflexivity.
      * destruct (Nat.eqb_spec frame f); [congruence|]. destruct (stored_for l f); reflexivity.
Qed.
Lemma stored_ext : forall l l', in_order l -> in_order l' -> (forall f, stored_for l f = stored_for l' f) -> l = l'.
Proof.
  induction l as [|k l IH]; intros [|k' l'] O O' H.
  - reflexivity.
  - specialize (H (kf_frame k')). rewrite stored_cons, Nat.eqb_refl in H. discriminate.
  - specialize (H (kf_frame k)). rewrite stored_cons, Nat.eqb_refl in H. discriminate.
  - unfold in_order in O, O'. cbn [map] in O, O'. apply sorted_cons in O. apply sorted_cons in O'. destruct O as [O F]. destruct O' as [O' F'].
    assert (E : kf_frame k = kf_frame k').
    { pose proof (H (kf_frame k)) as H1. pose proof (H (kf_frame k')) as H2. rewrite !stored_cons, Nat.eqb_refl in H1. rewrite !stored_cons, Nat.eqb_refl in H2.
      destruct (Nat.eqb_spec (kf_frame k') (kf_frame k)) as [E|N]; [symmetry; exact E|]. destruct (Nat.eqb_spec (kf_frame k) (kf_frame k')) as [E|_]; [exact E|].
      symmetry in H1. apply stored_some in H1. apply stored_some in H2. specialize (F' _ H1). specialize (F _ H2). lia. }
    assert (EP : kf_positions k = kf_positions k') by (specialize (H (kf_frame k)); rewrite !stored_cons, <- E, Nat.eqb_refl in H; injection H; auto).
    f_equal; [destruct k, k'; cbn in *; subst; reflexivity|]. apply IH; [exact O|exact O'|]. intros f. destruct (Nat.eq_dec f (kf_frame k)) as [->|N].
    + rewrite !stored_none; [reflexivity| |]; intros g G; [specialize (F' g G)|specialize (F g G)]; lia.
    + specialize (H f). rewrite !stored_cons, <- E in H. destruct (Nat.eqb_spec (kf_frame k) f); [congruence|exact H].
Qed.
Definition keyed (t : mesh_topo) (keys : list (nat * list A)) : list (keyframe A) := map (fun k => Keyframe (fst k) (filter_animated t (fst k) (snd k))) keys.
Lemma keyed_frames t keys : map kf_frame (keyed t keys) = map fst keys.
Proof. unfold keyed. rewrite map_map. reflexivity. Qed.
Lemma find_perm (keys keys' : list (nat * list A)) f : Permutation keys keys' -> NoDup (map fst keys) -> find (fun k => Nat.eqb (fst k) f) keys = find (fun k => Nat.eqb (fst k) f) keys'.
Proof.
  induction 1 as [|x l l' P IH|x y l|l l' l'' P1 IH1 P2 IH2]; intros ND; [reflexivity| | |].
  - cbn [find]. inversion ND; subst. rewrite IH by assumption. reflexivity.
  - cbn [find]. inversion ND as [|? ? N1 N2]; subst. destruct (Nat.eqb_spec (fst x) f), (Nat.eqb_spec (fst y) f); try reflexivity. exfalso. apply N1. left. congruence.
  - rewrite IH1 by exact ND. apply IH2. apply (Permutation_NoDup (Permutation_map fst P1) ND).
Qed.
Lemma add_all_ok search : searches search -> forall keys (s : scene_data A), in_order (sd_animation s) -> sd_animation s <> [] -> (forall k, In k keys -> length (snd k) = mt_vertices (sd_topo s)) -> NoDup (map fst keys) ->
  exists s', add_keyframes search s keys = Some s' /\ sd_topo s' = sd_topo s /\ in_order (sd_animation s') /\
    forall f, stored_for (sd_animation s') f = match find (fun k => Nat.eqb (fst k) f) keys with Some k => Some (filter_animated (sd_topo s) f (snd k)) | None => stored_for (sd_animation s) f end.
Proof.
  intros SE. induction keys as [|[g q] keys IH]; intros s O NE L ND; [exists s; split; [reflexivity|]; split; [reflexivity|]; split; [exact O|reflexivity]|].
  destruct (add_ok search s g q SE O NE (L (g, q) (or_introl eq_refl))) as (s1 & E1 & T1 & O1 & NE1 & G1). cbn [add_keyframes]. rewrite E1. inversion ND as [|? ? N1 N2]; subst.
  destruct (IH s1 O1 NE1) as (s2 & E2 & T2 & O2 & G2); [intros k K; rewrite T1; apply L; right; exact K|exact N2|]. exists s2. split; [exact E2|]. split; [congruence|]. split; [exact O2|]. intros f. rewrite G2, G1, T1. cbn [find fst].
  rewrite (Nat.eqb_sym g f). destruct (Nat.eqb_spec f g) as [->|N]; [|reflexivity]. cbn [snd]. assert (Z : find (fun k => Nat.eqb (fst k) g) keys = None).
  { destruct (find _ keys) as [k|] eqn:F; [|reflexivity]. apply find_some in F. destruct F as [F1 F2]. apply Nat.eqb_eq in F2. exfalso. apply N1. cbn [fst]. rewrite <- F2. apply in_map, F1. }
  rewrite Z. reflexivity.
Qed.
Lemma make_all t : forall keys ks, make_keyframes t keys = Some ks -> ks = keyed t keys /\ forall k, In k keys -> length (snd k) = mt_vertices t.
Proof.
  induction keys as [|[f q] keys IH]; intros ks E; cbn [make_keyframes] in E; [injection E as <-; split; [reflexivity|intros k []]|].
  unfold make_keyframe in E. destruct (Nat.eqb_spec (length q) (mt_vertices t)) as [L|]; [|discriminate]. destruct (make_keyframes t keys) as [r|]; [|discriminate]. injection E as <-. destruct (IH r eq_refl) as [-> H].
  split; [reflexivity|]. intros k [<-|K]; [exact L|exact (H k K)].
Qed.
Lemma make_all_ok t : forall keys, (forall k, In k keys -> length (snd k) = mt_vertices t) -> make_keyframes t keys = Some (keyed t keys).
Proof.
  induction keys as [|[f q] keys IH]; intros H; [reflexivity|]. cbn [make_keyframes]. unfold make_keyframe. pose proof (H (f, q) (or_introl eq_refl)) as L. cbn [snd] in L. rewrite L, Nat.eqb_refl, IH by (intros k K; apply H; right; exact K). reflexivity.
Qed.
Lemma set_inv (s0 : scene_data A) frames positions s : set_keyframes s0 frames positions = Some s -> exists f r, frames = f :: r /\ length frames = length positions /\ sd_topo s = sd_topo s0 /\
  sd_animation s = (if Nat.eqb f 0 then [] else firstn 1 (sd_animation s0)) ++ keyed (sd_topo s0) (combine frames positions) /\ not_decreasing frames = true /\
  forall k, In k (combine frames positions) -> length (snd k) = mt_vertices (sd_topo s0).
Proof.
  unfold set_keyframes. destruct (Nat.eqb_spec (length frames) (length positions)) as [L|]; [|discriminate]. cbn [negb]. destruct frames as [|f r]; [discriminate|]. destruct (not_decreasing (f :: r)); [|discriminate]. cbn [negb].
  destruct (make_keyframes (sd_topo s0) (combine (f :: r) positions)) as [ks|] eqn:E; [|discriminate]. apply make_all in E. destruct E as [-> H]. intros E. injection E as <-. exists f, r. split; [reflexivity|]. split; [exact L|]. split; [reflexivity|]. split; [reflexivity|]. split; [reflexivity|exact H].
Qed.
Lemma keyed_stored t keys f : NoDup (map fst keys) -> stored_for (keyed t keys) f = match find (fun k => Nat.eqb (fst k) f) keys with Some k => Some (filter_animated t f (snd k)) | None => None end.
Proof.
  induction keys as [|[g q] keys IH]; intros ND; [reflexivity|]. cbn [keyed map]. rewrite stored_cons. cbn [kf_frame kf_positions fst snd find]. inversion ND; subst. destruct (Nat.eqb_spec g f) as [->|]; [reflexivity|]. apply IH. assumption.
Qed.
Lemma combine_frames : forall (frames : list nat) (positions : list (list A)), length frames = length positions -> map fst (combine frames positions) = frames.
Proof. induction frames as [|f r IH]; intros [|q positions] L; try discriminate; [reflexivity|]. cbn. rewrite IH by (injection L; auto). reflexivity. Qed.
Lemma sorted_nodup (l : list nat) : StronglySorted lt l -> NoDup l.
Proof. induction l as [|a l IH]; intros S; [constructor|]. apply sorted_cons in S. destruct S as [S F]. constructor; [intros I; specialize (F a I); lia|exact (IH S)]. Qed.
Lemma set_is_add search attr (first : list A) frames positions s keys : searches search -> StronglySorted lt frames -> set_keyframes (new_scene attr first) frames positions = Some s -> Permutation keys (combine frames positions) ->
  add_keyframes search (new_scene attr first) keys = Some s.
Proof.
  intros SE SO ST PE. destruct (set_inv _ _ _ _ ST) as (f & r & EF & L & T & AN & _ & LQ). pose proof (combine_frames frames positions L) as CF. assert (ND : NoDup (map fst (combine frames positions))) by (rewrite CF; apply sorted_nodup, SO).
  assert (ND' : NoDup (map fst keys)) by exact (Permutation_NoDup (Permutation_map fst (Permutation_sym PE)) ND).
  destruct (add_all_ok search SE keys (new_scene attr first)) as (s' & E & T' & O' & G); [repeat constructor|discriminate|intros k K; apply LQ, (Permutation_in _ PE), K|exact ND'|]. rewrite E. f_equal.
  assert (OS : in_order (sd_animation s)).
  { rewrite AN. unfold in_order. rewrite map_app, keyed_frames, CF. destruct (Nat.eqb_spec f 0) as [|N]; [exact SO|]. cbn [new_scene sd_animation firstn map kf_frame app]. apply sorted_cons. split; [exact SO|]. intros b B. rewrite EF in B, SO. apply sorted_cons in SO. destruct SO as [_ F]. destruct B as [<-|B]; [lia|specialize (F b B); lia]. }
  assert (EA : sd_animation s' = sd_animation s).
  { apply stored_ext; [exact O'|exact OS|]. intros g. rewrite G, (find_perm _ _ g PE ND'), AN, stored_app, keyed_stored by exact ND. cbn [new_scene sd_animation sd_topo firstn].
    destruct (Nat.eqb_spec f 0) as [->|N].
    - cbn [stored_for find option_map]. destruct (find _ (combine frames positions)) as [k|] eqn:FD; [reflexivity|]. rewrite stored_cons. cbn [kf_frame]. destruct (Nat.eqb_spec 0 g) as [<-|]; [|reflexivity].
      exfalso. rewrite EF in FD. destruct positions as [|q ps]; [subst; discriminate|]. cbn in FD. discriminate.
    - rewrite !stored_cons. cbn [kf_frame kf_positions]. destruct (Nat.eqb_spec 0 g) as [<-|]; [|destruct (find _ (combine frames positions)); reflexivity]. destruct (find _ (combine frames positions)) as [k|] eqn:FD; [|reflexivity].
      apply find_some in FD. destruct FD as [F1 F2]. apply Nat.eqb_eq in F2. apply (in_map fst) in F1. rewrite CF, F2, EF in F1. rewrite EF in SO. apply sorted_cons in SO. destruct SO as [_ F]. destruct F1 as [F1|F1]; [congruence|]. specialize (F 0 F1). lia. }
  destruct s as [t l], s' as [t' l']. cbn in *. congruence.
Qed.
End Keys.

(** * The loop *)
Lemma latest_skip {A} : forall (keys : list (nat * list A)) q f, (forall k, In k keys -> (f < fst k)%nat) -> latest q keys f = q.
Proof. unfold latest. induction keys as [|k keys IH]; intros q f H; [reflexivity|]. cbn [fold_left]. destruct (Nat.leb_spec (fst k) f) as [L|]; [specialize (H k (or_introl eq_refl)); lia|]. apply IH. intros k' K. apply H. right. exact K. Qed.
Lemma latest_app {A} (q : list A) a b f : latest q (a ++ b) f = latest (latest q a f) b f.
Proof. apply fold_left_app. Qed.
Lemma latest_at {A} (q : list A) (done todo : list (nat * list A)) k f : fst k = f -> (forall k', In k' todo -> (f < fst k')%nat) -> latest q (done ++ k :: todo) f = snd k.
Proof. intros E H. rewrite latest_app. change (latest (latest q done f) (k :: todo) f) with (latest (if Nat.leb (fst k) f then snd k else latest q done f) todo f). rewrite E, Nat.leb_refl. apply latest_skip, H. Qed.
Section Run.
Context {A S : Type}.
Variables (build : list A -> option S) (step : S -> option S) (update : S -> list A -> option S) (callback : nat -> S -> bool).
Variables (t : mesh_topo) (first : list A) (keys : list (nat * list A)) (d : scene_data A).
Hypothesis AN : sd_animation d = Keyframe 0 first :: keyed t keys.
Hypothesis TO : sd_topo d = t.
Hypothesis LK : forall k, In k keys -> length (snd k) = length first.
Hypothesis SO : StronglySorted lt (map fst keys).
Lemma next_keyframe done todo : keys = done ++ todo -> nth_error (sd_animation d) (1 + length done) = match todo with k :: _ => Some (Keyframe (fst k) (filter_animated t (fst k) (snd k))) | [] => None end.
Proof.
  intros E. rewrite AN. cbn [Nat.add nth_error]. unfold keyed. rewrite E, map_app, nth_error_app2 by (rewrite map_length; lia). rewrite map_length, Nat.sub_diag. destruct todo; reflexivity.
Qed.
Lemma sorted_todo done k todo : keys = done ++ k :: todo -> (forall k', In k' todo -> (fst k < fst k')%nat) /\ (forall k', In k' done -> (fst k' < fst k)%nat).
Proof.
  intros E. rewrite E, map_app in SO. apply sorted_app in SO. destruct SO as (_ & S2 & S3). cbn [map] in S2, S3. apply sorted_cons in S2. destruct S2 as [_ F]. split; [intros k' K; apply F, in_map, K|intros k' K; apply S3; [apply in_map, K|left; reflexivity]].
Qed.
Lemma applied out done k todo : fst k <> 0 -> keys = done ++ k :: todo -> (exists q, length q = length first /\ out = merged t first q) ->
  update_positions_with_animated (sd_topo d) (fst k) (filter_animated t (fst k) (snd k)) out = prescribed t first keys (fst k) /\ prescribed t first keys (fst k) = merged t first (snd k).
Proof.
  intros N E (q & LQ & ->). assert (LS : length (snd k) = length first) by (apply LK; rewrite E; apply in_or_app; right; left; reflexivity).
  assert (EP : prescribed t first keys (fst k) = merged t first (snd k)). { unfold prescribed. rewrite E at 1. rewrite (latest_at first done todo k (fst k) eq_refl) by apply (sorted_todo done k todo E). reflexivity. }
  split; [|exact EP]. rewrite TO, EP, round_trip by (try exact N; rewrite merged_length; congruence). apply merged_again; congruence.
Qed.
Lemma loop_on_time : (forall k, In k keys -> (2 <= fst k)%nat) -> forall left frame solver out done todo, keys = done ++ todo -> (forall k, In k done -> (fst k <= frame)%nat) -> (forall k, In k todo -> (frame < fst k)%nat) ->
  (exists q, length q = length first /\ out = merged t first q) -> run_loop step update callback d left frame solver out (1 + length done) = playback step update callback t first keys 1 left frame solver.
Proof.
  intros TWO. induction left as [|left IH]; intros frame solver out done todo E HD HT HO; [reflexivity|]. cbn [run_loop playback]. destruct (step solver) as [s1|]; [|reflexivity]. destruct (callback frame s1); [|reflexivity]. cbn [negb].
  rewrite (next_keyframe done todo E). destruct todo as [|k todo].
  - replace (existsb _ keys) with false; [apply (IH _ _ _ done []); [exact E|intros k K; specialize (HD k K); lia|intros k []|exact HO]|]. symmetry. apply not_true_is_false. intros X. apply existsb_exists in X. destruct X as (k & K & X). apply Nat.eqb_eq in X. rewrite E, app_nil_r in K. specialize (HD k K). lia.
  - cbn [kf_frame kf_positions]. destruct (sorted_todo done k todo E) as [S1 S2]. pose proof (HT k (or_introl eq_refl)) as FK. destruct (Nat.leb_spec (fst k) (frame + 1)) as [LE|GT].
    + assert (EQ : fst k = frame + 1) by lia. replace (existsb _ keys) with true; [|symmetry; apply existsb_exists; exists k; split; [rewrite E; apply in_or_app; right; left; reflexivity|apply Nat.eqb_eq; exact EQ]].
      destruct (applied out done k todo ltac:(lia) E HO) as [P1 P2]. rewrite P1, EQ. destruct (update s1 (prescribed t first keys (frame + 1))) as [s2|]; [|reflexivity].
      replace (1 + length done + 1) with (1 + length (done ++ [k])) by (rewrite app_length; cbn; lia). apply (IH _ _ _ (done ++ [k]) todo).
      * rewrite E, <- app_assoc. reflexivity.
      * intros k' K. apply in_app_or in K. destruct K as [K|[<-|[]]]; [specialize (HD k' K); lia|lia].
      * intros k' K. specialize (S1 k' K). lia.
      * exists (snd k). split; [apply LK; rewrite E; apply in_or_app; right; left; reflexivity|]. rewrite <- EQ. exact P2.
    + replace (existsb _ keys) with false; [apply (IH _ _ _ done (k :: todo)); [exact E|intros k' K; specialize (HD k' K); lia| |exact HO]; intros k' [<-|K]; [lia|specialize (S1 k' K); lia]|].
      symmetry. apply not_true_is_false. intros X. apply existsb_exists in X. destruct X as (k' & K & X). apply Nat.eqb_eq in X. rewrite E in K. apply in_app_or in K. destruct K as [K|[<-|K]]; [specialize (HD k' K); lia|lia|specialize (S1 k' K); lia].
Qed.
Lemma loop_late : (exists n, map fst keys = seq 1 n) -> forall left frame solver out done todo, keys = done ++ todo -> frame <> 0 -> length done = Nat.min (frame - 1) (length keys) ->
  (exists q, length q = length first /\ out = merged t first q) -> run_loop step update callback d left frame solver out (1 + length done) = playback step update callback t first keys 0 left frame solver.
Proof.
  intros [n EN]. assert (LN : length keys = n) by (rewrite <- (map_length fst keys), EN; apply seq_length).
  induction left as [|left IH]; intros frame solver out done todo E FZ LD HO; [reflexivity|]. cbn [run_loop playback]. destruct (step solver) as [s1|]; [|reflexivity]. destruct (callback frame s1); [|reflexivity]. cbn [negb].
  rewrite (next_keyframe done todo E), Nat.add_0_r. assert (LT : length keys = length done + length todo) by (rewrite E; apply app_length). destruct todo as [|k todo].
  - cbn [length] in LT. replace (existsb _ keys) with false; [apply (IH _ _ _ done []); [exact E|lia|lia|exact HO]|]. symmetry. apply not_true_is_false. intros X. apply existsb_exists in X. destruct X as (k & K & X). apply Nat.eqb_eq in X. apply (in_map fst) in K. rewrite EN, X in K. apply in_seq in K. lia.
  - cbn [length] in LT. assert (EQ : fst k = frame). { assert (M : nth (length done) (map fst keys) 0 = fst k) by (rewrite E, map_app, app_nth2; rewrite map_length; [rewrite Nat.sub_diag; reflexivity|lia]). rewrite EN, seq_nth in M by lia. lia. }
    cbn [kf_frame kf_positions]. destruct (Nat.leb_spec (fst k) (frame + 1)) as [_|]; [|lia]. replace (existsb _ keys) with true; [|symmetry; apply existsb_exists; exists k; split; [rewrite E; apply in_or_app; right; left; reflexivity|apply Nat.eqb_eq; exact EQ]].
    destruct (applied out done k todo ltac:(lia) E HO) as [P1 P2]. rewrite P1, EQ. destruct (update s1 (prescribed t first keys frame)) as [s2|]; [|reflexivity].
    replace (1 + length done + 1) with (1 + length (done ++ [k])) by (rewrite app_length; cbn; lia). apply (IH _ _ _ (done ++ [k]) todo).
    + rewrite E, <- app_assoc. reflexivity.
    + lia.
    + rewrite app_length. cbn [length]. lia.
    + exists (snd k). split; [apply LK; rewrite E; apply in_or_app; right; left; reflexivity|]. rewrite <- EQ. exact P2.
Qed.
End Run.
