(** Neighbourhood caches of the implicit surface: theorems, each with an example. *)
From Coq Require Import Reals List ZArith Lra Lia Psatz Bool Sorted.
From Verif Require Import Vec3 RList KernelModel KernelSpec KernelProofs FieldModel FieldSpec FieldProofs FieldDerivProofs FieldAvgProofs NeighborModel NeighborSpec NeighborProofs.
Import ListNotations.
Local Open Scope R_scope.

(** A triangle with vertex samples, the search tree a linear search. *)
Definition ex_verts : list v3 := [V3 0 0 0; V3 10 0 0; V3 0 10 0].
Definition ex_samples : list sample := map (fun p => Sample p (V3 0 0 1) v3_0 0) ex_verts.
Definition ex_base : base := Base (BgParams FZero false) [(0, 1, 2)%nat] ex_verts ex_samples [[0]; [0]; [0]]%nat SVertex (build_tree ex_samples).
Definition ex_mls : local_mls := LocalMls (LCubic 2) (1 / 2) (1 / 2) ex_base.
(** The same triangle with one face sample. *)
Definition ex_face_samples : list sample := [Sample (tri_centroid ex_verts (0, 1, 2)%nat) (V3 0 0 1) v3_0 0].
Definition ex_face_base : base := Base (BgParams FZero false) [(0, 1, 2)%nat] ex_verts ex_face_samples [] SFace (build_tree ex_face_samples).
Definition ex_face_mls : local_mls := LocalMls (LCubic 2) (1 / 2) (1 / 2) ex_face_base.
Lemma ex_ok : well_formed ex_base /\ current ex_base /\ sampled ex_base.
Proof.
  split; [|split; reflexivity]. split.
  - intros t v [<-|[]] H. simpl in *. lia.
  - cbn. split; [reflexivity|]. split; [right; reflexivity|]. intros i t. destruct i as [|[|[|i]]]; cbn [nth].
    4: { destruct i; simpl; intuition lia. }
    all: split; [intros [<-|[]]; simpl; lia|intros (_ & L & _); left; lia].
Qed.
Lemma ex_face_ok : well_formed ex_face_base /\ current ex_face_base /\ sampled ex_face_base.
Proof. split; [|split; reflexivity]. split; [|reflexivity]. intros t v [<-|[]] H. simpl in *. lia. Qed.

(** C56: resetting recomputes, whatever was cached, for every query point: a nearest sample, exactly the samples within the radius
    enlarged by the maximal step, and those together with the corners of the triangles around them; it never panics. *)
Theorem reset_caches_neighbors : forall o hash qs s n, faithful o -> well_formed (lm_base s) -> current (lm_base s) ->
  0 <= lm_radius s + lm_max_step s -> (qs <> [] -> sb_samples (lm_base s) <> []) ->
  exists n' changed, reset o hash qs (QLocal s n) = Some (QLocal s n', changed) /\
    length (n_closest n') = length qs /\ length (n_trivial n') = length qs /\ length (n_extended n') = length qs /\
    forall k, (k < length qs)%nat -> exact_at s (nth k qs v3_0) (nth k (n_closest n') 0%nat) (nth k (n_trivial n') []) (nth k (n_extended n') []).
Proof. exact reset_exact. Qed.
Example reset_caches_neighbors_ex : faithful scan /\ well_formed (lm_base ex_mls) /\ current (lm_base ex_mls) /\ lm_radius ex_mls + lm_max_step ex_mls = 3 / 2 /\
  sb_samples (lm_base ex_mls) <> [] /\ within (sb_samples (lm_base ex_mls)) (V3 0 0 1) (3 / 2) 0 /\ ~ within (sb_samples (lm_base ex_mls)) (V3 0 0 1) (3 / 2) 1 /\
  adjacent (lm_base ex_mls) [0%nat] 1.
Proof.
  destruct ex_ok as (A & B & _). split; [exact scan_faithful|]. split; [exact A|]. split; [exact B|]. split; [unfold lm_radius; simpl; lra|]. split; [discriminate|]. split; [|split].
  - split; [simpl; lia|]. apply gap_dist2; [lra|]. unfold dist2, norm2, v3_dot. simpl. lra.
  - intros [_ G]. apply gap_dist2 in G; [|lra]. unfold dist2, norm2, v3_dot in G. simpl in G. lra.
  - exists 0%nat, (0, 1, 2)%nat. simpl. auto 10.
Qed.

(** C56: as long as query points and vertices together move no further than the maximal step, every sample within the radius is cached. *)
Theorem caches_cover_moves : forall o hash s n qs t changed new rebuild qs' ds dq,
  faithful o -> well_formed (lm_base s) -> current (lm_base s) -> sampled (lm_base s) ->
  reset o hash qs (QLocal s n) = Some (t, changed) ->
  moved_at_most ds (sb_verts (lm_base s)) new -> moved_at_most dq qs qs' -> ds + dq <= lm_max_step s ->
  forall k i, (k < length qs')%nat ->
    within (sb_samples (q_base (fst (update_surface t new rebuild)))) (nth k qs' v3_0) (lm_radius s) i ->
    In i (nth k (trivial_neighborhood (fst (update_surface t new rebuild))) []).
Proof.
  intros o hash s n qs t changed new rebuild qs' ds dq F WF CU SA RS MV MQ ST k i Hk W.
  destruct (covers o hash s n qs t changed new rebuild qs' ds dq F WF CU SA RS MV MQ ST k Hk (ex_intro _ i W)) as (_ & _ & C). apply C. exact W.
Qed.
Example caches_cover_moves_ex : (exists t changed, reset scan (fun _ => 0%Z) [V3 0 0 1] (QLocal ex_mls nbh_new) = Some (t, changed)) /\ sampled ex_base /\
  moved_at_most (1 / 4) ex_verts [V3 0 0 (1 / 4); V3 10 0 0; V3 0 (39 / 4) 0] /\ moved_at_most (1 / 4) [V3 0 0 1] [V3 (1 / 4) 0 1] /\ 1 / 4 + 1 / 4 <= lm_max_step ex_mls /\
  sampled ex_face_base.
Proof.
  assert (N : forall x y z, x * x + y * y + z * z <= 1 / 16 -> v3_norm (V3 x y z) <= 1 / 4).
  { intros x y z H. unfold v3_norm, v3_dot. simpl. apply Rsqr_incr_0_var; [|lra]. rewrite Rsqr_sqrt by nra. unfold Rsqr. lra. }
  destruct ex_ok as (A & B & C). split; [|split; [exact C|split; [|split; [|split]]]].
  - destruct (reset_exact scan (fun _ => 0%Z) [V3 0 0 1] ex_mls nbh_new scan_faithful A B) as (n' & ch & E & _); [unfold lm_radius; simpl; lra|discriminate|]. eauto.
  - split; [reflexivity|]. intros i L. simpl in L. destruct i as [|[|[|i]]]; [| | |lia]; unfold pt, v3_sub; cbn [nth vx vy vz ex_verts]; apply N; lra.
  - split; [reflexivity|]. intros i L. simpl in L. destruct i as [|i]; [|lia]. unfold pt, v3_sub; cbn [nth vx vy vz]. apply N. lra.
  - simpl. lra.
  - apply ex_face_ok.
Qed.

(** C56, refuted: nothing invalidates the caches.  Moving the surface, enlarging the radius, or enlarging the step and moving the query
    point leaves a sample within the radius out of them. *)
Theorem caches_go_stale_refuted : exists s t q q' new mult step,
  well_formed (lm_base s) /\ current (lm_base s) /\ sampled (lm_base s) /\ reset scan (fun _ => 0%Z) [q] (QLocal s nbh_new) = Some (t, true) /\
  (forall t', t' = fst (update_surface t new true) -> within (sb_samples (q_base t')) q (lm_radius s) 0 /\ trivial_neighborhood t' = [[]]) /\
  (forall t' s' n', t' = update_radius_multiplier t mult -> t' = QLocal s' n' -> within (sb_samples (lm_base s')) q (lm_radius s') 0 /\ trivial_neighborhood t' = [[]]) /\
  (forall t' s' n', t' = update_max_step t step -> t' = QLocal s' n' ->
     moved_at_most (lm_max_step s') [q] [q'] /\ within (sb_samples (lm_base s')) q' (lm_radius s') 0 /\ trivial_neighborhood t' = [[]]).
Proof.
  pose (s := cloud_mls (BgParams FZero false) 1 0 [V3 10 0 0]). destruct (cloud_ok (BgParams FZero false) [V3 10 0 0]) as (WF & CU & SA).
  assert (RR : lm_radius s = 1) by (unfold lm_radius, s, cloud_mls; simpl; ring).
  destruct (reset_exact scan (fun _ => 0%Z) [v3_0] s nbh_new scan_faithful WF CU) as (n' & ch & E & _ & LT & _ & X); [rewrite RR; simpl; lra|discriminate|].
  destruct (reset_sets _ _ _ _ _ _ _ E) as (cl & ex & _ & _ & _ & EC).
  specialize (X 0%nat ltac:(simpl; lia)). destruct X as (_ & (_ & T) & _). rewrite RR in T. cbn [nth lm_max_step s cloud_mls] in T.
  assert (TN : n_trivial n' = [[]]).
  { destruct (n_trivial n') as [|l [|? ?]]; simpl in LT; try lia. f_equal. destruct l as [|i l]; [reflexivity|]. exfalso. destruct (proj1 (T i) (or_introl eq_refl)) as [L G].
    simpl in L. assert (i = 0%nat) as -> by lia. apply (cloud_gap (BgParams FZero false) [V3 10 0 0]) in G; [|simpl; lia|lra]. unfold norm2, v3_dot in G. simpl in G. lra. }
  assert (CH : ch = true) by (rewrite EC; reflexivity). subst ch.
  exists s, (QLocal s n'), v3_0, (V3 (19 / 2) 0 0), [V3 (1 / 2) 0 0], 20, 10. repeat (split; [assumption|]).
  split; [|split].
  - intros t' ->. split; [|exact TN]. split; [simpl; lia|]. rewrite RR. apply gap_dist2; [lra|]. unfold dist2, norm2, v3_dot. simpl. lra.
  - intros t' s' m -> EQ. injection EQ as <- <-. split; [|exact TN]. split; [simpl; lia|]. apply gap_dist2; [unfold lm_radius; simpl; lra|]. unfold dist2, norm2, v3_dot, lm_radius. simpl. lra.
  - intros t' s' m -> EQ. injection EQ as <- <-. split; [|split; [|exact TN]].
    + split; [reflexivity|]. intros i L. simpl in L. assert (i = 0%nat) as -> by lia. unfold pt, v3_norm, v3_dot, v3_sub. cbn [nth vx vy vz v3_0 lm_max_step]. apply Rsqr_incr_0_var; [|lra]. rewrite Rsqr_sqrt by lra. unfold Rsqr. lra.
    + split; [simpl; lia|]. apply gap_dist2; [unfold lm_radius; simpl; lra|]. unfold dist2, norm2, v3_dot, lm_radius. simpl. lra.
Qed.

Example caches_go_stale_refuted_ex : lm_radius (cloud_mls (BgParams FZero false) 1 0 [V3 10 0 0]) = 1 /\ norm2 (v3_sub v3_0 (V3 10 0 0)) = 100 /\ norm2 (v3_sub v3_0 (V3 (1 / 2) 0 0)) = 1 / 4.
Proof. unfold lm_radius, norm2, v3_dot. simpl. lra. Qed.

(** C127: a reported change is a change; when none is reported the nearest samples are the same and the hashes of all lists agree,
    so that with a hash without collisions nothing changed. *)
Theorem change_flag_reports : forall o hash qs s n n' changed, reset o hash qs (QLocal s n) = Some (QLocal s n', changed) ->
  (changed = true -> n' <> n) /\
  (changed = false -> n_closest n' = n_closest n /\ map hash (n_trivial n') = map hash (n_trivial n) /\ map hash (n_extended n') = map hash (n_extended n)) /\
  ((forall l m, hash l = hash m -> l = m) -> (changed = true <-> n' <> n)).
Proof.
  intros o hash qs s n n' changed H. destruct (reset_flag _ _ _ _ _ _ _ H) as [A B]. split; [exact A|]. split; [exact B|].
  intros INJ. split; [exact A|]. intros N. destruct changed; [reflexivity|]. exfalso. destruct (B eq_refl) as (B1 & B2 & B3). apply N.
  assert (MI : forall l m, map hash l = map hash m -> l = m).
  { induction l as [|a l IH]; intros [|b m] E; simpl in E; try discriminate; [reflexivity|]. injection E as E1 E2. rewrite (INJ _ _ E1), (IH _ E2). reflexivity. }
  destruct n, n'. simpl in *. rewrite B1, (MI _ _ B2), (MI _ _ B3). reflexivity.
Qed.
Example change_flag_reports_ex : forall hash, exists n1 ch, reset scan hash [V3 0 0 1] (QLocal ex_mls nbh_new) = Some (QLocal ex_mls n1, ch) /\ ch = true /\
  reset scan hash [V3 0 0 1] (QLocal ex_mls n1) = Some (QLocal ex_mls n1, false).
Proof.
  intros hash. destruct ex_ok as (A & B & _).
  destruct (reset_exact scan hash [V3 0 0 1] ex_mls nbh_new scan_faithful A B) as (n1 & ch & E & _); [unfold lm_radius; simpl; lra|discriminate|].
  exists n1, ch. split; [exact E|].
  destruct (reset_exact scan hash [V3 0 0 1] ex_mls n1 scan_faithful A B) as (n2 & ch2 & E2 & _); [unfold lm_radius; simpl; lra|discriminate|].
  destruct (reset_sets _ _ _ _ _ _ _ E) as (cl & ex & EN & A2 & A3 & C). destruct (reset_sets _ _ _ _ _ _ _ E2) as (cl2 & ex2 & EN2 & A22 & A32 & C2).
  split; [rewrite C; reflexivity|].
  match type of EN with QLocal _ ?a = QLocal _ ?b => assert (EN' : a = b) by congruence end. match type of EN2 with QLocal _ ?a = QLocal _ ?b => assert (EN2' : a = b) by congruence end.
  assert (X1 : cl2 = cl). { apply all_some_forall2 in A2, A22. congruence. }
  assert (X2 : ex2 = ex). { apply all_some_forall2 in A3, A32. congruence. }
  assert (SN : n2 = n1) by congruence. rewrite SN in E2. rewrite E2. destruct ch2; [|reflexivity]. exfalso. apply (proj1 (reset_flag _ _ _ _ _ _ _ E2) eq_refl). reflexivity.
Qed.
(** C127, refuted for the bounded hash of the code: whatever it is, two neighbourhoods collide and a changed cache is reported as
    unchanged (the comment in the code speaks of false positives). *)
Theorem change_flag_collision_refuted : forall hash B, (forall l, (0 <= hash l < B)%Z) ->
  exists s q q' n1 n2 c1, well_formed (lm_base s) /\ current (lm_base s) /\ sampled (lm_base s) /\
    reset scan hash [q] (QLocal s nbh_new) = Some (QLocal s n1, c1) /\ reset scan hash [q'] (QLocal s n1) = Some (QLocal s n2, false) /\ n_trivial n2 <> n_trivial n1.
Proof.
  intros hash B HB. destruct (collision (fun i => hash [0%nat; i]) B) as (i & j & [L1 L2] & HC); [intros i; apply HB|].
  pose (pos := fun m => if Nat.eqb m 0 then V3 0 0 0 else if Nat.eqb m i then V3 (3 / 2) 0 0 else if Nat.eqb m j then V3 (- (3 / 2)) 0 0 else V3 0 100 0).
  pose (ps := map pos (seq 0 (S j))). assert (LP : length ps = S j) by (unfold ps; rewrite map_length, seq_length; reflexivity).
  assert (NP : forall m, (m < S j)%nat -> nth m ps v3_0 = pos m).
  { intros m Hm. unfold ps. rewrite (nth_map_d pos (seq 0 (S j)) 0%nat) by (rewrite seq_length; exact Hm). rewrite seq_nth by exact Hm. reflexivity. }
  destruct (cloud_ok (BgParams FZero false) ps) as (WF & CU & SA). pose (s := cloud_mls (BgParams FZero false) 2 0 ps).
  assert (PD : forall m x, norm2 (v3_sub (V3 x 0 0) (pos m)) = if Nat.eqb m 0 then x * x else if Nat.eqb m i then (x - 3 / 2) * (x - 3 / 2) else if Nat.eqb m j then (x + 3 / 2) * (x + 3 / 2) else x * x + 10000).
  { intros m x. unfold pos. destruct (Nat.eqb m 0); [|destruct (Nat.eqb m i); [|destruct (Nat.eqb m j)]]; unfold norm2, v3_dot; simpl; ring. }
  destruct (cloud_reset hash (BgParams FZero false) 2 ps (V3 (3 / 5) 0 0) i nbh_new) as (c1 & R1); [lia|lra| | |].
  { intros m Hm. rewrite NP by lia. rewrite PD. destruct (Nat.eqb_spec m 0); [subst; split; [auto|lra]|]. destruct (Nat.eqb_spec m i); [subst; split; [auto|lra]|].
    destruct (Nat.eqb_spec m j); split; try lra; intros [?|?]; lia. }
  { intros m Hm. rewrite !NP by lia. rewrite !PD. change (Nat.eqb 0 0) with true. cbv iota. destruct (Nat.eqb_spec m 0); [lia|]. destruct (Nat.eqb m i); [lra|]. destruct (Nat.eqb m j); lra. }
  destruct (cloud_reset hash (BgParams FZero false) 2 ps (V3 (- (3 / 5)) 0 0) j (Nbh [0%nat] [[0%nat; i]] [[0%nat; i]])) as (c2 & R2); [lia|lra| | |].
  { intros m Hm. rewrite NP by lia. rewrite PD. destruct (Nat.eqb_spec m 0); [subst; split; [auto|lra]|]. destruct (Nat.eqb_spec m i); [subst; split; [lra|intros [?|?]; lia]|].
    destruct (Nat.eqb_spec m j); split; try lra; auto; intros [?|?]; lia. }
  { intros m Hm. rewrite !NP by lia. rewrite !PD. change (Nat.eqb 0 0) with true. cbv iota. destruct (Nat.eqb_spec m 0); [lia|]. destruct (Nat.eqb m i); [lra|]. destruct (Nat.eqb m j); lra. }
  exists s, (V3 (3 / 5) 0 0), (V3 (- (3 / 5)) 0 0), (Nbh [0%nat] [[0%nat; i]] [[0%nat; i]]), (Nbh [0%nat] [[0%nat; j]] [[0%nat; j]]), c1.
  split; [exact WF|]. split; [exact CU|]. split; [exact SA|]. split; [exact R1|]. split; [|cbn [n_trivial]; intros E; injection E as E; lia].
  assert (c2 = false); [|subst; exact R2]. destruct (reset_sets _ _ _ _ _ _ _ R2) as (cl & ex & EN & _ & _ & C).
  match type of EN with QLocal _ ?a = QLocal _ ?b => assert (EN' : a = b) by congruence end. clear EN.
  pose proof (f_equal n_closest EN') as E1. pose proof (f_equal n_trivial EN') as E2. pose proof (f_equal n_extended EN') as E3. cbn [n_closest n_trivial n_extended] in E1, E2, E3.
  rewrite C, <- E1, <- E2, <- E3. unfold lists_changed. cbn -[Z.eqb]. rewrite HC, Z.eqb_refl. reflexivity.
Qed.
Example change_flag_collision_refuted_ex : forall l : list nat, (0 <= (fun l => Z.of_nat (list_sum l) mod 2 ^ 64) l < 2 ^ 64)%Z.
Proof. intros l. apply Z.mod_pos_bound. reflexivity. Qed.

(** C128: the potential computed from the caches is the potential computed from all samples, at every point with a sample within the
    radius, as long as points and surface moved no further than the maximal step since the caches were computed.  A weighted signed
    distance background needs the nearest sample to be unique. *)
Theorem cached_potential_is_complete : forall o hash s n qs t changed new rebuild qs' ds dq out t',
  faithful o -> well_formed (lm_base s) -> current (lm_base s) -> sampled (lm_base s) ->
  reset o hash qs (QLocal s n) = Some (t, changed) ->
  moved_at_most ds (sb_verts (lm_base s)) new -> moved_at_most dq qs qs' -> ds + dq <= lm_max_step s ->
  t' = fst (update_surface t new rebuild) -> length out = length qs' ->
  exists out', potential t' qs' out = Some out' /\ length out' = length out /\
    forall k, let S := sb_samples (q_base t') in let q := nth k qs' v3_0 in let P := sb_bg (q_base t') in
      (k < length qs')%nat -> (exists i, within S q (lm_radius s) i) ->
      p_weighted P = false \/ p_type P <> FDistance \/ unique_nearest S q ->
      nth k out' 0 = potential_at q S (seq 0 (length S)) (as_spherical (lm_kernel s) (lm_base_radius s)) P (nth k out 0).
Proof.
  intros o hash s n qs t changed new rebuild qs' ds dq out t' F WF CU SA RS MV MQ ST -> LO.
  destruct (reset_sets _ _ _ _ _ _ _ RS) as (cl & ex & T & _).
  assert (LT : length (trivial_neighborhood (fst (update_surface t new rebuild))) = length qs').
  { rewrite T. unfold update_surface. destruct (update_base (lm_base s) new rebuild). cbn. rewrite map_length. symmetry. apply MQ. }
  assert (QK : q_kernel (fst (update_surface t new rebuild)) = as_spherical (lm_kernel s) (lm_base_radius s)).
  { rewrite T. unfold update_surface. destruct (update_base (lm_base s) new rebuild). reflexivity. }
  unfold potential. rewrite LT, LO, Nat.eqb_refl. eexists. split; [reflexivity|].
  destruct (potentials_nth (q_kernel (fst (update_surface t new rebuild))) (sb_bg (q_base (fst (update_surface t new rebuild)))) (sb_samples (q_base (fst (update_surface t new rebuild))))
    qs' (trivial_neighborhood (fst (update_surface t new rebuild))) out LT LO) as [PL PN].
  split; [congruence|]. intros k. cbv zeta. intros Hk EX CASES. rewrite PN by exact Hk. rewrite QK.
  destruct (covers o hash s n qs t changed new rebuild qs' ds dq F WF CU SA RS MV MQ ST k Hk EX) as (C1 & C2 & C3).
  apply (view_irrelevant _ _ _ _ _ _ (lm_radius s)); auto. apply spherical_radius.
Qed.
Example cached_potential_is_complete_ex : (exists i, within (sb_samples (fst (update_base ex_base [V3 0 0 (1 / 4); V3 10 0 0; V3 0 (39 / 4) 0] false))) (V3 (1 / 4) 0 1) (lm_radius ex_mls) i) /\
  p_weighted (sb_bg ex_base) = false /\ unique_nearest ex_samples (V3 (1 / 4) 0 1).
Proof.
  split; [|split; [reflexivity|]].
  - exists 0%nat. split; [simpl; lia|]. apply gap_dist2; [unfold lm_radius; simpl; lra|]. unfold dist2, norm2, v3_dot, lm_radius. simpl. lra.
  - exists 0%nat. split; [simpl; lia|]. intros j L N. simpl in L. apply norm2_lt. destruct j as [|[|[|j]]]; try lia; unfold norm2, away, v3_dot; simpl; lra.
Qed.

(** C128, refuted: out of range of every sample the caches are empty and the input value is returned, while all samples together give
    the background. *)
Theorem potential_out_of_range_refuted : exists s q t v, well_formed (lm_base s) /\ current (lm_base s) /\ reset scan (fun _ => 0%Z) [q] (QLocal s nbh_new) = Some (t, true) /\
  sb_bg (lm_base s) = BgParams FDistance false /\ potential t [q] [v] = Some [v] /\
  potential_at q (sb_samples (lm_base s)) (seq 0 (length (sb_samples (lm_base s)))) (q_kernel t) (sb_bg (lm_base s)) v <> v.
Proof.
  pose (s := cloud_mls (BgParams FDistance false) 1 0 [V3 0 0 10]). destruct (cloud_ok (BgParams FDistance false) [V3 0 0 10]) as (WF & CU & SA).
  assert (RR : lm_radius s = 1) by (unfold lm_radius, s, cloud_mls; simpl; ring).
  destruct (reset_exact scan (fun _ => 0%Z) [v3_0] s nbh_new scan_faithful WF CU) as (n' & ch & E & _ & LT & _ & X); [rewrite RR; simpl; lra|discriminate|].
  destruct (reset_sets _ _ _ _ _ _ _ E) as (cl & ex & _ & _ & _ & EC).
  specialize (X 0%nat ltac:(simpl; lia)). destruct X as (_ & (_ & T) & _). rewrite RR in T. cbn [nth lm_max_step s cloud_mls] in T.
  assert (TN : n_trivial n' = [[]]).
  { destruct (n_trivial n') as [|l [|? ?]]; simpl in LT; try lia. f_equal. destruct l as [|i l]; [reflexivity|]. exfalso. destruct (proj1 (T i) (or_introl eq_refl)) as [L G].
    simpl in L. assert (i = 0%nat) as -> by lia. apply (cloud_gap (BgParams FDistance false) [V3 0 0 10]) in G; [|simpl; lia|lra]. unfold norm2, v3_dot in G. simpl in G. lra. }
  assert (CH : ch = true) by (rewrite EC; reflexivity). subst ch.
  exists s, v3_0, (QLocal s n'), 7. split; [exact WF|]. split; [exact CU|]. split; [exact E|]. split; [reflexivity|]. split.
  - unfold potential. cbn [trivial_neighborhood]. rewrite TN. reflexivity.
  - set (S := sb_samples (lm_base s)). assert (C : closest_sample v3_0 S (seq 0 (length S)) = Some 0%nat) by reflexivity.
    assert (D : v3_norm (away S v3_0 0) = 10).
    { replace 10 with (sqrt (10 * 10)) by (apply sqrt_square; lra). unfold v3_norm. f_equal. unfold v3_dot. simpl. ring. }
    rewrite (potential_form _ _ _ _ _ _ _ C), (form_outside _ _ _ _ _ _ _ _ (lm_radius s)).
    + unfold fval. cbn [sb_bg lm_base s cloud_mls cloud p_type]. rewrite D. unfold signum. destruct (Rlt_dec _ 0) as [_|H]; [lra|]. exfalso. apply H. unfold v3_dot. simpl. lra.
    + apply spherical_radius.
    + left. reflexivity.
    + intros i [<-|[]]. rewrite D, RR. lra.
Qed.
Example potential_out_of_range_refuted_ex : (0 < length (sb_samples (cloud (BgParams FDistance false) [V3 0 0 10])))%nat.
Proof. simpl. lia. Qed.

(** C128, refuted for ties: with a weighted signed distance background and two nearest samples, the value depends on the order in which
    the search tree lists neighbours. *)
Definition rev_scan : tree_ops := TreeOps (fun t q x => rev (t_locate scan t q x)) (t_nearest scan).
Theorem ties_depend_on_order_refuted : faithful scan /\ faithful rev_scan /\ exists s q t1 t2 out1 out2,
  well_formed (lm_base s) /\ current (lm_base s) /\ reset scan (fun _ => 0%Z) [q] (QLocal s nbh_new) = Some (t1, true) /\
  reset rev_scan (fun _ => 0%Z) [q] (QLocal s nbh_new) = Some (t2, true) /\ potential t1 [q] [0] = Some [out1] /\ potential t2 [q] [0] = Some [out2] /\ out1 < 0 < out2.
Proof.
  assert (FR : faithful rev_scan).
  { intros S q. destruct (scan_faithful S q) as (A & B & C & D). unfold rev_scan. cbn [t_locate t_nearest]. split; [|split; [|split]]; auto.
    - intros r i Hr. rewrite <- in_rev. apply A. exact Hr.
    - intros x. apply NoDup_rev, B. }
  split; [exact scan_faithful|]. split; [exact FR|].
  pose (ps := [V3 0 0 1; V3 0 0 (-1)]). pose (s := cloud_mls (BgParams FDistance true) 2 0 ps). destruct (cloud_ok (BgParams FDistance true) ps) as (WF & CU & SA).
  assert (RR : lm_radius s + lm_max_step s = 2) by (unfold lm_radius, s, cloud_mls; simpl; ring).
  assert (LOC : t_locate scan (sb_tree (lm_base s)) v3_0 ((lm_radius s + lm_max_step s) * (lm_radius s + lm_max_step s)) = [0; 1]%nat).
  { rewrite RR. unfold scan. cbn [t_locate lm_base s cloud_mls cloud sb_tree t_data build_tree cloud_samples map ps length seq filter].
    destruct (Rle_dec _ _) as [_|H]; [|exfalso; apply H; unfold dist2, norm2, v3_dot; simpl; lra]. destruct (Rle_dec _ _) as [_|H]; [|exfalso; apply H; unfold dist2, norm2, v3_dot; simpl; lra]. reflexivity. }
  destruct (reset_exact scan (fun _ => 0%Z) [v3_0] s nbh_new scan_faithful WF CU) as (n1 & c1 & E1 & _); [rewrite RR; lra|discriminate|].
  destruct (reset_exact rev_scan (fun _ => 0%Z) [v3_0] s nbh_new FR WF CU) as (n2 & c2 & E2 & _); [rewrite RR; lra|discriminate|].
  destruct (reset_sets _ _ _ _ _ _ _ E1) as (cl1 & ex1 & EN1 & _ & _ & X1). destruct (reset_sets _ _ _ _ _ _ _ E2) as (cl2 & ex2 & EN2 & _ & _ & X2).
  assert (T1 : n_trivial n1 = [[0; 1]]%nat).
  { match type of EN1 with QLocal _ ?a = QLocal _ ?b => assert (EN' : a = b) by congruence end. rewrite EN'. cbn [n_trivial map]. rewrite LOC. reflexivity. }
  assert (T2 : n_trivial n2 = [[1; 0]]%nat).
  { match type of EN2 with QLocal _ ?a = QLocal _ ?b => assert (EN' : a = b) by congruence end. rewrite EN'. cbn [n_trivial map]. unfold rev_scan. cbn [t_locate]. fold scan. rewrite LOC. reflexivity. }
  assert (c1 = true) as -> by (rewrite X1; reflexivity). assert (c2 = true) as -> by (rewrite X2; reflexivity).
  exists s, v3_0, (QLocal s n1), (QLocal s n2).
  set (S := sb_samples (lm_base s)). set (k := as_spherical (lm_kernel s) (lm_base_radius s)). set (P := sb_bg (lm_base s)).
  exists (potential_at v3_0 S [0; 1]%nat k P 0), (potential_at v3_0 S [1; 0]%nat k P 0).
  split; [exact WF|]. split; [exact CU|]. split; [exact E1|]. split; [exact E2|].
  split; [unfold potential; cbn [trivial_neighborhood]; rewrite T1; reflexivity|]. split; [unfold potential; cbn [trivial_neighborhood]; rewrite T2; reflexivity|].
  assert (NR : forall z, 0 <= z -> v3_norm (V3 0 0 z) = z) by (intros z Hz; unfold v3_norm, v3_dot; simpl; replace (0 * 0 + 0 * 0 + z * z) with (z * z) by ring; apply sqrt_square; exact Hz).
  assert (D0 : v3_norm (away S v3_0 0) = 1).
  { rewrite <- sqrt_1. unfold v3_norm. f_equal. unfold v3_dot. simpl. ring. }
  assert (D1 : v3_norm (away S v3_0 1) = 1).
  { rewrite <- sqrt_1. unfold v3_norm. f_equal. unfold v3_dot. simpl. ring. }
  assert (DD : dist2 S v3_0 0 = 1 /\ dist2 S v3_0 1 = 1) by (unfold dist2, norm2, v3_dot; simpl; split; ring). destruct DD as [DD0 DD1].
  assert (C1 : closest_sample v3_0 S [0; 1]%nat = Some 0%nat).
  { cbn [closest_sample fold_left]. rewrite DD0, DD1. destruct (Rlt_dec 1 1); [lra|reflexivity]. }
  assert (C2 : closest_sample v3_0 S [1; 0]%nat = Some 1%nat).
  { cbn [closest_sample fold_left]. rewrite DD0, DD1. destruct (Rlt_dec 1 1); [lra|reflexivity]. }
  assert (S0 : v3_dot (s_nml (smp S 0)) (away S v3_0 0) = -1) by (unfold v3_dot; simpl; ring).
  assert (S1 : v3_dot (s_nml (smp S 1)) (away S v3_0 1) = 1) by (unfold v3_dot; simpl; ring).
  assert (NN : v3_norm (s_nml (smp S 0)) = 1 /\ v3_norm (s_nml (smp S 1)) = 1) by (split; apply NR; lra). destruct NN as [NN0 NN1].
  assert (PV0 : plane_value S v3_0 0 = -1) by (unfold plane_value; rewrite S0, NN0; simpl; field).
  assert (PV1 : plane_value S v3_0 1 = 1) by (unfold plane_value; rewrite S1, NN1; simpl; field).
  assert (KK : k = Cubic 2) by (unfold k, s, cloud_mls; simpl; f_equal; ring).
  assert (KF : 0 < k_f (Cubic 2) 1) by (apply kernel_pos; simpl; lra).
  assert (BW : bgw (Cubic 2) true 1 = k_f (Cubic 2) 1) by (unfold bgw; cbn [k_radius]; destruct (Rlt_dec 2 1); [lra|]; f_equal; ring).
  rewrite (potential_form _ _ _ _ _ _ _ C1), (potential_form _ _ _ _ _ _ _ C2). unfold form. cbv zeta. cbn [map]. rewrite !rsum_cons, !rsum_nil, !D0, !D1, PV0, PV1, S0, S1, KK.
  unfold P. cbn [lm_base s cloud_mls cloud sb_bg p_weighted]. rewrite BW. cbn [with_closest]. set (f := k_f (Cubic 2) 1) in *. clearbody f.
  unfold fval. cbn [p_type]. unfold signum. destruct (Rlt_dec (-1) 0); [|lra]. destruct (Rlt_dec 1 0); [lra|]. destruct (Req_EM_T _ 0); [lra|].
  assert (I : 0 < 1 / (f + (f + 0) + f)) by (apply Rdiv_lt_0_compat; lra). set (w := 1 / (f + (f + 0) + f)) in *. assert (0 < f * w) by (apply Rmult_lt_0_compat; lra). split; nra.
Qed.
Example ties_depend_on_order_refuted_ex : norm2 (v3_sub v3_0 (V3 0 0 1)) = norm2 (v3_sub v3_0 (V3 0 0 (-1))).
Proof. unfold norm2, v3_dot. simpl. ring. Qed.

(** C129: caches computed by [reset] refer to samples. *)
Theorem reset_indices_valid : forall o hash qs s n t changed, faithful o -> well_formed (lm_base s) -> current (lm_base s) ->
  0 <= lm_radius s + lm_max_step s -> reset o hash qs (QLocal s n) = Some (t, changed) -> indices_ok t.
Proof.
  intros o hash qs s n t changed F WF CU RP RS. destruct (reset_sets _ _ _ _ _ _ _ RS) as (cl & ex & -> & A & B & _).
  set (tr := map (fun q => t_locate o (sb_tree (lm_base s)) q ((lm_radius s + lm_max_step s) * (lm_radius s + lm_max_step s))) qs) in *.
  assert (R1 : forall l i, In l tr -> In i l -> (i < length (sb_samples (lm_base s)))%nat).
  { intros l i Hl Hi. apply in_map_iff in Hl. destruct Hl as (q & <- & _). rewrite CU in Hi. apply (F (sb_samples (lm_base s)) q) in Hi; [tauto|exact RP]. }
  split; [cbn; symmetry; eapply forall2_length; exact B|]. split.
  - intros l i [Hl|Hl] Hi; cbn in Hl |- *; [eapply R1; eassumption|]. destruct (forall2_in_r _ _ _ B l Hl) as (p & Hp & EP). apply extend_exact in EP; [|exact WF]. apply EP in Hi.
    destruct Hi as [Hi|(TY & _ & i' & tt & _ & T1 & _ & T2)]; [eapply R1; eassumption|]. destruct WF as [WT W]. rewrite TY in W. destruct W as [-> _]. eapply WT; eassumption.
  - intros k. cbn [extended_neighborhood trivial_neighborhood n_extended n_trivial]. destruct (Nat.lt_ge_cases k (length tr)) as [L|L].
    + pose proof (forall2_nth_default _ _ _ [] [] k B L) as E. cbv beta in E. apply extend_exact in E; [|exact WF]. destruct E as [_ E]. split; intros Z.
      * destruct (nth k tr []) as [|i l]; [reflexivity|]. exfalso. rewrite Z in E. apply (proj2 (E i)). left. left. reflexivity.
      * destruct (nth k ex []) as [|v l]; [reflexivity|]. exfalso. rewrite Z in E. destruct (proj1 (E v) (or_introl eq_refl)) as [[]|(_ & _ & i & tt & [] & _)].
    + pose proof (forall2_length _ _ _ B) as LL. rewrite !nth_overflow by lia. tauto.
Qed.
Example reset_indices_valid_ex : exists t changed, reset scan (fun _ => 0%Z) [V3 0 0 1; V3 0 9 0; V3 50 0 0] (QLocal ex_mls nbh_new) = Some (t, changed).
Proof.
  destruct ex_ok as (A & B & _). destruct (reset_exact scan (fun _ => 0%Z) [V3 0 0 1; V3 0 9 0; V3 50 0 0] ex_mls nbh_new scan_faithful A B) as (n' & ch & E & _); [unfold lm_radius; simpl; lra|discriminate|]. eauto.
Qed.

(** C129: the sparsity patterns have the promised sizes and exactly the entries that may be nonzero, all in range. *)
Theorem jacobian_indices_exact : forall t, well_formed (q_base t) -> indices_ok t ->
  (length (query_jacobian_indices t) = num_query_jacobian_entries t /\
   forall r c, In (r, c) (query_jacobian_indices t) <-> nth r (trivial_neighborhood t) [] <> [] /\ (3 * r <= c < 3 * r + 3)%nat) /\
  (exists l, surface_jacobian_indices t = Some l /\ length l = num_surface_jacobian_entries t /\
   forall r c, In (r, c) l <-> exists i v j, In i (support_of t r) /\ depends_on (q_base t) i v /\ (j < 3)%nat /\ c = (3 * v + j)%nat) /\
  (exists l, contact_jacobian_indices t = Some l /\ length l = num_contact_jacobian_entries t /\
   forall r c, In (r, c) l <-> exists k i v a j, In i (nth k (trivial_neighborhood t) []) /\ depends_on (q_base t) i v /\ (a < 3)%nat /\ (j < 3)%nat /\ r = (3 * k + a)%nat /\ c = (3 * v + j)%nat) /\
  (forall i v, (i < length (sb_samples (q_base t)))%nat -> depends_on (q_base t) i v -> (v < length (sb_verts (q_base t)))%nat) /\
  (length (nonempty_neighborhood_indices t) = num_neighborhoods t /\ forall k, In k (nonempty_neighborhood_indices t) <-> nth k (trivial_neighborhood t) [] <> []).
Proof.
  intros t WF (LE & RG & EM). split; [|split; [|split; [|split]]].
  - unfold query_jacobian_indices, num_query_jacobian_entries, num_neighborhoods, query_jacobian_block_indices. split.
    + rewrite scalar_length, map_length, nonempty_length. reflexivity.
    + intros r c. rewrite scalar_in. split.
      * intros (v & j & I & J & ->). apply in_map_iff in I. destruct I as ([k pts] & E & N). cbn [fst] in E. injection E as -> ->. apply in_row in N. destruct N as [N1 N2]. rewrite N1. split; [exact N2|lia].
      * intros [N C]. exists r, (c - 3 * r)%nat. split; [|split; lia]. apply in_map_iff. exists (r, nth r (trivial_neighborhood t) []). split; [reflexivity|]. apply in_row. auto.
  - unfold surface_jacobian_indices, surface_jacobian_block_indices, num_surface_jacobian_entries.
    assert (RB : forall l i, In l (by_type t) -> In i l -> (i < length (sb_samples (q_base t)))%nat).
    { intros l i Hl. unfold by_type in Hl. apply RG. destruct (sb_type (q_base t)); auto. }
    destruct (rows_total (q_base t) (nonempty (by_type t)) WF) as [l EL].
    { intros [k pts] i Hp Hi. apply nonempty_in in Hp. destruct Hp as [Hp _]. apply nth_error_In in Hp. eapply RB; eassumption. }
    rewrite EL. destruct (rows_spec _ _ _ EL) as [LL IL]. eexists. split; [reflexivity|]. split.
    + rewrite scalar_length, LL, total_nonempty. ring.
    + intros r c. rewrite scalar_in. unfold support_of. fold (by_type t). split.
      * intros (v & j & I & J & ->). apply IL in I. destruct I as (pts & i & N & Hi & D). apply in_row in N. destruct N as [N1 N2]. exists i, v, j. rewrite N1. auto.
      * intros (i & v & j & I & D & J & ->). exists v, j. split; [|auto]. apply IL. exists (nth r (by_type t) []), i. split; [|auto]. apply in_row. split; [reflexivity|]. intros Z. rewrite Z in I. destruct I.
  - unfold contact_jacobian_indices, contact_jacobian_matrix_indices, num_contact_jacobian_entries, num_contact_jacobian_matrices.
    destruct (rows_total (q_base t) (nonempty (trivial_neighborhood t)) WF) as [l EL].
    { intros [k pts] i Hp Hi. apply nonempty_in in Hp. destruct Hp as [Hp _]. apply nth_error_In in Hp. eapply RG; eauto. }
    rewrite EL. destruct (rows_spec _ _ _ EL) as [LL IL]. eexists. split; [reflexivity|]. split.
    + rewrite matrix_length, LL, total_nonempty. reflexivity.
    + intros r c. rewrite matrix_in. split.
      * intros (k & v & i & j & I & Hi & J & -> & ->). apply IL in I. destruct I as (pts & x & N & Hx & D). apply in_row in N. destruct N as [N1 N2]. exists k, x, v, j, i. rewrite N1. auto 8.
      * intros (k & i & v & a & j & I & D & A & J & -> & ->). exists k, v, j, a. split; [|auto]. apply IL. exists (nth k (trivial_neighborhood t) []), i. split; [|auto]. apply in_row. split; [reflexivity|]. intros Z. rewrite Z in I. destruct I.
  - intros i v. apply depends_in_range. exact WF.
  - assert (IE : forall k, nth k (by_type t) [] <> [] <-> nth k (trivial_neighborhood t) [] <> []).
    { intros k. unfold by_type. destruct (sb_type (q_base t)); [rewrite EM|]; tauto. }
    assert (MEM : forall k, In k (nonempty_neighborhood_indices t) <-> nth k (by_type t) [] <> []).
    { intros k. unfold nonempty_neighborhood_indices. rewrite in_map_iff. split.
      - intros ([k' pts] & <- & N). apply in_row in N. destruct N as [N1 N2]. cbn [fst]. rewrite N1. exact N2.
      - intros N. exists (k, nth k (by_type t) []). split; [reflexivity|]. apply in_row. auto. }
    split; [|intros k; rewrite MEM; apply IE].
    unfold nonempty_neighborhood_indices, num_neighborhoods. rewrite map_length, nonempty_length. unfold by_type in *. destruct (sb_type (q_base t)); [|reflexivity].
    revert LE EM. clear. generalize (extended_neighborhood t) (trivial_neighborhood t). induction l as [|a l IH]; intros [|b m] LE EM; simpl in LE; try discriminate; [reflexivity|].
    simpl. pose proof (EM 0%nat) as E0. simpl in E0. assert (IHH : length (filter (fun x : list nat => negb (is_nil x)) l) = length (filter (fun x : list nat => negb (is_nil x)) m)).
    { apply IH; [lia|]. intros k. exact (EM (S k)). }
    destruct a, b; simpl; rewrite ?IHH; try reflexivity; exfalso; intuition discriminate.
Qed.
Example jacobian_indices_exact_ex : let t := QLocal ex_mls (Nbh [0; 1; 2]%nat [[0]; []; [2]]%nat [[0; 1; 2]; []; [0; 1; 2]]%nat) in
  well_formed (q_base t) /\ indices_ok t /\ num_surface_jacobian_entries t = 18%nat /\ surface_jacobian_block_indices t = Some [(0, 0); (0, 1); (0, 2); (2, 0); (2, 1); (2, 2)]%nat /\
  query_jacobian_indices t = [(0, 0); (0, 1); (0, 2); (2, 6); (2, 7); (2, 8)]%nat.
Proof.
  cbv zeta. split; [apply ex_ok|]. split; [|split; [reflexivity|split; reflexivity]]. split; [reflexivity|]. split.
  - intros l i H I. simpl in *. assert (i = 0 \/ i = 1 \/ i = 2)%nat by (intuition (subst; simpl in *; intuition)). lia.
  - intros k. simpl. destruct k as [|[|[|k]]]; try (destruct k); intuition discriminate.
Qed.

(** C129: the reported vertices of a face-sampled surface are the vertices its potential depends on; refuted for vertex samples, where
    the corners of surrounding triangles, on which the normals depend, are missing although the surface Jacobian has columns for them. *)
Theorem neighborhood_vertices_exact_partial : forall t, well_formed (q_base t) -> indices_ok t -> sb_type (q_base t) = SFace ->
  exists l, neighborhood_vertex_indices t = Some l /\ StronglySorted lt l /\
    forall v, In v l <-> exists k i, In i (support_of t k) /\ depends_on (q_base t) i v.
Proof.
  intros t WF (LE & RG & EM) TY. unfold neighborhood_vertex_indices, support_of, depends_on, corners_of. rewrite TY.
  match goal with |- context [all_some (map ?f ?l)] => destruct (all_some_total f l) as [cs EC] end.
  { intros i Hi. apply in_concat in Hi. destruct Hi as (l & Hl & Hi). pose proof (RG l i (or_introl Hl) Hi) as L. destruct WF as [_ W]. rewrite TY in W. rewrite W in L.
    apply nth_error_Some in L. destruct (nth_error _ i); [simpl; eauto|congruence]. }
  rewrite EC. apply all_some_forall2 in EC. eexists. split; [reflexivity|]. split; [apply btree_sorted|]. intros v. rewrite btree_in, in_concat. split.
  - intros (c & Hc & Hv). destruct (forall2_in_r _ _ _ EC c Hc) as (i & Hi & EI). apply in_concat in Hi. destruct Hi as (l & Hl & Hi). apply (In_nth _ _ []) in Hl. destruct Hl as (k & Hk & <-).
    exists k, i. split; [exact Hi|]. destruct (nth_error (sb_topo (q_base t)) i) as [tr|]; [|discriminate]. injection EI as <-. eauto.
  - intros (k & i & Hi & tr & E & Hv). assert (IC : In i (concat (trivial_neighborhood t))).
    { apply in_concat. exists (nth k (trivial_neighborhood t) []). split; [|exact Hi]. apply nth_In. destruct (Nat.lt_ge_cases k (length (trivial_neighborhood t))) as [L|L]; [exact L|]. rewrite nth_overflow in Hi by exact L. destruct Hi. }
    destruct (forall2_in_l _ _ _ EC i IC) as (c & Hc & EI). rewrite E in EI. injection EI as <-. eauto.
Qed.
Example neighborhood_vertices_exact_partial_ex : let t := QLocal ex_face_mls (Nbh [0]%nat [[0]]%nat [[0]]%nat) in
  well_formed (q_base t) /\ indices_ok t /\ sb_type (q_base t) = SFace /\ neighborhood_vertex_indices t = Some [0; 1; 2]%nat.
Proof.
  cbv zeta. split; [apply ex_face_ok|]. split; [|split; reflexivity]. split; [reflexivity|]. split.
  - intros l i H I. simpl in *. intuition (subst; simpl in *; intuition).
  - intros k. simpl. tauto.
Qed.
Theorem neighborhood_vertices_refuted : exists t changed, reset scan (fun _ => 0%Z) [V3 0 0 1] (QLocal ex_mls nbh_new) = Some (t, changed) /\
  neighborhood_vertex_indices t = Some [0%nat] /\ In 1%nat (support_of t 0) /\ exists l, surface_jacobian_indices t = Some l /\ In (0, 3)%nat l.
Proof.
  destruct ex_ok as (A & B & _).
  assert (RR : lm_radius ex_mls + lm_max_step ex_mls = 3 / 2) by (unfold lm_radius; simpl; lra).
  destruct (reset_exact scan (fun _ => 0%Z) [V3 0 0 1] ex_mls nbh_new scan_faithful A B) as (n' & ch & E & _ & LT & _ & X); [rewrite RR; lra|discriminate|].
  assert (IO : indices_ok (QLocal ex_mls n')) by (eapply reset_indices_valid; try exact E; auto using scan_faithful; rewrite RR; lra).
  specialize (X 0%nat ltac:(simpl; lia)). destruct X as (_ & (ND & T) & (SE & TE)). rewrite RR in T. cbn [nth] in T. destruct (reset_sets _ _ _ _ _ _ _ E) as (cl & ex & EN & _).
  match type of EN with QLocal _ ?a = QLocal _ ?b => assert (EN' : a = b) by congruence end.
  assert (TN : nth 0 (n_trivial n') [] = [0%nat]).
  { apply sorted_unique; [rewrite EN'; apply sorted_filter, sorted_seq|repeat constructor|]. intros i. rewrite T. split.
    - intros [L G]. apply gap_dist2 in G; [|lra]. simpl in L. destruct i as [|[|[|i]]]; [left; reflexivity| | |lia]; exfalso; unfold dist2, norm2, v3_dot in G; simpl in G; lra.
    - intros [<-|[]]. split; [simpl; lia|]. apply gap_dist2; [lra|]. unfold dist2, norm2, v3_dot. simpl. lra. }
  assert (TL : n_trivial n' = [[0%nat]]) by (destruct (n_trivial n') as [|l [|? ?]]; simpl in LT, TN; try lia; congruence).
  assert (I1 : In 1%nat (nth 0 (n_extended n') [])).
  { apply TE. right. split; [reflexivity|]. split; [discriminate|]. rewrite TN. exists 0%nat, (0, 1, 2)%nat. simpl. auto 10. }
  exists (QLocal ex_mls n'), ch. split; [exact E|]. split; [unfold neighborhood_vertex_indices; cbn [trivial_neighborhood q_base lm_base ex_mls sb_type ex_base]; rewrite TL; reflexivity|].
  split; [exact I1|]. destruct (jacobian_indices_exact (QLocal ex_mls n') A IO) as (_ & (l & EL & _ & IL) & _). exists l. split; [exact EL|]. apply IL.
  exists 1%nat, 1%nat, 0%nat. split; [exact I1|]. split; [reflexivity|]. lia.
Qed.

Example neighborhood_vertices_refuted_ex : let t := QLocal ex_mls (Nbh [0]%nat [[0]]%nat [[0; 1; 2]]%nat) in
  neighborhood_vertex_indices t = Some [0]%nat /\ surface_jacobian_block_indices t = Some [(0, 0); (0, 1); (0, 2)]%nat.
Proof. split; reflexivity. Qed.

(** C130: dividing the rows of the query Jacobian among any positive number of workspaces visits every row with a nonempty neighbourhood
    once, in order and with its own number. *)
Theorem chunks_visit_rows : forall s n qs ws, length (n_trivial n) = length qs -> qs <> [] -> (0 < ws)%nat ->
  exists cs, query_jacobian_chunks (QLocal s n) qs ws = Some cs /\ (length cs <= ws)%nat /\
    concat cs = filter (fun x => negb (is_nil (snd (snd x)))) (combine (seq 0 (length qs)) (combine qs (n_trivial n))).
Proof.
  intros s n qs ws L NE W. unfold query_jacobian_chunks. destruct ws as [|ws]; [lia|]. destruct (chunk_rows_spec qs (n_trivial n) (S ws) L NE W) as (cs & E & LC & C).
  exists cs. split; [exact E|]. split; [exact LC|]. rewrite C. unfold enumerate. rewrite combine_length, L, Nat.min_id. reflexivity.
Qed.
Example chunks_visit_rows_ex : option_map (map (map fst)) (query_jacobian_chunks (QLocal ex_mls (Nbh [] [[0]; []; [2]; [1]; [0; 1]]%nat [])) (repeat v3_0 5) 3) = Some [[0]; [2; 3]; [4]]%nat.
Proof. reflexivity. Qed.
(** C130, refuted without query points: the chunk size becomes zero and the division into chunks panics. *)
Theorem chunks_without_points_refuted : forall s n ws, query_jacobian_chunks (QLocal s (Nbh n [] [])) [] ws = None /\ query_jacobian_block_indices (QLocal s (Nbh n [] [])) = [].
Proof.
  intros s n ws. split; [|reflexivity]. destruct ws as [|ws]; [reflexivity|]. unfold query_jacobian_chunks, chunk_rows. change (length (@nil v3)) with 0%nat.
  assert (chunk_size 0 (S ws) = 0%nat) as -> by (unfold chunk_size; apply Nat.div_small; lia). reflexivity.
Qed.
Example chunks_without_points_refuted_ex : exists t changed, reset scan (fun _ => 0%Z) [] (QLocal ex_mls nbh_new) = Some (t, changed) /\ query_jacobian_chunks t [] 4 = None.
Proof. eexists _, _. split; reflexivity. Qed.
(** C130: a range is split into consecutive nonempty pieces no longer than the chunk. *)
Theorem split_range_partitions : forall start fin chunk, (0 < chunk)%nat -> (start <= fin)%nat -> exists rs, split_range_into_chunks start fin chunk = Some rs /\
  concat (map (fun r => seq (fst r) (snd r - fst r)) rs) = seq start (fin - start) /\
  (forall r, In r rs -> (fst r < snd r <= fst r + chunk)%nat).
Proof. exact split_range_spec. Qed.
Example split_range_partitions_ex : split_range_into_chunks 3 13 4 = Some [(3, 7); (7, 11); (11, 13)]%nat.
Proof. reflexivity. Qed.

Print Assumptions reset_caches_neighbors.
Print Assumptions caches_cover_moves.
Print Assumptions caches_go_stale_refuted.
Print Assumptions change_flag_reports.
Print Assumptions change_flag_collision_refuted.
Print Assumptions cached_potential_is_complete.
Print Assumptions potential_out_of_range_refuted.
Print Assumptions ties_depend_on_order_refuted.
Print Assumptions reset_indices_valid.
Print Assumptions jacobian_indices_exact.
Print Assumptions neighborhood_vertices_exact_partial.
Print Assumptions neighborhood_vertices_refuted.
Print Assumptions chunks_visit_rows.
Print Assumptions chunks_without_points_refuted.
Print Assumptions split_range_partitions.
