(** C134: moving a surface, changing its radius and its maximal step. *)
From Coq Require Import Reals List Bool Sorting ZArith Lra Lia.
From Verif Require Import Vec3 RList KernelModel FieldModel FieldSpec FieldProofs NeighborModel NeighborSpec NeighborProofs.
Import ListNotations.
Local Open Scope R_scope.

Lemma zip_replace : forall (l m : list v3), (forall i, (i < Nat.min (length l) (length m))%nat -> nth_error (zip_update (fun _ p => p) l m) i = nth_error m i) /\
  (forall i, (Nat.min (length l) (length m) <= i)%nat -> nth_error (zip_update (fun _ p => p) l m) i = nth_error l i).
Proof.
  induction l as [|a l IH]; intros [|b m]; cbn [zip_update length Nat.min]; try (split; intros i L; [lia|reflexivity]).
  destruct (IH m) as [A B]. split; intros [|i] L; cbn [nth_error]; try lia; try reflexivity; [apply A; lia|apply B; lia].
Qed.
Definition distinct_corners (t : triangle) : Prop := NoDup (tri_verts t).
Definition has_corner (i : nat) (t : triangle) : bool := existsb (Nat.eqb i) (tri_verts t).
Definition area_vector (V : list v3) (t : triangle) : v3 :=
  let '(a, b, c) := t in v3_cross (v3_sub (pt V b) (pt V a)) (v3_sub (pt V c) (pt V a)).
Lemma incident_normals V topo i : (forall t, In t topo -> distinct_corners t) -> vertex_normal V topo i = vsum (map (area_vector V) (filter (has_corner i) topo)).
Proof.
  intros D. unfold vertex_normal. f_equal. induction topo as [|t topo IH]; [reflexivity|]. cbn [flat_map filter]. rewrite IH by (intros u U; apply D; right; exact U).
  assert (N : distinct_corners t) by (apply D; left; reflexivity). destruct t as [[a b] c]. unfold distinct_corners, tri_verts in N. unfold has_corner, tri_verts. cbn [filter existsb].
  inversion N as [|? ? N1 N2]; subst. inversion N2 as [|? ? N3 _]; subst. cbn [In] in N1, N3.
  destruct (Nat.eqb_spec i a), (Nat.eqb_spec i b), (Nat.eqb_spec i c); subst; cbn [orb map app]; try (exfalso; tauto); reflexivity.
Qed.

(** C134: updating a surface replaces as many vertices as are given and there are, and keeps the others, the triangles and the values; every sample
    is then at the centroid of its face with its area normal, or at its vertex with the sum of the area normals around it. *)
Theorem surface_update_exact b new rebuild b' k : well_formed b -> update_base b new rebuild = (b', k) ->
  (k = Nat.min (length (sb_verts b)) (length new) /\ length (sb_verts b') = length (sb_verts b) /\
   (forall i, (i < k)%nat -> nth_error (sb_verts b') i = nth_error new i) /\ (forall i, (k <= i)%nat -> nth_error (sb_verts b') i = nth_error (sb_verts b) i)) /\
  (sb_topo b' = sb_topo b /\ sb_bg b' = sb_bg b /\ sb_dual b' = sb_dual b /\ sb_type b' = sb_type b) /\
  length (sb_samples b') = length (sb_samples b) /\
  (forall i, (i < length (sb_samples b))%nat -> let s := smp (sb_samples b') i in s_value s = s_value (smp (sb_samples b) i) /\
     match sb_type b with
     | SFace => let t := nth i (sb_topo b) (0, 0, 0)%nat in let '(u, v, w) := t in
         v3_scale 3 (s_pos s) = v3_add (v3_add (pt (sb_verts b') u) (pt (sb_verts b') v)) (pt (sb_verts b') w) /\ s_nml s = area_vector (sb_verts b') t
     | SVertex => s_pos s = pt (sb_verts b') i /\
         ((forall t, In t (sb_topo b) -> distinct_corners t) -> s_nml s = vsum (map (area_vector (sb_verts b')) (filter (has_corner i) (sb_topo b))))
     end) /\
  (rebuild = true -> current b').
Proof.
  intros [WT W] E. unfold update_base in E. cbv zeta in E. injection E as <- <-. cbn [sb_verts sb_topo sb_bg sb_dual sb_type sb_samples].
  set (V := zip_update (fun _ p => p) (sb_verts b) new). set (B := Base (sb_bg b) (sb_topo b) V (sb_samples b) (sb_dual b) (sb_type b) (sb_tree b)).
  destruct (zip_replace (sb_verts b) new) as [Z1 Z2]. assert (LV : length V = length (sb_verts b)) by apply zip_update_length.
  assert (LS : length (update_samples B) = length (sb_samples b)).
  { unfold update_samples, B. cbn [sb_type]. destruct (sb_type b); cbv zeta; cbn [sb_samples sb_verts]; rewrite !zip_update_length; reflexivity. }
  split; [|split; [|split; [|split]]].
  - split; [reflexivity|]. split; [exact LV|]. split; assumption.
  - repeat split.
  - exact LS.
  - intros i L. cbv zeta. unfold update_samples, B. cbn [sb_type sb_samples sb_verts sb_topo]. unfold smp. destruct (sb_type b).
    + destruct W as (W1 & _). cbv zeta. rewrite (zip_update_nth _ _ _ i sample0 O) by (rewrite ?seq_length, zip_update_length; exact L).
      rewrite (zip_update_nth _ _ _ i sample0 v3_0) by (rewrite ?LV; lia). rewrite seq_nth by (rewrite zip_update_length; exact L).
      unfold set_nml, set_pos. cbn [s_value s_pos s_nml]. split; [reflexivity|]. split; [reflexivity|]. intros D.
      rewrite zip_positions by (rewrite LV; exact W1). apply incident_normals, D.
    + rewrite (zip_update_nth _ _ _ i sample0 (0, 0, 0)%nat) by (first [exact L | refine (eq_ind _ (fun n => (i < n)%nat) L _ W)]). cbn [s_value s_pos s_nml]. split; [reflexivity|].
      change (@nth (nat * nat * nat) i (sb_topo b)) with (@nth triangle i (sb_topo b)). generalize (@nth triangle i (sb_topo b) (0, 0, 0)%nat). intros [[u v] w]. split; [|reflexivity]. unfold tri_centroid, centroid. apply v3_eq; unfold v3_scale, v3_add; cbn [vx vy vz]; field.
  - intros ->. reflexivity.
Qed.
Definition sheet (ty : sample_type) : base :=
  Base (BgParams FZero false) [(0, 1, 2)%nat; (1, 3, 2)%nat] [V3 0 0 0; V3 1 0 0; V3 0 1 0; V3 1 1 0]
    (match ty with SVertex => repeat sample0 4 | SFace => repeat sample0 2 end) (match ty with SVertex => [[0]; [0; 1]; [0; 1]; [1]]%nat | SFace => [] end) ty (Tree [] []).
Lemma sheet_ok ty : well_formed (sheet ty).
Proof.
  split.
  - intros t v [<-|[<-|[]]] I; cbn in I; cbn [sheet sb_verts length]; lia.
  - destruct ty; [|reflexivity]. split; [reflexivity|]. split; [right; reflexivity|]. intros i t. cbn [sheet sb_dual sb_topo length].
    split.
    + intros I. destruct i as [|[|[|[|i]]]]; cbn [nth In] in I; [| | | |destruct i; destruct I];
      (split; [lia|]; split; [intuition lia|]; intuition; subst; cbn; tauto).
    + intros (I & T & H). destruct t as [|[|t]]; [| |lia]; cbn in H; intuition; subst; cbn; tauto.
Qed.
Example surface_update_exact_ex : well_formed (sheet SVertex) /\ well_formed (sheet SFace) /\ (forall t, In t (sb_topo (sheet SVertex)) -> distinct_corners t) /\
  exists b', update_base (sheet SVertex) [V3 0 0 0; V3 1 0 0; V3 0 1 1] true = (b', 3%nat) /\ nth_error (sb_verts b') 3 = Some (V3 1 1 0) /\ s_pos (smp (sb_samples b') 2) = V3 0 1 1.
Proof.
  split; [apply sheet_ok|]. split; [apply sheet_ok|]. split.
  - intros t [<-|[<-|[]]]; unfold distinct_corners; cbn; repeat constructor; cbn; intuition discriminate.
  - eexists. split; [reflexivity|]. split; reflexivity.
Qed.

(** C134, refuted without rebuilding the tree: a search that prunes by the boxes the tree was built with is exact on fresh trees, but after an update it
    finds neither the samples that came near nor the nearest one. *)
Definition boxed : tree_ops := TreeOps
  (fun t q x => filter (fun i => if Rle_dec (norm2 (v3_sub q (nth i (t_boxes t) v3_0))) x then true else false) (t_locate scan t q x))
  (fun t q => closest_sample q (map (fun p => Sample p v3_0 v3_0 0) (t_boxes t)) (seq 0 (length (t_data t)))).
Lemma closest_positions q S S' view : map s_pos S = map s_pos S' -> closest_sample q S view = closest_sample q S' view.
Proof.
  intros M. assert (D : forall i, dist2 S q i = dist2 S' q i).
  { intros i. assert (P : s_pos (smp S i) = s_pos (smp S' i)) by (unfold smp; rewrite <- !(map_nth s_pos), M; reflexivity). unfold dist2. rewrite P. reflexivity. }
  unfold closest_sample. destruct view as [|a l]; [reflexivity|]. f_equal. revert a. induction l as [|j l IH]; intros a; [reflexivity|]. cbn [fold_left]. rewrite !D. apply IH.
Qed.
Lemma boxed_faithful : faithful boxed.
Proof.
  intros S q. destruct (scan_faithful S q) as (A & B & C & D). unfold boxed. cbn [t_locate t_nearest build_tree t_boxes t_data]. split; [|split].
  - intros r i Hr. rewrite filter_In, (A r i Hr). split; [tauto|]. intros [L G]. split; [tauto|].
    destruct (Rle_dec _ _) as [_|N]; [reflexivity|]. exfalso. apply N. apply gap_dist2 in G; [|exact Hr]. unfold dist2 in G. rewrite (nth_indep _ v3_0 (s_pos sample0)) by (rewrite map_length; exact L). rewrite map_nth. exact G.
  - intros x. apply NoDup_filter, B.
  - assert (M : map s_pos (map (fun p => Sample p v3_0 v3_0 0) (map s_pos S)) = map s_pos S) by (rewrite !map_map; reflexivity).
    rewrite (closest_positions q _ S _ M). split; [exact C|exact D].
Qed.
Theorem update_without_rebuilding_refuted : faithful boxed /\ exists s q new t c, well_formed (lm_base s) /\ current (lm_base s) /\ sampled (lm_base s) /\
  let b' := fst (update_base (lm_base s) new false) in
  let s' := LocalMls (lm_kernel s) (lm_base_radius s) (lm_max_step s) b' in
  reset boxed (fun _ => 0%Z) [q] (QLocal s' nbh_new) = Some (t, true) /\
  trivial_neighborhood t = [[]] /\ within (sb_samples b') q (lm_radius s') 0 /\
  closest_samples t = [c] /\ c <> 0%nat /\ gap (sb_samples b') q 0 < gap (sb_samples b') q c.
Proof.
  split; [exact boxed_faithful|]. set (s := cloud_mls (BgParams FZero false) 1 0 [V3 10 0 0; V3 5 0 0]).
  destruct (cloud_ok (BgParams FZero false) [V3 10 0 0; V3 5 0 0]) as (WF & CU & SA).
  set (new := [v3_0; V3 5 0 0]). set (b' := fst (update_base (lm_base s) new false)). set (s' := LocalMls (lm_kernel s) (lm_base_radius s) (lm_max_step s) b').
  assert (RR : lm_radius s' = 1) by (unfold lm_radius, s', s, cloud_mls; cbn [lm_base_radius lm_kernel radius_multiplier]; ring).
  assert (LO : t_locate boxed (sb_tree b') v3_0 ((lm_radius s' + lm_max_step s') * (lm_radius s' + lm_max_step s')) = []).
  { rewrite RR. unfold boxed. cbn [t_locate]. unfold scan. cbn [t_locate]. change (length (t_data (sb_tree b'))) with 2%nat. cbn [seq].
    assert (BX : t_boxes (sb_tree b') = [V3 10 0 0; V3 5 0 0]) by reflexivity. rewrite BX.
    assert (F : forall l : list nat, (forall i, In i l -> (i < 2)%nat) -> filter (fun i => if Rle_dec (norm2 (v3_sub v3_0 (nth i [V3 10 0 0; V3 5 0 0] v3_0))) ((1 + lm_max_step s') * (1 + lm_max_step s')) then true else false) l = []).
    { induction l as [|a l IH]; intros H; [reflexivity|]. cbn [filter]. rewrite IH by (intros i I; apply H; right; exact I).
      pose proof (H a (or_introl eq_refl)). destruct (Rle_dec _ _) as [G|_]; [|reflexivity]. exfalso. revert G. change (lm_max_step s') with 0. 
      destruct a as [|[|a]]; [| |lia]; cbn [nth]; unfold norm2, v3_dot, v3_sub, v3_0; cbn [vx vy vz]; lra. }
    apply F. intros i I. apply filter_In in I. destruct I as [I _]. cbn in I. lia. }
  assert (NE : t_nearest boxed (sb_tree b') v3_0 = Some 1%nat).
  { unfold boxed. cbn [t_nearest]. change (length (t_data (sb_tree b'))) with 2%nat. assert (BX : t_boxes (sb_tree b') = [V3 10 0 0; V3 5 0 0]) by reflexivity. rewrite BX.
    cbn [seq closest_sample map fold_left]. destruct (Rlt_dec _ _) as [_|N]; [reflexivity|]. exfalso. apply N. unfold dist2, norm2, v3_dot, v3_sub, smp, v3_0. cbn [nth s_pos vx vy vz]. lra. }
  assert (R : reset boxed (fun _ => 0%Z) [v3_0] (QLocal s' nbh_new) = Some (QLocal s' (Nbh [1]%nat [[]] [[]]), true)).
  { unfold reset. cbv zeta. change (lm_base s') with b'. unfold compute_neighborhoods, compute_closest_set. cbn [map all_some]. rewrite NE. cbn [all_some].
    unfold compute_trivial_set. cbn [map]. rewrite LO. reflexivity. }
  assert (P0 : s_pos (smp (sb_samples b') 0) = v3_0) by reflexivity. assert (P1 : s_pos (smp (sb_samples b') 1) = V3 5 0 0) by reflexivity.
  exists s, v3_0, new, (QLocal s' (Nbh [1]%nat [[]] [[]])), 1%nat. split; [exact WF|]. split; [exact CU|]. split; [exact SA|]. cbv zeta. fold b'. fold s'. split; [exact R|]. split; [reflexivity|].
  split; [|split; [reflexivity|split; [discriminate|]]].
  - split; [change (length (sb_samples b')) with 2%nat; lia|]. rewrite RR. apply gap_dist2; [lra|]. unfold dist2. rewrite P0. unfold norm2, v3_dot, v3_sub, v3_0. cbn [vx vy vz]. lra.
  - unfold gap, away. rewrite P0, P1. apply norm2_lt. unfold norm2, v3_dot, v3_sub, v3_0. cbn [vx vy vz]. lra.
Qed.
Example update_without_rebuilding_refuted_ex : norm2 (v3_sub v3_0 (V3 10 0 0)) = 100.
Proof. unfold norm2, v3_dot, v3_sub, v3_0. cbn [vx vy vz]. ring. Qed.

(** C134: a new radius multiplier changes the radius of the neighbourhoods and of the kernel to the same number and nothing else; a new maximal step
    changes nothing but the step. *)
Definition same_family (k k' : kernel) : Prop :=
  match k, k' with
  | Cubic _, Cubic _ | Interpolating _ _, Interpolating _ _ => True
  | Smooth _ t, Smooth _ t' | Approximate _ t, Approximate _ t' => t = t'
  | _, _ => False
  end.
Definition reach (k : kernel) : option R := match k with Cubic r | Interpolating r _ | Smooth r _ | Approximate r _ => Some r | Global _ => None end.
Theorem radius_update_exact s n m : exists s', update_radius_multiplier (QLocal s n) m = QLocal s' n /\
  lm_radius s' = lm_base_radius s * m /\ reach (q_kernel (QLocal s' n)) = Some (lm_base_radius s * m) /\
  same_family (q_kernel (QLocal s n)) (q_kernel (QLocal s' n)) /\ lm_base_radius s' = lm_base_radius s /\ lm_max_step s' = lm_max_step s /\ lm_base s' = lm_base s.
Proof.
  destruct s as [k r st b]. eexists. split; [reflexivity|]. unfold lm_radius, q_kernel, same_family. cbn [lm_base_radius lm_kernel lm_max_step lm_base].
  destruct k; cbn [with_radius_multiplier radius_multiplier as_spherical reach]; repeat split.
Qed.
Theorem step_update_exact s n d : exists s', update_max_step (QLocal s n) d = QLocal s' n /\
  lm_max_step s' = d /\ lm_kernel s' = lm_kernel s /\ lm_base_radius s' = lm_base_radius s /\ lm_base s' = lm_base s.
Proof. eexists. split; [reflexivity|]. repeat split. Qed.
Theorem global_updates_ignored tol b cl si m d : update_radius_multiplier (QGlobal tol b cl si) m = QGlobal tol b cl si /\ update_max_step (QGlobal tol b cl si) d = QGlobal tol b cl si.
Proof. split; reflexivity. Qed.
Example radius_update_exact_ex : exists s', update_radius_multiplier (QLocal (LocalMls (LSmooth (1 / 10) 2) 3 1 (sheet SFace)) nbh_new) 5 = QLocal s' nbh_new /\ lm_radius s' = 15 /\ lm_kernel s' = LSmooth (1 / 10) 5.
Proof. eexists. split; [reflexivity|]. split; [unfold lm_radius; cbn; lra|reflexivity]. Qed.
Example step_update_exact_ex : update_max_step (QLocal (LocalMls (LSmooth (1 / 10) 2) 3 1 (sheet SFace)) nbh_new) 7 = QLocal (LocalMls (LSmooth (1 / 10) 2) 3 7 (sheet SFace)) nbh_new.
Proof. reflexivity. Qed.
Example global_updates_ignored_ex : update_max_step (QGlobal 1 (sheet SFace) [0%nat] [0; 1]%nat) 7 = QGlobal 1 (sheet SFace) [0%nat] [0; 1]%nat.
Proof. reflexivity. Qed.

(** C134: a query over a surface with a global kernel has every sample as a neighbour of every point, and a nearest sample for each. *)
Theorem global_query_exact o hash tol b qs t : faithful o -> current b -> query_new o hash qs (MGlobal tol b) = Some t ->
  q_base t = b /\ q_kernel t = Global tol /\ length (trivial_neighborhood t) = length qs /\ extended_neighborhood t = trivial_neighborhood t /\
  (forall l i, In l (trivial_neighborhood t) -> In i l <-> (i < length (sb_samples b))%nat) /\
  length (closest_samples t) = length qs /\
  (forall k i, (k < length qs)%nat -> (i < length (sb_samples b))%nat ->
     gap (sb_samples b) (nth k qs v3_0) (nth k (closest_samples t) 0%nat) <= gap (sb_samples b) (nth k qs v3_0) i).
Proof.
  intros F CU E. unfold query_new, reset, compute_closest_set in E. destruct (all_some (map (t_nearest o (sb_tree b)) qs)) as [new|] eqn:A; [|discriminate].
  injection E as <-. cbn [q_base q_kernel trivial_neighborhood extended_neighborhood closest_samples].
  assert (L : length new = length qs) by (rewrite <- (map_length (t_nearest o (sb_tree b)) qs); symmetry; revert A; generalize (map (t_nearest o (sb_tree b)) qs) as l; clear; intros l; revert new;
    induction l as [|[a|] l IH]; intros new A; [injection A as <-; reflexivity| |discriminate]; cbn [all_some] in A; destruct (all_some l) as [m|]; [|discriminate]; injection A as <-; cbn [length]; f_equal; apply IH; reflexivity).
  split; [reflexivity|]. split; [reflexivity|]. split; [rewrite map_length; exact L|]. split; [reflexivity|]. split; [|split; [exact L|]].
  - intros l i I. apply in_map_iff in I. destruct I as (c & <- & _). rewrite in_seq. lia.
  - intros k i K I. assert (N : t_nearest o (sb_tree b) (nth k qs v3_0) = Some (nth k new 0%nat)).
    { clear L. revert new A k K. induction qs as [|q qs IH]; intros new A k K; [cbn in K; lia|]. cbn [map all_some] in A. destruct (t_nearest o (sb_tree b) q) eqn:T; [|discriminate].
      destruct (all_some (map (t_nearest o (sb_tree b)) qs)) as [m|]; [|discriminate]. injection A as <-. destruct k as [|k]; cbn [nth]; [exact T|]. apply IH; [reflexivity|cbn in K; lia]. }
    rewrite CU in N. destruct (F (sb_samples b) (nth k qs v3_0)) as (_ & _ & _ & D). destruct D as (c & D1 & _ & D2); [destruct (sb_samples b); [cbn in I; lia|discriminate]|].
    assert (c = nth k new 0%nat) as <- by congruence. apply D2. exact I.
Qed.
Example global_query_exact_ex : faithful scan /\ current (cloud (BgParams FZero false) [v3_0; V3 1 0 0]) /\
  exists t, query_new scan (fun _ => 0%Z) [v3_0; v3_0; V3 1 1 1] (MGlobal 1 (cloud (BgParams FZero false) [v3_0; V3 1 0 0])) = Some t /\ trivial_neighborhood t = [[0; 1]; [0; 1]; [0; 1]]%nat.
Proof. split; [exact scan_faithful|]. split; [reflexivity|]. eexists. split; [reflexivity|]. reflexivity. Qed.

(** C134: over vertex samples the vertex indices of the neighbourhoods are those of the cached samples, each once and in ascending order. *)
Theorem neighborhood_vertices_of_samples t : sb_type (q_base t) = SVertex ->
  exists l, neighborhood_vertex_indices t = Some l /\ StronglySorted lt l /\ forall v, In v l <-> exists k, In v (nth k (trivial_neighborhood t) []).
Proof.
  intros TY. eexists. unfold neighborhood_vertex_indices. rewrite TY. split; [reflexivity|]. split; [apply btree_sorted|]. intros v. rewrite btree_in, in_concat. split.
  - intros (l & Hl & Hv). apply (In_nth _ _ []) in Hl. destruct Hl as (k & _ & <-). exists k. exact Hv.
  - intros [k H]. exists (nth k (trivial_neighborhood t) []). split; [|exact H]. apply nth_In. destruct (Nat.lt_ge_cases k (length (trivial_neighborhood t))) as [L|G]; [exact L|].
    rewrite nth_overflow in H by exact G. destruct H.
Qed.
Example neighborhood_vertices_of_samples_ex : let t := QLocal (LocalMls (LSmooth (1 / 10) 2) 3 1 (sheet SVertex)) (Nbh [0; 0]%nat [[2; 0]; [0; 1]]%nat []) in
  sb_type (q_base t) = SVertex /\ neighborhood_vertex_indices t = Some [0; 1; 2]%nat.
Proof. split; reflexivity. Qed.

Print Assumptions surface_update_exact.
Print Assumptions update_without_rebuilding_refuted.
Print Assumptions radius_update_exact.
Print Assumptions step_update_exact.
Print Assumptions global_updates_ignored.
Print Assumptions global_query_exact.
Print Assumptions neighborhood_vertices_of_samples.
