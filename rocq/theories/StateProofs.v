From Coq Require Import Reals List Arith Bool Permutation Sorted Lra Lia.
From Verif Require Import RList StateModel StateSpec.
Import ListNotations.
Local Open Scope R_scope.

(** * Classification *)
Lemma mark_spec t i l : (i < length l)%nat -> exists m, mark t i l = Some m /\ length m = length l /\
  forall j, (j < length l)%nat -> nth j m Ignored = if Nat.eqb j i then (match nth j l Ignored with Ignored => t | a => a end) else nth j l Ignored.
Proof.
  revert i. induction l as [|a l IH]; intros i Hi; [simpl in Hi; lia|]. destruct i as [|i].
  - eexists. split; [reflexivity|]. split; [reflexivity|]. intros [|j] Hj; [destruct a; reflexivity|reflexivity].
  - simpl in Hi. destruct (IH i ltac:(lia)) as (m & E & L & N). exists (a :: m). simpl. rewrite E. split; [reflexivity|]. split; [simpl; lia|].
    intros [|j] Hj; [reflexivity|]. simpl. apply N. simpl in Hj. lia.
Qed.
Lemma mark_all_spec t is : t <> Ignored -> forall l, (forall i, In i is -> (i < length l)%nat) -> exists m, mark_all t is l = Some m /\ length m = length l /\
  forall j, (j < length l)%nat -> (nth j l Ignored <> Ignored -> nth j m Ignored = nth j l Ignored) /\
    (nth j l Ignored = Ignored -> In j is -> nth j m Ignored = t) /\ (nth j l Ignored = Ignored -> ~ In j is -> nth j m Ignored = Ignored).
Proof.
  intros Ht. induction is as [|i is IH]; intros l Hr.
  - exists l. split; [reflexivity|]. split; [reflexivity|]. intros j Hj. split; [reflexivity|]. split; [intros _ []|]. intros H _. exact H.
  - simpl. destruct (mark_spec t i l (Hr i (or_introl eq_refl))) as (m & E & L & N). rewrite E.
    destruct (IH m) as (m' & E' & L' & N'). { intros k Hk. rewrite L. apply Hr. right. exact Hk. }
    exists m'. split; [exact E'|]. split; [congruence|]. intros j Hj. rewrite L in N'. specialize (N j Hj). specialize (N' j Hj). destruct N' as (A & B & C).
    destruct (Nat.eqb_spec j i) as [Hji|Hne].
    + subst j. split; [|split].
      * intros H. assert (Hm : nth i m Ignored = nth i l Ignored) by (rewrite N; destruct (nth i l Ignored); congruence). rewrite A; congruence.
      * intros H _. rewrite H in N. rewrite A; congruence.
      * intros _ H. elim H. left. reflexivity.
    + rewrite N in *. split; [exact A|]. split.
      * intros H [Hi|Hi]; [elim Hne; symmetry; exact Hi|]. exact (B H Hi).
      * intros H Hi. apply C; [exact H|]. intros Hin. apply Hi. right. exact Hin.
Qed.
Lemma in_rigid_spec cells i : In i (flat_map c_verts (filter is_rigid cells)) <-> in_rigid_cell cells i.
Proof.
  rewrite in_flat_map. split.
  - intros (c & Hc & Hi). apply filter_In in Hc. destruct Hc as [Hc Hr]. exists c. split; [exact Hc|]. split; [|exact Hi]. unfold is_rigid in Hr. destruct (c_mat c); congruence.
  - intros (c & Hc & Hm & Hi). exists c. split; [|exact Hi]. apply filter_In. split; [exact Hc|]. unfold is_rigid. rewrite Hm. reflexivity.
Qed.
Lemma in_soft_spec cells i : In i (flat_map c_verts (filter is_soft cells)) <-> in_soft_cell cells i.
Proof.
  rewrite in_flat_map. split.
  - intros (c & Hc & Hi). apply filter_In in Hc. destruct Hc as [Hc Hr]. unfold is_soft in Hr. exists c. split; [exact Hc|]. destruct (c_mat c); try discriminate.
    split; [reflexivity|]. split; [exact Hr|exact Hi].
  - intros (c & Hc & Hm & Hv & Hi). exists c. split; [|exact Hi]. apply filter_In. split; [exact Hc|]. unfold is_soft. rewrite Hm. exact Hv.
Qed.

Lemma classify_spec fixed cells : (forall c i, In c cells -> In i (c_verts c) -> (i < length fixed)%nat) ->
  exists ts, classify fixed cells = Some ts /\ length ts = length fixed /\ forall i, (i < length fixed)%nat ->
    (nth i ts Ignored = Fixed <-> nth i fixed false = true) /\
    (nth i ts Ignored = Rigid <-> nth i fixed false = false /\ in_rigid_cell cells i) /\
    (nth i ts Ignored = Free <-> nth i fixed false = false /\ ~ in_rigid_cell cells i /\ in_soft_cell cells i).
Proof.
  intros Hr. unfold classify. set (start := map (fun b : bool => if b then Fixed else Ignored) fixed).
  assert (Ls : length start = length fixed) by apply map_length.
  assert (Ns : forall i, (i < length fixed)%nat -> nth i start Ignored = if nth i fixed false then Fixed else Ignored).
  { intros i Hi. exact (map_nth (fun b : bool => if b then Fixed else Ignored) fixed false i). }
  destruct (mark_all_spec Rigid (flat_map c_verts (filter is_rigid cells)) ltac:(discriminate) start) as (l & E & L & N).
  { intros i Hi. rewrite Ls. apply in_flat_map in Hi. destruct Hi as (c & Hc & Hi). apply filter_In in Hc. exact (Hr c i (proj1 Hc) Hi). }
  rewrite E. destruct (mark_all_spec Free (flat_map c_verts (filter is_soft cells)) ltac:(discriminate) l) as (m & E' & L' & N').
  { intros i Hi. rewrite L, Ls. apply in_flat_map in Hi. destruct Hi as (c & Hc & Hi). apply filter_In in Hc. exact (Hr c i (proj1 Hc) Hi). }
  exists m. split; [exact E'|]. split; [congruence|]. intros i Hi. specialize (Ns i Hi). specialize (N i ltac:(rewrite Ls; exact Hi)). specialize (N' i ltac:(rewrite L, Ls; exact Hi)).
  rewrite in_rigid_spec in N. rewrite in_soft_spec in N'. destruct N as (A & B & C). destruct N' as (A' & B' & C').
  destruct (nth i fixed false) eqn:Ef.
  - rewrite Ns in *. assert (X : nth i m Ignored = Fixed) by (rewrite A'; rewrite A; congruence). rewrite X.
    split; [tauto|]. split; split; try discriminate; intros [H _]; discriminate H.
  - destruct (in_dec Nat.eq_dec i (flat_map c_verts (filter is_rigid cells))) as [Hrg|Hrg]; rewrite in_rigid_spec in Hrg.
    + specialize (B Ns Hrg). assert (X : nth i m Ignored = Rigid) by (rewrite A'; congruence). rewrite X.
      split; [split; discriminate|]. split; [tauto|]. split; [discriminate|]. tauto.
    + specialize (C Ns Hrg). destruct (in_dec Nat.eq_dec i (flat_map c_verts (filter is_soft cells))) as [Hsf|Hsf]; rewrite in_soft_spec in Hsf.
      * specialize (B' C Hsf). rewrite B'. split; [split; discriminate|]. split; [split; [discriminate|tauto]|]. tauto.
      * specialize (C' C Hsf). rewrite C'. split; [split; discriminate|]. split; [split; [discriminate|tauto]|]. split; [discriminate|tauto].
Qed.

(** * Order *)
Lemma insert_perm key i l : Permutation (insert_vertex key i l) (i :: l).
Proof. induction l as [|j l IH]; simpl; [reflexivity|]. destruct (key i <=? key j)%nat; [reflexivity|]. rewrite IH. apply perm_swap. Qed.
Lemma sort_vertices_perm key n : Permutation (sort_vertices key n) (seq 0 n).
Proof. unfold sort_vertices. induction (seq 0 n) as [|a l IH]; simpl; [reflexivity|]. rewrite insert_perm. apply perm_skip, IH. Qed.
Definition below (key : nat -> nat) (i j : nat) : Prop := (key i <= key j)%nat.
Lemma insert_sorted key i l : StronglySorted (below key) l -> StronglySorted (below key) (insert_vertex key i l).
Proof.
  induction l as [|j l IH]; intros H; simpl; [constructor; [constructor|constructor]|]. inversion H as [|x y Hs Hf]; subst.
  destruct (Nat.leb_spec (key i) (key j)) as [Hle|Hgt].
  - constructor; [exact H|]. constructor; [exact Hle|]. eapply Forall_impl; [|exact Hf]. unfold below. intros a Ha. lia.
  - constructor; [exact (IH Hs)|]. apply Forall_forall. intros a Ha. apply (Permutation_in a (insert_perm key i l)) in Ha. destruct Ha as [<-|Ha]; [unfold below; lia|].
    exact (proj1 (Forall_forall _ _) Hf a Ha).
Qed.
Lemma sort_vertices_sorted key n : StronglySorted (below key) (sort_vertices key n).
Proof. unfold sort_vertices. induction (seq 0 n) as [|a l IH]; simpl; [constructor|]. apply insert_sorted, IH. Qed.
Lemma strongly_sorted_nth key l : StronglySorted (below key) l -> forall i j, (i <= j < length l)%nat -> (key (nth i l 0%nat) <= key (nth j l 0%nat))%nat.
Proof.
  induction 1 as [|a l Hs IH Hf]; intros i j Hij; [simpl in Hij; lia|]. destruct i as [|i]; destruct j as [|j]; simpl; [lia| |lia|apply IH; simpl in Hij; lia].
  apply (proj1 (Forall_forall _ _) Hf). apply nth_In. simpl in Hij. lia.
Qed.
Lemma orig_index_sorts types : sorts types (orig_index types).
Proof.
  split; [apply sort_vertices_perm|]. intros i j Hij. exact (strongly_sorted_nth _ _ (sort_vertices_sorted _ _) i j Hij).
Qed.

Lemma insert_type_perm t l : Permutation (insert_type t l) (t :: l).
Proof. induction l as [|u l IH]; simpl; [reflexivity|]. destruct (rank t <=? rank u)%nat; [reflexivity|]. rewrite IH. apply perm_swap. Qed.
Lemma sort_types_perm l : Permutation (sort_types l) l.
Proof. induction l as [|a l IH]; simpl; [reflexivity|]. rewrite insert_type_perm. apply perm_skip, IH. Qed.
Definition tbelow (a b : vtype) : Prop := (rank a <= rank b)%nat.
Lemma insert_type_sorted t l : StronglySorted tbelow l -> StronglySorted tbelow (insert_type t l).
Proof.
  induction l as [|u l IH]; intros H; simpl; [constructor; [constructor|constructor]|]. inversion H as [|x y Hs Hf]; subst.
  destruct (Nat.leb_spec (rank t) (rank u)) as [Hle|Hgt].
  - constructor; [exact H|]. constructor; [exact Hle|]. eapply Forall_impl; [|exact Hf]. unfold tbelow. intros a Ha. lia.
  - constructor; [exact (IH Hs)|]. apply Forall_forall. intros a Ha. apply (Permutation_in a (insert_type_perm t l)) in Ha. destruct Ha as [<-|Ha]; [unfold tbelow; lia|].
    exact (proj1 (Forall_forall _ _) Hf a Ha).
Qed.
Lemma sort_types_sorted l : StronglySorted tbelow (sort_types l).
Proof. induction l as [|a l IH]; simpl; [constructor|]. apply insert_type_sorted, IH. Qed.
Lemma rank_inj a b : rank a = rank b -> a = b.
Proof. destruct a, b; simpl; congruence. Qed.
Lemma sorted_unique l : forall m, StronglySorted tbelow l -> StronglySorted tbelow m -> Permutation l m -> l = m.
Proof.
  induction l as [|a l IH]; intros m Hl Hm Hp.
  - apply Permutation_nil in Hp. symmetry. exact Hp.
  - destruct m as [|b m]; [apply Permutation_sym, Permutation_nil in Hp; discriminate Hp|].
    inversion Hl as [|x y Hls Hlf]; subst. inversion Hm as [|x y Hms Hmf]; subst.
    assert (a = b).
    { apply rank_inj. apply Nat.le_antisymm.
      - assert (Hb : In b (a :: l)) by (apply (Permutation_in b (Permutation_sym Hp)); left; reflexivity). destruct Hb as [->|Hb]; [lia|exact (proj1 (Forall_forall _ _) Hlf b Hb)].
      - assert (Ha : In a (b :: m)) by (apply (Permutation_in a Hp); left; reflexivity). destruct Ha as [->|Ha]; [lia|exact (proj1 (Forall_forall _ _) Hmf a Ha)]. }
    subst b. f_equal. apply IH; [exact Hls|exact Hms|]. exact (Permutation_cons_inv Hp).
Qed.
Lemma map_seq_nth {A} (l : list A) d : map (fun i => nth i l d) (seq 0 (length l)) = l.
Proof.
  induction l as [|a l IH]; [reflexivity|]. simpl. f_equal. rewrite <- seq_shift, map_map. exact IH.
Qed.
Lemma sorts_aligned types order : sorts types order -> sort_types types = map (fun i => nth i types Ignored) order.
Proof.
  intros [Hp Hs]. apply sorted_unique; [apply sort_types_sorted| |].
  - clear Hp. induction order as [|a order IH]; simpl; [constructor|]. constructor.
    + apply IH. intros i j Hij. specialize (Hs (S i) (S j)). simpl in Hs. apply Hs. lia.
    + apply Forall_forall. intros t Ht. apply in_map_iff in Ht. destruct Ht as (k & <- & Hk). destruct (In_nth _ _ 0%nat Hk) as (j & Hj & <-).
      specialize (Hs 0%nat (S j)). simpl in Hs. apply Hs. lia.
  - rewrite sort_types_perm. rewrite <- (map_seq_nth types Ignored) at 1. apply Permutation_map, Permutation_sym, Hp.
Qed.
Lemma num_dof_spec l : StronglySorted tbelow l -> (num_dof_vertices l <= length l)%nat /\ forall i, (i < length l)%nat ->
  ((i < num_dof_vertices l)%nat <-> (rank (nth i l Ignored) < rank Fixed)%nat).
Proof.
  induction 1 as [|t l Hs IH Hf]; [split; [simpl; lia|]; intros i Hi; simpl in Hi; lia|]. destruct IH as [L N]. simpl.
  destruct (Nat.ltb_spec (rank t) 2) as [Ht|Ht].
  - split; [simpl; lia|]. intros [|i] Hi; [split; [intros _; exact Ht|intros _; lia]|]. simpl in *. specialize (N i ltac:(lia)). split; intros H; [apply N; lia|apply N in H; lia].
  - split; [lia|]. intros [|i] Hi; [simpl; lia|]. split; [lia|]. intros H. exfalso.
    pose proof (proj1 (Forall_forall _ _) Hf (nth i l Ignored) ltac:(apply nth_In; lia)) as Hb. unfold tbelow in Hb. simpl in H. lia.
Qed.

(** * Writing back *)
Lemma put_spec {A} (l : list A) i x : (i < length l)%nat -> exists m, put l i x = Some m /\ length m = length l /\
  forall j, nth_error m j = if Nat.eqb j i then Some x else nth_error l j.
Proof.
  revert i. induction l as [|a l IH]; intros i Hi; [simpl in Hi; lia|]. destruct i as [|i].
  - eexists. split; [reflexivity|]. split; [reflexivity|]. intros [|j]; reflexivity.
  - simpl in Hi. destruct (IH i ltac:(lia)) as (m & E & L & N). exists (a :: m). simpl. rewrite E. split; [reflexivity|]. split; [simpl; lia|].
    intros [|j]; [reflexivity|]. simpl. apply N.
Qed.
Lemma put_all_spec {A} (ixs : list (nat * A)) : NoDup (map fst ixs) -> forall l, (forall i x, In (i, x) ixs -> (i < length l)%nat) ->
  exists m, put_all l ixs = Some m /\ length m = length l /\ (forall i x, In (i, x) ixs -> nth_error m i = Some x) /\
    (forall i, ~ In i (map fst ixs) -> nth_error m i = nth_error l i).
Proof.
  induction ixs as [|[i x] r IH]; intros Hn l Hr.
  - exists l. split; [reflexivity|]. split; [reflexivity|]. split; [intros i x []|reflexivity].
  - simpl. inversion Hn as [|y z Hni Hnr]; subst. destruct (put_spec l i x (Hr i x (or_introl eq_refl))) as (m & E & L & N). rewrite E.
    destruct (IH Hnr m) as (m' & E' & L' & N' & U'). { intros j y Hj. rewrite L. apply (Hr j y). right. exact Hj. }
    exists m'. split; [exact E'|]. split; [congruence|]. split.
    + intros j y [Hj|Hj]; [|exact (N' j y Hj)]. injection Hj as <- <-. rewrite U' by exact Hni. rewrite N, Nat.eqb_refl. reflexivity.
    + intros j Hj. rewrite U'; [|intros H; apply Hj; right; exact H]. rewrite N. destruct (Nat.eqb_spec j i) as [->|]; [|reflexivity]. elim Hj. left. reflexivity.
Qed.
Lemma map_fst_combine {A B} (l : list A) (m : list B) : length l = length m -> map fst (combine l m) = l.
Proof. revert m. induction l as [|a l IH]; intros [|b m] H; simpl in *; try congruence. f_equal. apply IH. lia. Qed.
Lemma in_combine_nth {A B} (l : list A) (m : list B) a b : In (a, b) (combine l m) -> exists j, nth_error l j = Some a /\ nth_error m j = Some b.
Proof.
  revert m. induction l as [|x l IH]; intros [|y m] H; simpl in H; try contradiction. destruct H as [H|H].
  - injection H as -> ->. exists 0%nat. split; reflexivity.
  - destruct (IH m H) as (j & H1 & H2). exists (S j). split; assumption.
Qed.
Lemma nth_in_combine {A B} (l : list A) (m : list B) j a b : nth_error l j = Some a -> nth_error m j = Some b -> In (a, b) (combine l m).
Proof.
  revert m j. induction l as [|x l IH]; intros [|y m] [|j] H1 H2; simpl in *; try discriminate.
  - injection H1 as ->. injection H2 as ->. left. reflexivity.
  - right. exact (IH m j H1 H2).
Qed.

Lemma write_back_spec {A} (zero : A) order (pos l : list A) n : Permutation order (seq 0 n) -> length pos = n -> length l = n ->
  exists out, put_all l (combine order pos) = Some out /\ length out = n /\
    (forall j i x, nth_error order j = Some i -> nth_error pos j = Some x -> nth_error out i = Some x).
Proof.
  intros Hp Hl Hl'. assert (Lo : length order = n) by (rewrite (Permutation_length Hp); apply seq_length).
  destruct (put_all_spec (combine order pos)) with (l := l) as (out & E & L & N & _).
  - rewrite map_fst_combine by congruence. apply (Permutation_NoDup (Permutation_sym Hp)), seq_NoDup.
  - intros i x H. apply in_combine_l in H. apply (Permutation_in i Hp) in H. apply in_seq in H. rewrite Hl'. lia.
  - exists out. split; [exact E|]. split; [congruence|]. intros j i x H1 H2. apply N. exact (nth_in_combine _ _ _ _ _ H1 H2).
Qed.
Lemma list_nth_error_ext {A} (l m : list A) : (forall i, nth_error l i = nth_error m i) -> l = m.
Proof.
  revert m. induction l as [|a l IH]; intros [|b m] H; [reflexivity|specialize (H 0%nat); discriminate H|specialize (H 0%nat); discriminate H|].
  pose proof (H 0%nat) as H0. injection H0 as ->. f_equal. apply IH. intros i. exact (H (S i)).
Qed.
Lemma round_trip {A} (zero : A) order (user : list A) : Permutation order (seq 0 (length user)) ->
  vertex_positions zero order (map (fun i => nth i user zero) order) = Some user.
Proof.
  intros Hp. assert (Lo : length order = length user) by (rewrite (Permutation_length Hp); apply seq_length).
  unfold vertex_positions. rewrite map_length, Lo.
  destruct (write_back_spec zero order (map (fun i => nth i user zero) order) (repeat zero (length user)) (length user) Hp) as (out & E & L & N);
    [rewrite map_length; exact Lo|apply repeat_length|]. rewrite E. f_equal. apply list_nth_error_ext. intros i.
  destruct (lt_dec i (length user)) as [Hi|Hi].
  - assert (Hin : In i order) by (apply (Permutation_in i (Permutation_sym Hp)), in_seq; lia). destruct (In_nth_error _ _ Hin) as [j Hj].
    rewrite (N j i (nth i user zero) Hj); [|rewrite (map_nth_error _ _ _ Hj); reflexivity]. symmetry. apply nth_error_nth'. exact Hi.
  - rewrite (proj2 (nth_error_None _ _)), (proj2 (nth_error_None _ _)); [reflexivity|lia|lia].
Qed.

(** * History *)
Lemma overwrite_length new old : length (overwrite new old) = length old.
Proof. revert old. induction new as [|x n IH]; intros [|y o]; simpl; try reflexivity. rewrite IH. reflexivity. Qed.
Lemma overwrite_nth new old i : nth_error (overwrite new old) i = if Nat.ltb i (Nat.min (length new) (length old)) then nth_error new i else nth_error old i.
Proof.
  revert old i. induction new as [|x n IH]; intros [|y o] [|i]; simpl; try reflexivity.
  rewrite IH. reflexivity.
Qed.
Lemma integrate_length upd v ds : length (integrate upd v ds) = length ds.
Proof. revert ds. induction v as [|w v IH]; intros [|d ds]; simpl; try reflexivity. rewrite IH. reflexivity. Qed.
Lemma advance_dofs_length v ds : length (advance_dofs v ds) = length ds.
Proof. revert ds. induction v as [|w v IH]; intros [|d ds]; simpl; try reflexivity. rewrite IH. reflexivity. Qed.
Lemma problem_advance_dofs upd v s : dofs (problem_advance upd v s) = advance_dofs v (integrate upd v (dofs s)).
Proof. reflexivity. Qed.
Lemma advance_integrate_nth upd v ds i d w : length v = length ds -> nth_error ds i = Some d -> nth_error v i = Some w ->
  nth_error (advance_dofs v (integrate upd v ds)) i = Some (Dof (d_cur_q d) (d_cur_dq d) (upd d w) w (upd d w)).
Proof.
  revert ds i. induction v as [|x v IH]; intros [|y ds] [|i] Hl H1 H2; simpl in *; try discriminate.
  - injection H1 as ->. injection H2 as ->. reflexivity.
  - apply IH; [lia|exact H1|exact H2].
Qed.
Lemma commits_app upd vs v s : commits upd (vs ++ [v]) s = problem_advance upd v (commits upd vs s).
Proof. unfold commits. rewrite fold_left_app. reflexivity. Qed.
Lemma commits_length upd vs s : length (dofs (commits upd vs s)) = length (dofs s).
Proof.
  induction vs as [|v vs IH] using rev_ind; [reflexivity|]. rewrite commits_app, problem_advance_dofs, advance_dofs_length, integrate_length. exact IH.
Qed.
Lemma fst_combine_firstn {A B} (l : list A) (m : list B) : length l = length m -> map fst (combine l m) = l.
Proof. apply map_fst_combine. Qed.
Lemma map_snd_combine {A B} (l : list A) (m : list B) : length l = length m -> map snd (combine l m) = m.
Proof. revert m. induction l as [|a l IH]; intros [|b m] H; simpl in *; try congruence. f_equal. apply IH. lia. Qed.
Lemma integrate_next upd v ds : length v = length ds -> map d_next_q (integrate upd v ds) = map (fun p => upd (fst p) (snd p)) (combine ds v).
Proof. revert ds. induction v as [|w v IH]; intros [|d ds] H; simpl in *; try congruence. f_equal. apply IH. lia. Qed.
Lemma overwrite_twice a b : length b = length b -> overwrite a (overwrite a b) = overwrite a b.
Proof. intros _. revert b. induction a as [|x a IH]; intros [|y b]; simpl; try reflexivity. rewrite IH. reflexivity. Qed.

(** * Fixed vertices *)
Lemma update_fixed_nth new dt types order xs i t o x : nth_error types i = Some t -> nth_error order i = Some o -> nth_error xs i = Some x ->
  nth_error (update_fixed_vertices new dt types order xs) i = Some (update_fixed_vertex new dt t o x).
Proof.
  revert types order xs. induction i as [|i IH]; intros [|t' types] [|o' order] [|x' xs] H1 H2 H3; simpl in *; try discriminate.
  - injection H1 as ->. injection H2 as ->. injection H3 as ->. reflexivity.
  - apply IH; assumption.
Qed.

(** * Masses *)
Lemma add_mass_spec l i x : (i < length l)%nat -> exists m, add_mass l i x = Some m /\ length m = length l /\ rsum m = rsum l + x /\
  (0 <= x -> (forall y, In y l -> 0 <= y) -> forall y, In y m -> 0 <= y).
Proof.
  revert i. induction l as [|a l IH]; intros i Hi; [simpl in Hi; lia|]. destruct i as [|i].
  - eexists. split; [reflexivity|]. split; [reflexivity|]. split; [rewrite !rsum_cons; ring|]. intros Hx Hl y [<-|Hy]; [pose proof (Hl a (or_introl eq_refl)); lra|apply Hl; right; exact Hy].
  - simpl in Hi. destruct (IH i ltac:(lia)) as (m & E & L & S & P). exists (a :: m). simpl. rewrite E. split; [reflexivity|]. split; [simpl; lia|]. split; [rewrite !rsum_cons, S; ring|].
    intros Hx Hl y [<-|Hy]; [apply Hl; left; reflexivity|]. apply P; [exact Hx|intros z Hz; apply Hl; right; exact Hz|exact Hy].
Qed.
Lemma add_masses_spec is x : forall l, (forall i, In i is -> (i < length l)%nat) -> exists m, add_masses l is x = Some m /\ length m = length l /\
  rsum m = rsum l + INR (length is) * x /\ (0 <= x -> (forall y, In y l -> 0 <= y) -> forall y, In y m -> 0 <= y).
Proof.
  induction is as [|i is IH]; intros l Hr.
  - exists l. split; [reflexivity|]. split; [reflexivity|]. split; [simpl; ring|]. intros _ H. exact H.
  - cbn [add_masses]. destruct (add_mass_spec l i x (Hr i (or_introl eq_refl))) as (m & E & L & S & P). rewrite E.
    destruct (IH m) as (m' & E' & L' & S' & P'). { intros j Hj. rewrite L. apply Hr. right. exact Hj. }
    exists m'. split; [exact E'|]. split; [congruence|]. split; [rewrite S', S; cbn [length]; rewrite S_INR; ring|]. intros Hx Hl. apply P'; [exact Hx|]. apply P; assumption.
Qed.
Lemma scatter_spec share k es : forall l, (forall e, In e es -> length (el_verts e) = k /\ forall i, In i (el_verts e) -> (i < length l)%nat) ->
  exists m, scatter_masses share es l = Some m /\ length m = length l /\ rsum m = rsum l + INR k * rsum (map share es) /\
    ((forall e, In e es -> 0 <= share e) -> (forall y, In y l -> 0 <= y) -> forall y, In y m -> 0 <= y).
Proof.
  induction es as [|e es IH]; intros l Hr.
  - exists l. split; [reflexivity|]. split; [reflexivity|]. split; [simpl; rewrite rsum_nil; ring|]. intros _ H. exact H.
  - cbn [scatter_masses]. destruct (Hr e (or_introl eq_refl)) as [Hk Hi]. destruct (add_masses_spec (el_verts e) (share e) l Hi) as (m & E & L & S & P). rewrite E.
    destruct (IH m) as (m' & E' & L' & S' & P'). { intros e' He'. rewrite L. apply Hr. right. exact He'. }
    exists m'. split; [exact E'|]. split; [congruence|]. split; [rewrite S', S, Hk; cbn [map]; rewrite rsum_cons; ring|].
    intros Hs Hl. apply P'; [intros e' He'; apply Hs; right; exact He'|]. apply P; [apply Hs; left; reflexivity|exact Hl].
Qed.
Lemma rsum_repeat0 n : rsum (repeat 0 n) = 0.
Proof. induction n as [|n IH]; [reflexivity|]. simpl. rewrite rsum_cons, IH. ring. Qed.

Lemma masses_spec tets tris n : (forall e, In e tets -> length (el_verts e) = 4%nat /\ forall i, In i (el_verts e) -> (i < n)%nat) ->
  (forall e, In e tris -> length (el_verts e) = 3%nat /\ forall i, In i (el_verts e) -> (i < n)%nat) ->
  exists m, compute_vertex_masses tets tris n = Some m /\ length m = n /\ rsum m = total_mass tets + total_mass tris /\
    ((forall e, In e (tets ++ tris) -> 0 <= el_measure e /\ 0 <= el_density e) -> forall x, In x m -> 0 <= x).
Proof.
  intros H4 H3. unfold compute_vertex_masses.
  destruct (scatter_spec (fun e => 25 / 100 * el_measure e * el_density e) 4 tets (repeat 0 n)) as (m & E & L & S & P); [rewrite repeat_length; exact H4|]. rewrite E. rewrite repeat_length in L.
  destruct (scatter_spec (fun e => el_measure e * el_density e / 3) 3 tris m) as (m' & E' & L' & S' & P'); [rewrite L; exact H3|].
  exists m'. split; [exact E'|]. split; [congruence|]. split.
  - rewrite S', S, rsum_repeat0. unfold total_mass.
    rewrite (rsum_ext (fun e => 25 / 100 * el_measure e * el_density e) (fun e => (25 / 100) * (el_measure e * el_density e)) tets) by (intros; ring).
    rewrite (rsum_ext (fun e => el_measure e * el_density e / 3) (fun e => (1 / 3) * (el_measure e * el_density e)) tris) by (intros; field).
    rewrite !rsum_scale. simpl. field.
  - intros Hpos. apply P'.
    + intros e He. destruct (Hpos e ltac:(apply in_or_app; right; exact He)). nra.
    + apply P; [|intros y Hy; apply repeat_spec in Hy; lra]. intros e He. destruct (Hpos e ltac:(apply in_or_app; left; exact He)). nra.
Qed.

Lemma nth_error_lt {A} (l : list A) i x : nth_error l i = Some x -> (i < length l)%nat.
Proof. intros H. apply nth_error_Some. congruence. Qed.
Lemma advance_keeps_next v ds : length v = length ds -> map d_cur_q (advance_dofs v ds) = map d_next_q ds.
Proof. revert ds. induction v as [|w v IH]; intros [|d ds] H; simpl in *; try congruence. f_equal. apply IH. lia. Qed.
Lemma problem_advance_pos upd v s : length v = length (dofs s) -> (length (dofs s) <= length (next_pos s))%nat ->
  next_pos (problem_advance upd v s) = map d_cur_q (dofs (problem_advance upd v s)) ++ skipn (length (dofs s)) (next_pos s).
Proof.
  intros Hv Hn. rewrite problem_advance_dofs, advance_keeps_next by (rewrite integrate_length; exact Hv).
  unfold problem_advance, state_advance, update_vertices. cbn [dofs next_pos next_vel].
  rewrite map_fst_combine by (rewrite map_length, integrate_length; congruence).
  set (q := map d_next_q (integrate upd v (dofs s))).
  assert (Lq : length q = length (dofs s)) by (unfold q; rewrite map_length; apply integrate_length).
  rewrite overwrite_twice by reflexivity. rewrite <- Lq in *. clear Lq. generalize (next_pos s) Hn. clear. intros l. revert l.
  induction q as [|x q IH]; intros [|y l] Hl; simpl in *; try lia; try reflexivity. f_equal. apply IH. lia.
Qed.
Lemma problem_advance_vel upd v s : length v = length (dofs s) -> (length (dofs s) <= length (next_vel s))%nat ->
  next_vel (problem_advance upd v s) = v ++ skipn (length (dofs s)) (next_vel s).
Proof.
  intros Hv Hn. unfold problem_advance, state_advance, update_vertices. cbn [dofs next_pos next_vel].
  rewrite map_snd_combine by (rewrite map_length, integrate_length; congruence).
  rewrite overwrite_twice by reflexivity. rewrite <- Hv in *. generalize (next_vel s) Hn. clear. intros l. revert l.
  induction v as [|x q IH]; intros [|y l] Hl; simpl in *; try lia; try reflexivity. f_equal. apply IH. lia.
Qed.
Lemma problem_advance_plen upd v s : length (next_pos (problem_advance upd v s)) = length (next_pos s) /\ length (next_vel (problem_advance upd v s)) = length (next_vel s).
Proof. unfold problem_advance, state_advance, update_vertices. cbn [dofs next_pos next_vel]. rewrite !overwrite_length. split; reflexivity. Qed.
Lemma commits_plen upd vs s : length (next_pos (commits upd vs s)) = length (next_pos s) /\ length (next_vel (commits upd vs s)) = length (next_vel s).
Proof.
  induction vs as [|v vs IH] using rev_ind; [split; reflexivity|]. rewrite commits_app. destruct (problem_advance_plen upd v (commits upd vs s)) as [-> ->]. exact IH.
Qed.
Lemma skipn_app_exact {A} (l m : list A) : skipn (length l) (l ++ m) = m.
Proof. induction l as [|a l IH]; [reflexivity|exact IH]. Qed.
Lemma commits_rest upd vs s : (forall v, In v vs -> length v = length (dofs s)) -> (length (dofs s) <= length (next_pos s))%nat ->
  (length (dofs s) <= length (next_vel s))%nat -> skipn (length (dofs s)) (next_pos (commits upd vs s)) = skipn (length (dofs s)) (next_pos s) /\
  skipn (length (dofs s)) (next_vel (commits upd vs s)) = skipn (length (dofs s)) (next_vel s).
Proof.
  intros Hv Hp Hq. induction vs as [|v vs IH] using rev_ind; [split; reflexivity|]. rewrite commits_app.
  destruct IH as [I1 I2]; [intros u Hu; apply Hv, in_or_app; left; exact Hu|].
  assert (Lv : length v = length (dofs s)) by (apply Hv, in_or_app; right; left; reflexivity).
  destruct (commits_plen upd vs s) as [P1 P2].
  rewrite problem_advance_pos, problem_advance_vel by (rewrite ?commits_length; lia). rewrite !commits_length. split.
  - rewrite <- I1. set (X := map d_cur_q _). assert (LX : length X = length (dofs s)).
    { unfold X. rewrite map_length, problem_advance_dofs, advance_dofs_length, integrate_length. apply commits_length. }
    rewrite <- LX at 1. apply skipn_app_exact.
  - rewrite <- I2. rewrite <- Lv at 1. apply skipn_app_exact.
Qed.

Lemma inverse_indices order n : Permutation order (seq 0 n) -> exists inv, state_vertex_indices order = Some inv /\ length inv = n /\
  forall j i, nth_error order j = Some i -> nth_error inv i = Some (Some j).
Proof.
  intros Hp. assert (Lo : length order = n) by (rewrite (Permutation_length Hp); apply seq_length). unfold state_vertex_indices. rewrite Lo.
  destruct (write_back_spec None order (map Some (seq 0 n)) (repeat None n) n Hp) as (out & E & L & N); [rewrite map_length; apply seq_length|apply repeat_length|].
  exists out. split; [exact E|]. split; [exact L|]. intros j i Hj. apply (N j i); [exact Hj|]. apply map_nth_error.
  assert (Hlt : (j < n)%nat) by (rewrite <- Lo; exact (nth_error_lt _ _ _ Hj)). rewrite (nth_error_nth' _ 0%nat) by (rewrite seq_length; exact Hlt). rewrite seq_nth by exact Hlt. reflexivity.
Qed.

(** * Lumped stiffness *)
Lemma raise_at_spec l i x : (i < length l)%nat -> exists m, raise_at l i x = Some m /\ length m = length l /\
  forall j, nth j m 0 = if Nat.eqb j i then Rmax (nth j l 0) x else nth j l 0.
Proof.
  revert i. induction l as [|a l IH]; intros i Hi; [simpl in Hi; lia|]. destruct i as [|i].
  - eexists. split; [reflexivity|]. split; [reflexivity|]. intros [|j]; reflexivity.
  - simpl in Hi. destruct (IH i ltac:(lia)) as (m & E & L & N). exists (a :: m). simpl. rewrite E. split; [reflexivity|]. split; [simpl; lia|]. intros [|j]; [reflexivity|]. simpl. apply N.
Qed.
Definition raise2 (lam mu : R) (o : option (list R)) (i : nat) : option (list R) :=
  match o with Some l => match raise_at l i lam with Some l' => raise_at l' i mu | None => None end | None => None end.
Lemma raise_verts lam mu vs : forall l, (forall i, In i vs -> (i < length l)%nat) -> exists m, fold_left (raise2 lam mu) vs (Some l) = Some m /\ length m = length l /\
  forall j, (In j vs -> nth j m 0 = Rmax (nth j l 0) (Rmax lam mu)) /\ (~ In j vs -> nth j m 0 = nth j l 0).
Proof.
  induction vs as [|i vs IH]; intros l Hr.
  - exists l. split; [reflexivity|]. split; [reflexivity|]. intros j. split; [intros []|reflexivity].
  - cbn [fold_left]. destruct (raise_at_spec l i lam (Hr i (or_introl eq_refl))) as (m1 & E1 & L1 & N1).
    destruct (raise_at_spec m1 i mu ltac:(rewrite L1; apply Hr; left; reflexivity)) as (m2 & E2 & L2 & N2). unfold raise2 at 2. rewrite E1, E2.
    destruct (IH m2) as (m & E & L & N). { intros k Hk. rewrite L2, L1. apply Hr. right. exact Hk. }
    exists m. split; [exact E|]. split; [congruence|]. intros j. destruct (N j) as [A B]. specialize (N1 j). specialize (N2 j).
    assert (Hi : i = j -> nth j m2 0 = Rmax (nth j l 0) (Rmax lam mu)). { intros ->. rewrite Nat.eqb_refl in N1, N2. rewrite N2, N1. symmetry. apply Rmax_assoc. }
    assert (Hn : i <> j -> nth j m2 0 = nth j l 0). { intros H. apply not_eq_sym, Nat.eqb_neq in H. rewrite H in N1, N2. congruence. }
    split.
    + intros H. destruct (in_dec Nat.eq_dec j vs) as [Hin|Hin].
      * rewrite (A Hin). destruct (Nat.eq_dec i j) as [He|He]; [rewrite (Hi He); unfold Rmax; repeat destruct (Rle_dec _ _); lra|rewrite (Hn He); reflexivity].
      * rewrite (B Hin). apply Hi. destruct H as [H|H]; [exact H|contradiction].
    + intros H. rewrite B; [|intros Hin; apply H; right; exact Hin]. apply Hn. intros ->. apply H. left. reflexivity.
Qed.
Lemma lumped_spec es : forall l, (forall lam mu vs i, In (lam, mu, vs) es -> In i vs -> (i < length l)%nat) -> exists m, lumped_stiffness es l = Some m /\ length m = length l /\
  forall j, nth j l 0 <= nth j m 0 /\ (forall lam mu vs, In (lam, mu, vs) es -> In j vs -> lam <= nth j m 0 /\ mu <= nth j m 0) /\
    (nth j m 0 = nth j l 0 \/ exists lam mu vs, In (lam, mu, vs) es /\ In j vs /\ (nth j m 0 = lam \/ nth j m 0 = mu)).
Proof.
  induction es as [|[[lam mu] vs] es IH]; intros l Hr.
  - exists l. split; [reflexivity|]. split; [reflexivity|]. intros j. split; [lra|]. split; [intros ? ? ? []|left; reflexivity].
  - cbn [lumped_stiffness]. destruct (raise_verts lam mu vs l) as (m1 & E1 & L1 & N1). { intros i Hi. exact (Hr lam mu vs i (or_introl eq_refl) Hi). }
    unfold raise2 in E1. rewrite E1. destruct (IH m1) as (m & E & L & N). { intros a b c i Hin Hi. rewrite L1. exact (Hr a b c i (or_intror Hin) Hi). }
    exists m. split; [exact E|]. split; [congruence|]. intros j. destruct (N1 j) as [A B]. destruct (N j) as (N2 & N3 & N4).
    pose proof (Rmax_l (nth j l 0) (Rmax lam mu)) as R1. pose proof (Rmax_r (nth j l 0) (Rmax lam mu)) as R2. pose proof (Rmax_l lam mu) as R3. pose proof (Rmax_r lam mu) as R4.
    split; [|split].
    + destruct (in_dec Nat.eq_dec j vs) as [Hin|Hin]; [rewrite (A Hin) in N2; lra|rewrite (B Hin) in N2; lra].
    + intros a b c [H|H] Hj; [injection H as <- <- <-; rewrite (A Hj) in N2; lra|exact (N3 a b c H Hj)].
    + destruct N4 as [N4|(a & b & c & H & Hj & H')]; [|right; exists a, b, c; split; [right; exact H|split; assumption]].
      destruct (in_dec Nat.eq_dec j vs) as [Hin|Hin]; [|left; rewrite N4; exact (B Hin)]. rewrite (A Hin) in N4.
      destruct (Rle_lt_dec (Rmax lam mu) (nth j l 0)) as [Hle|Hlt]; [left; rewrite N4; apply Rmax_left; exact Hle|].
      right. exists lam, mu, vs. split; [left; reflexivity|]. split; [exact Hin|]. rewrite N4, Rmax_right by lra. unfold Rmax. destruct (Rle_dec lam mu); [right|left]; reflexivity.
Qed.

(** * Inverse masses *)
Lemma sorted_free_prefix l : StronglySorted tbelow l -> forall i, (i < length l)%nat -> ((i < count_free l)%nat <-> nth i l Ignored = Free).
Proof.
  unfold count_free. induction 1 as [|t l Hs IH Hf]; intros i Hi; [simpl in Hi; lia|]. simpl in Hi. cbn [filter].
  destruct (vtype_eqb t Free) eqn:E.
  - assert (t = Free) by (unfold vtype_eqb in E; apply Nat.eqb_eq in E; apply rank_inj; exact E). subst t. destruct i as [|i]; [simpl; split; [reflexivity|lia]|].
    simpl. rewrite <- (IH i) by lia. lia.
  - assert (Hz : filter (fun t0 => vtype_eqb t0 Free) l = []).
    { clear IH Hs Hi. induction l as [|u l IHl]; [reflexivity|]. inversion Hf as [|x y Hu Hl]; subst. simpl. unfold vtype_eqb in *. apply Nat.eqb_neq in E.
      destruct (Nat.eqb_spec (rank u) (rank Free)) as [Hq|_]; [unfold tbelow in Hu; simpl in *; lia|]. apply IHl. exact Hl. }
    rewrite Hz. simpl. split; [lia|]. intros Hq. exfalso. unfold vtype_eqb in E. apply Nat.eqb_neq in E. destruct i as [|i]; [simpl in Hq; subst t; apply E; reflexivity|].
    simpl in Hq. pose proof (proj1 (Forall_forall _ _) Hf (nth i l Ignored) ltac:(apply nth_In; lia)) as Hb. rewrite Hq in Hb. unfold tbelow in Hb. simpl in *. lia.
Qed.
Lemma mass_inv_spec types masses : StronglySorted tbelow types -> length masses = length types -> length (mass_inv types masses) = length types /\
  forall i, (i < length types)%nat -> nth i (mass_inv types masses) 0 = if vtype_eqb (nth i types Ignored) Free then / nth i masses 0 else 0.
Proof.
  intros Hs Hl. assert (Hc : (count_free types <= length types)%nat). { unfold count_free. clear. induction types as [|t l IH]; [simpl; lia|]. simpl. destruct (vtype_eqb t Free); simpl; lia. }
  unfold mass_inv. assert (Lf : length (map (fun m => 1 / m) (firstn (count_free types) masses)) = count_free types) by (rewrite map_length, firstn_length; lia).
  split; [rewrite app_length, Lf, repeat_length; lia|]. intros i Hi. pose proof (sorted_free_prefix types Hs i Hi) as Hf.
  destruct (vtype_eqb (nth i types Ignored) Free) eqn:E.
  - assert (Hlt : (i < count_free types)%nat) by (apply Hf; unfold vtype_eqb in E; apply Nat.eqb_eq in E; apply rank_inj; exact E).
    rewrite app_nth1 by (rewrite Lf; exact Hlt). rewrite (nth_indep _ 0 (1 / 0)) by (rewrite Lf; exact Hlt). rewrite (map_nth (fun m => 1 / m)).
    assert (Hn : nth i (firstn (count_free types) masses) 0 = nth i masses 0).
    { clear -Hlt. revert i Hlt masses. induction (count_free types) as [|k IH]; intros i H m; [lia|]. destruct m as [|a m]; [destruct i; reflexivity|]. destruct i as [|i]; [reflexivity|]. simpl. apply IH. lia. }
    rewrite Hn. unfold Rdiv. ring.
  - assert (Hge : ~ (i < count_free types)%nat) by (intros H; apply Hf in H; rewrite H in E; discriminate E).
    rewrite app_nth2 by (rewrite Lf; lia). rewrite nth_repeat. reflexivity.
Qed.
