(** Properties of keyframed scenes. *)
From Coq Require Import List Arith Bool ZArith Sorted Permutation Lia.
From Verif Require Import SceneModel SceneSpec SceneProofs.
Import ListNotations.

(** C180: reading back the stored part of a keyframe moves exactly the vertices that follow the keyframes; all of them for frame 0; the stored
    part has one position for each of them. *)
Theorem keyframe_round_trip : forall (A : Type) (t : mesh_topo) (frame : nat) (positions out : list A), length out = length positions ->
  let r := update_positions_with_animated t frame (filter_animated t frame positions) out in
  length r = length positions /\
  (forall i, nth_error r i = if orb (Nat.eqb frame 0) (follows t i) then nth_error positions i else nth_error out i) /\
  length (filter_animated t frame positions) = length (filter (fun i => orb (Nat.eqb frame 0) (follows t i)) (seq 0 (length positions))).
Proof.
  intros A t frame positions out L r. unfold r. destruct (Nat.eqb_spec frame 0) as [->|N].
  - unfold update_positions_with_animated, filter_animated. cbn [Nat.eqb negb orb]. rewrite assign_all_same by exact L. split; [reflexivity|]. split; [reflexivity|].
    assert (ALL : forall l : list nat, filter (fun _ => true) l = l) by (induction l as [|a l IH]; [reflexivity|cbn; rewrite IH; reflexivity]). rewrite ALL, seq_length. reflexivity.
  - cbn [orb]. rewrite (round_trip t frame positions out N L). split; [apply merged_length; exact L|]. split; [intros i; apply merged_at; exact L|]. exact (filter_length_ok t frame positions N).
Qed.
Example keyframe_round_trip_ex : let t := MeshTopo (Some (I8 [1; 0; -1]%Z)) 4 in filter_animated t 5 [10; 11; 12; 13] = [10; 12] /\ update_positions_with_animated t 5 [10; 12] [0; 1; 2; 3] = [10; 1; 12; 3] /\ follows t 1 = false /\ follows t 2 = true.
Proof. repeat split. Qed.

(** C181: adding a keyframe stores it for its frame, whatever was there before, leaves the other frames alone, keeps the order, and panics
    exactly when the number of positions is wrong. *)
Theorem add_keyframe_updates : forall (A : Type) search (s : scene_data A) frame positions, searches search -> in_order (sd_animation s) -> sd_animation s <> [] ->
  (add_keyframe search s frame positions = None <-> length positions <> mt_vertices (sd_topo s)) /\
  forall s', add_keyframe search s frame positions = Some s' -> sd_topo s' = sd_topo s /\ in_order (sd_animation s') /\
    forall f, stored_for (sd_animation s') f = if Nat.eqb f frame then Some (filter_animated (sd_topo s) frame positions) else stored_for (sd_animation s) f.
Proof.
  intros A search s frame positions SE O NE. destruct (Nat.eq_dec (length positions) (mt_vertices (sd_topo s))) as [L|L].
  - destruct (add_ok search s frame positions SE O NE L) as (s1 & E & T & O1 & _ & G). rewrite E. split; [split; [discriminate|contradiction]|]. intros s' E'. injection E' as <-. split; [exact T|]. split; [exact O1|exact G].
  - assert (E : add_keyframe search s frame positions = None) by (unfold add_keyframe; cbv zeta; destruct (rev (sd_animation s)); [reflexivity|]; destruct (Nat.eqb_spec (length positions) (mt_vertices (sd_topo s))); [contradiction|reflexivity]).
    rewrite E. split; [split; [intros _; exact L|reflexivity]|discriminate].
Qed.
(** A search from the left. *)
Fixpoint from_left (keys : list nat) (key : nat) : search_result :=
  match keys with
  | [] => Missing 0
  | a :: r => match Nat.compare key a with Eq => Found 0 | Lt => Missing 0 | Gt => match from_left r key with Found i => Found (S i) | Missing i => Missing (S i) end end
  end.
Lemma from_left_searches : searches from_left.
Proof.
  intros keys key. induction keys as [|a r IH]; intros SO.
  - cbn. split; [lia|]. split; intros j b H E; [lia|]. destruct j; discriminate.
  - inversion SO as [|? ? S1 F]; subst. specialize (IH S1). cbn [from_left]. destruct (Nat.compare_spec key a) as [->|C|C]; [reflexivity| |].
    + split; [lia|]. split; intros j b H E; [lia|]. destruct j as [|j]; cbn in E; [injection E as <-; exact C|]. apply nth_error_In in E. rewrite Forall_forall in F. specialize (F b E). lia.
    + destruct (from_left r key) as [i|i]; [exact IH|]. destruct IH as (H1 & H2 & H3). split; [cbn; lia|]. split; intros [|j] b H E; cbn in E; try lia.
      * injection E as <-. exact C.
      * apply (H2 j b); [lia|exact E].
      * apply (H3 j b); [lia|exact E].
Qed.
Definition key_scene : scene_data nat := SceneData (MeshTopo (Some (Usize [0; 3])) 2) [Keyframe 0 [7; 8]; Keyframe 4 [9]].
Example add_keyframe_updates_ex : searches from_left /\ in_order (sd_animation key_scene) /\ sd_animation key_scene <> [] /\
  add_keyframe from_left key_scene 2 [5; 6] = Some (SceneData (sd_topo key_scene) [Keyframe 0 [7; 8]; Keyframe 2 [6]; Keyframe 4 [9]]).
Proof. split; [exact from_left_searches|]. split; [unfold in_order; cbn; repeat constructor|]. split; [discriminate|reflexivity]. Qed.

(** C182: setting all keyframes is the same as adding them one at a time, in any order; a keyframe for frame 0 replaces the initial
    configuration. *)
Theorem keyframes_in_any_order : forall (A : Type) search attr (first : list A) frames positions s keys, searches search -> StronglySorted lt frames ->
  set_keyframes (new_scene attr first) frames positions = Some s -> Permutation keys (combine frames positions) ->
  add_keyframes search (new_scene attr first) keys = Some s.
Proof. intros A search attr first frames positions s keys SE SO ST PE. exact (set_is_add search attr first frames positions s keys SE SO ST PE). Qed.
Theorem frame_zero_replaces : forall (A : Type) attr (first q : list A) f frames positions, length q = length first -> (0 < f)%nat ->
  set_keyframes (new_scene attr first) (0 :: f :: frames) (q :: positions) = set_keyframes (new_scene attr q) (f :: frames) positions.
Proof.
  intros A attr first q f frames positions L F. unfold set_keyframes. cbn [length]. change (Nat.eqb (S (S (length frames))) (S (length positions))) with (Nat.eqb (S (length frames)) (length positions)). destruct (Nat.eqb_spec (S (length frames)) (length positions)) as [E|]; [|reflexivity]. cbn [negb].
  change (not_decreasing (0 :: f :: frames)) with (andb (Nat.leb 0 f) (not_decreasing (f :: frames))). cbn [Nat.leb andb]. destruct (not_decreasing (f :: frames)); [|reflexivity]. cbn [negb Nat.eqb new_scene sd_topo sd_animation firstn combine make_keyframes].
  destruct (Nat.eqb_spec f 0); [lia|]. unfold make_keyframe at 1. cbn [mt_vertices]. rewrite L, Nat.eqb_refl. match goal with |- context [make_keyframes ?a ?b] => destruct (make_keyframes a b) end; reflexivity.
Qed.
Example keyframes_in_any_order_ex : StronglySorted lt [2; 5; 6] /\ (exists s, set_keyframes (new_scene None [1; 2]) [2; 5; 6] [[3; 4]; [5; 6]; [7; 8]] = Some s) /\
  Permutation [(6, [7; 8]); (2, [3; 4]); (5, [5; 6])] (combine [2; 5; 6] [[3; 4]; [5; 6]; [7; 8]]).
Proof. split; [repeat constructor|]. split; [eexists; reflexivity|]. cbn. apply (Permutation_cons_app [(2, [3; 4]); (5, [5; 6])] [] (6, [7; 8])). reflexivity. Qed.
Example frame_zero_replaces_ex : set_keyframes (new_scene None [1; 2]) [0; 3] [[4; 5]; [6; 7]] = Some (SceneData (MeshTopo None 2) [Keyframe 0 [4; 5]; Keyframe 3 [6; 7]]). Proof. reflexivity. Qed.

(** C183: when no keyframe is earlier than frame 2, every step from the second on starts with the prescribed positions of its frame. *)
Theorem keyframes_are_played_back : forall (A S : Type) build (step : S -> option S) update callback attr (first : list A) frames positions s steps,
  set_keyframes (new_scene attr first) frames positions = Some s -> StronglySorted lt frames -> (forall f, In f frames -> (2 <= f)%nat) ->
  run_with build step update callback s steps = Some
    match build first with
    | None => SolverError
    | Some solver => if callback 0 solver then playback step update callback (MeshTopo attr (length first)) first (combine frames positions) 1 steps 1 solver else Interrupted solver
    end.
Proof.
  intros A S build step update callback attr first frames positions s steps ST SO TWO. destruct (set_inv _ _ _ _ ST) as (f & r & EF & L & T & AN & _ & LQ). cbn [new_scene sd_topo sd_animation mt_vertices firstn] in *.
  assert (F2 : (2 <= f)%nat) by (apply TWO; rewrite EF; left; reflexivity). destruct (Nat.eqb_spec f 0) as [|_]; [lia|]. cbn [app] in AN. unfold run_with. rewrite AN. cbn [kf_positions]. f_equal. destruct (build first) as [solver|]; [|reflexivity]. destruct (callback 0 solver); [|reflexivity]. cbn [negb].
  pose proof (combine_frames frames positions L) as CF. refine (loop_on_time step update callback _ first (combine frames positions) s AN T LQ _ _ steps 1 solver first [] (combine frames positions) eq_refl _ _ _).
  - rewrite CF. exact SO.
  - intros k K. apply TWO. rewrite <- CF. apply in_map, K.
  - intros k [].
  - intros k K. apply (in_map fst) in K. rewrite CF in K. specialize (TWO _ K). lia.
  - exists first. split; [reflexivity|symmetry; apply merged_self].
Qed.
(** A solver that records what happens: a step, or the positions it is given. *)
Definition record_step (log : list (list nat)) : option (list (list nat)) := Some (log ++ [[]]).
Definition record_update (log : list (list nat)) (q : list nat) : option (list (list nat)) := Some (log ++ [q]).
Definition recorded (s : option (scene_data nat)) (steps : nat) : option (outcome (list (list nat))) :=
  match s with Some s => run_with (fun q => Some [q]) record_step record_update (fun _ _ => true) s steps | None => None end.
Definition intended (attr : option attribute) (first : list nat) (keys : list (nat * list nat)) (steps : nat) : option (outcome (list (list nat))) :=
  Some (playback record_step record_update (fun _ _ => true) (MeshTopo attr (length first)) first keys 1 steps 1 [first]).
Example keyframes_are_played_back_ex : exists s, set_keyframes (new_scene (Some (I32 [0; 1]%Z)) [1; 2]) [2; 4] [[5; 6]; [7; 8]] = Some s /\ StronglySorted lt [2; 4] /\ (forall f, In f [2; 4] -> (2 <= f)%nat) /\
  recorded (Some s) 4 = Some (Finished [[1; 2]; []; [1; 6]; []; []; [1; 8]; []]).
Proof. eexists. split; [reflexivity|]. split; [repeat constructor|]. split; [intros f [<-|[<-|[]]]; lia|reflexivity]. Qed.

(** C184: a keyframe for frame 1 arrives after step 1, and keyframes for every frame all arrive one step late; so do keyframes after a repeated
    frame, which is accepted. *)
Theorem dense_keyframes_are_late : forall (A S : Type) build (step : S -> option S) update callback attr (first : list A) n positions s steps,
  set_keyframes (new_scene attr first) (seq 1 n) positions = Some s ->
  run_with build step update callback s steps = Some
    match build first with
    | None => SolverError
    | Some solver => if callback 0 solver then playback step update callback (MeshTopo attr (length first)) first (combine (seq 1 n) positions) 0 steps 1 solver else Interrupted solver
    end.
Proof.
  intros A S build step update callback attr first n positions s steps ST. destruct (set_inv _ _ _ _ ST) as (f & r & EF & L & T & AN & _ & LQ). cbn [new_scene sd_topo sd_animation mt_vertices firstn] in *.
  destruct n as [|n]; [discriminate|]. cbn [seq] in EF. injection EF as <- <-. cbn [Nat.eqb app] in AN. unfold run_with. rewrite AN. cbn [kf_positions]. f_equal. destruct (build first) as [solver|]; [|reflexivity]. destruct (callback 0 solver); [|reflexivity]. cbn [negb].
  pose proof (combine_frames (seq 1 (Datatypes.S n)) positions L) as CF. refine (loop_late step update callback _ first (combine (seq 1 (Datatypes.S n)) positions) s AN T LQ _ _ steps 1 solver first [] (combine (seq 1 (Datatypes.S n)) positions) eq_refl _ _ _).
  - rewrite CF. clear. generalize (Datatypes.S n) 1. induction n0 as [|k IH]; intros a; [constructor|]. cbn [seq]. apply sorted_cons. split; [apply IH|]. intros b B. apply in_seq in B. lia.
  - exists (Datatypes.S n). exact CF.
  - discriminate.
  - reflexivity.
  - exists first. split; [reflexivity|symmetry; apply merged_self].
Qed.
Example dense_keyframes_are_late_ex : exists s, set_keyframes (new_scene None [0]) (seq 1 3) [[1]; [2]; [3]] = Some s /\ recorded (Some s) 4 = Some (Finished [[0]; []; [1]; []; [2]; []; [3]; []]). Proof. eexists. split; reflexivity. Qed.
Theorem early_keyframes_refuted : exists frames positions repeated positions', StronglySorted lt frames /\ (forall f, In f frames -> (1 <= f)%nat) /\ (forall f, In f repeated -> (2 <= f)%nat) /\
  recorded (set_keyframes (new_scene None [0]) frames positions) 4 <> intended None [0] (combine frames positions) 4 /\
  recorded (set_keyframes (new_scene None [0]) frames positions) 4 = Some (Finished [[0]; []; [1]; []; [2]; []; [3]; []]) /\
  set_keyframes (new_scene None [0]) repeated positions' <> None /\ recorded (set_keyframes (new_scene None [0]) repeated positions') 4 <> intended None [0] (combine repeated positions') 4.
Proof.
  exists [1; 2; 3], [[1]; [2]; [3]], [2; 2; 3], [[1]; [2]; [3]]. split; [repeat constructor|]. split; [intros f [<-|[<-|[<-|[]]]]; lia|]. split; [intros f [<-|[<-|[<-|[]]]]; lia|].
  split; [vm_compute; discriminate|]. split; [reflexivity|]. split; [discriminate|vm_compute; discriminate].
Qed.

(** C185: a saved scene is loaded again, given that the two formats can be read back; but a file that ends with the configuration makes the loader
    panic. *)
Theorem sfrb_round_trip : forall (C D : Type) ron bincode write_ron write_bincode (s : C * D),
  (forall c rest, ron (write_ron c ++ 10 :: rest) = Some (c, 10 :: rest)) -> (forall d, bincode (write_bincode d) = Some d) ->
  load_from_sfrb ron bincode (save_as_sfrb write_ron write_bincode s) = Loaded _ s.
Proof. intros C D ron bincode write_ron write_bincode [c d] H1 H2. unfold load_from_sfrb, save_as_sfrb. cbn [fst snd app]. rewrite H1. cbn [Nat.eqb negb]. rewrite H2. reflexivity. Qed.
Theorem sfrb_panics : forall (C D : Type) (ron : list nat -> option (C * list nat)) (bincode : list nat -> option D) bytes,
  load_from_sfrb ron bincode bytes = IndexPanic _ <-> exists c, ron bytes = Some (c, []).
Proof.
  intros C D ron bincode bytes. unfold load_from_sfrb. split.
  - destruct (ron bytes) as [[c [|b data]]|]; [intros _; exists c; reflexivity| |discriminate]. destruct (negb (Nat.eqb b 10)); [discriminate|]. destruct (bincode data); discriminate.
  - intros [c E]. rewrite E. reflexivity.
Qed.
(** Configurations of one byte, data of any bytes. *)
Definition one_byte (bytes : list nat) : option (nat * list nat) := match bytes with [] => None | c :: rest => Some (c, rest) end.
Theorem sfrb_reports_errors_refuted : exists bytes, load_from_sfrb one_byte (fun d : list nat => Some d) bytes = IndexPanic _ /\ bytes <> [].
Proof. exists [65]. split; [reflexivity|discriminate]. Qed.
Example sfrb_round_trip_ex : (forall c rest, one_byte ([c] ++ 10 :: rest) = Some (c, 10 :: rest)) /\ load_from_sfrb one_byte (fun d : list nat => Some d) (save_as_sfrb (fun c => [c]) (fun d => d) (65, [1; 2])) = Loaded _ (65, [1; 2]). Proof. split; reflexivity. Qed.
Example sfrb_panics_ex : one_byte [65] = Some (65, []) /\ load_from_sfrb one_byte (fun d : list nat => Some d) [65; 66] = MissingNewline _. Proof. split; reflexivity. Qed.

(** C186: the configuration keeps the added contacts in order; without a time step those with friction are left out, contact and all. *)
Theorem added_contacts : forall (C : Type) (has_friction : C -> bool) has_time_step (given : list C),
  fold_left (add_frictional_contact has_friction has_time_step) given [] = if has_time_step then given else filter (fun c => negb (has_friction c)) given.
Proof.
  intros C fr ts given. assert (G : forall l acc, fold_left (add_frictional_contact fr ts) l acc = acc ++ if ts then l else filter (fun c => negb (fr c)) l).
  { induction l as [|c l IH]; intros acc; [destruct ts; cbn; rewrite app_nil_r; reflexivity|]. cbn [fold_left]. rewrite IH. unfold add_frictional_contact. destruct ts; [rewrite orb_true_r, <- app_assoc; reflexivity|]. rewrite orb_false_r. cbn [filter]. destruct (negb (fr c)); [rewrite <- app_assoc; reflexivity|reflexivity]. }
  exact (G given []).
Qed.
Example added_contacts_ex : fold_left (add_frictional_contact Nat.odd false) [1; 2; 3; 4] [] = [2; 4] /\ fold_left (add_frictional_contact Nat.odd true) [1; 2; 3; 4] [] = [1; 2; 3; 4]. Proof. split; reflexivity. Qed.

(** C182: the frames are accepted exactly when there is one list of positions for each frame, of the size of the mesh, and frames do not decrease. *)
Lemma keyframes_made {A} (t : mesh_topo) : forall (l : list (nat * list A)), make_keyframes t l <> None <-> forall e, In e l -> length (snd e) = mt_vertices t.
Proof.
  induction l as [|[f q] l IH]; [split; [intros _ e []|intros _; discriminate]|]. cbn [make_keyframes]. unfold make_keyframe. destruct (Nat.eqb_spec (length q) (mt_vertices t)) as [E|N].
  - destruct (make_keyframes t l) as [ks|]; cbn [option_map]; split; intros H; try discriminate.
    + intros e [<-|I]; [exact E|]. apply IH; [discriminate|exact I].
    + exfalso. apply H. reflexivity.
    + exfalso. apply (proj2 IH); [intros e I; apply H; right; exact I|reflexivity].
  - split; [intros H; exfalso; apply H; reflexivity|]. intros H. exfalso. apply N, (H (f, q)). left. reflexivity.
Qed.
Lemma frames_order : forall frames, not_decreasing frames = true <-> StronglySorted le frames.
Proof.
  induction frames as [|a l IH]; [split; [constructor|reflexivity]|]. destruct l as [|b l]; [split; [intros _; repeat constructor|reflexivity]|]. change (not_decreasing (a :: b :: l)) with (andb (Nat.leb a b) (not_decreasing (b :: l))). rewrite Bool.andb_true_iff, Nat.leb_le, IH. split.
  - intros [L S]. constructor; [exact S|]. inversion S as [|? ? S' F]; subst. constructor; [exact L|]. rewrite List.Forall_forall in *. intros x I. specialize (F x I). lia.
  - intros S. inversion S as [|? ? S' F]; subst. inversion F; subst. split; assumption.
Qed.
Theorem keyframes_accepted : forall (A : Type) (s : scene_data A) frames positions, set_keyframes s frames positions <> None <->
  (length frames = length positions /\ frames <> [] /\ StronglySorted le frames /\ forall q, In q positions -> length q = mt_vertices (sd_topo s)).
Proof.
  intros A s frames positions. unfold set_keyframes. destruct (Nat.eqb_spec (length frames) (length positions)) as [L|L]; cbn [negb]; [|split; [intros H; exfalso; apply H; reflexivity|intros (X & _); exfalso; exact (L X)]].
  destruct frames as [|f r]; [split; [intros H; exfalso; apply H; reflexivity|intros (_ & X & _); exfalso; apply X; reflexivity]|]. destruct (not_decreasing (f :: r)) eqn:ND; cbn [negb].
  - pose proof (keyframes_made (sd_topo s) (combine (f :: r) positions)) as K. assert (Q : (forall e, In e (combine (f :: r) positions) -> length (snd e) = mt_vertices (sd_topo s)) <-> forall q, In q positions -> length q = mt_vertices (sd_topo s)).
    { split; intros H; [|intros [x q] I; apply H; exact (in_combine_r _ _ _ _ I)]. intros q I. destruct (In_nth _ _ [] I) as (i & LI & <-). specialize (H (nth i (f :: r) 0, nth i positions [])). apply H. rewrite <- combine_nth by exact L. apply nth_In. rewrite combine_length. lia. }
    rewrite Q in K. split; [intros H; split; [exact L|]; split; [discriminate|]; split; [apply frames_order, ND|apply K]; intros X; apply H; rewrite X; reflexivity|].
    intros (_ & _ & _ & H). apply K in H. destruct (make_keyframes (sd_topo s) (combine (f :: r) positions)); [discriminate|contradiction].
  - split; [intros H; exfalso; apply H; reflexivity|]. intros (_ & _ & S & _). apply frames_order in S. congruence.
Qed.
Example keyframes_accepted_ex : set_keyframes (new_scene None [1; 2]) [2; 5; 5] [[3; 4]; [5; 6]; [7; 8]] <> None /\ set_keyframes (new_scene None [1; 2]) [5; 2] [[3; 4]; [5; 6]] = None /\ set_keyframes (new_scene None [1; 2]) [2; 5] [[3; 4]; [5]] = None.
Proof. split; [discriminate|]. split; reflexivity. Qed.

Print Assumptions keyframe_round_trip.
Print Assumptions add_keyframe_updates.
Print Assumptions keyframes_in_any_order.
Print Assumptions frame_zero_replaces.
Print Assumptions keyframes_are_played_back.
Print Assumptions dense_keyframes_are_late.
Print Assumptions early_keyframes_refuted.
Print Assumptions sfrb_round_trip.
Print Assumptions sfrb_panics.
Print Assumptions sfrb_reports_errors_refuted.
Print Assumptions added_contacts.
Print Assumptions keyframes_accepted.
