(** Proofs about assembled friction: where the entries of the Jacobian are. *)
From Coq Require Import Reals List Bool Lra Lia Sorting.Sorted.
From Coquelicot Require Import Coquelicot.
From Verif Require Import Vec3 Mat3 RList KernelModel KernelSpec FieldModel FieldSpec FieldProofs NeighborModel NeighborSpec NeighborProofs UpdateProps SurfJacModel SurfJacSpec SurfJacProofs HessModel HessSpec HessMixProofs SurfHessSpec ContactModel ContactProofs ContactJacModel ContactJacSpec ContactJacProofs ContactJacProps ContactMapModel ContactMapSpec ContactMapProofs
  AssemblyModel ContactAsmModel ContactAsmSpec ContactAsmProofs ContactAsmProps ContactDerivModel ContactDerivSpec ContactDerivRowProofs ContactDerivProps BasisJacModel BasisJacSpec BasisJacProofs
  ContactHessModel ContactHessSpec ContactHessProofs ContactRowProofs ContactMoveProofs FrictionModel FrictionSpec FricAsmModel FricAsmSpec FricForceSpec FricAlgProofs FricCurveProofs FricStateProofs FricActProofs FricFormProofs FricMoveProofs FricJacProofs FricTotalProofs.
Import ListNotations.
Local Open Scope R_scope.

Definition alike {A B} (L : list (nat * nat * A)) (M : list (nat * nat * B)) : Prop := map fst L = map fst M.
Definition whole {A} (m : mapped A) : Prop := length (mp_blocks m) = length (mp_pattern m).
Lemma map_of_flat {A X Y} (f : A -> list X) (g : X -> Y) l : map g (flat_map f l) = flat_map (fun a => map g (f a)) l.
Proof. induction l as [|a l IH]; [reflexivity|]. cbn [flat_map]. rewrite map_app, IH. reflexivity. Qed.
Lemma combine_fst {A B} (l : list A) (m : list B) : (length l <= length m)%nat -> map fst (combine l m) = l.
Proof. revert m. induction l as [|a l IH]; intros [|b m] H; cbn in *; try reflexivity; [lia|]. rewrite IH by lia. reflexivity. Qed.
Lemma entries_fst {A} (m : mapped A) : whole m -> map fst (entries m) = mp_pattern m.
Proof. intros W. unfold entries. apply combine_fst. unfold whole in W. rewrite W. apply le_n. Qed.
Lemma triplets_whole (T : list (pos * m3)) : whole (from_triplets m3_add m3_zero (fun _ => true) T).
Proof. destruct (build_correct m3 m3_add m3_zero m3_monoid (fun _ => true) T) as (_ & _ & _ & _ & _ & W & _). exact W. Qed.
Lemma triplets_alike (T T' : list (pos * m3)) : map fst T = map fst T' -> alike (entries (from_triplets m3_add m3_zero (fun _ => true) T)) (entries (from_triplets m3_add m3_zero (fun _ => true) T')).
Proof. intros E. unfold alike. rewrite !entries_fst by apply triplets_whole. apply from_triplets_shape, E. Qed.
Lemma premultiply_alike D L : map fst (premultiply D L) = map fst L.
Proof. unfold premultiply. rewrite map_map. apply map_ext. intros [[r c] B]. reflexivity. Qed.
Lemma scaled_alike a L : map fst (scaled a L) = map fst L.
Proof. unfold scaled. rewrite map_map. reflexivity. Qed.
Lemma transposed_places L : map fst (transposed L) = map (fun p => (snd p, fst p)) (map fst L).
Proof. unfold transposed. rewrite !map_map. apply map_ext. intros [[r c] B]. reflexivity. Qed.
Lemma terms_places L M : map fst (product_terms L M) = flat_map (fun a => map (fun b => (fst a, snd b)) (filter (fun b => Nat.eqb (snd a) (fst b)) (map fst M))) (map fst L).
Proof.
  unfold product_terms. induction L as [|a L IH]; [reflexivity|]. cbn [flat_map map]. rewrite map_app, IH. f_equal. rewrite map_map. cbn [fst]. rewrite <- (map_map fst (fun b : nat * nat => (fst (fst a), snd b))). f_equal. apply (map_fst_filter (fun b => Nat.eqb (snd (fst a)) (fst b))).
Qed.
Lemma product_alike L M L' M' : map fst L = map fst L' -> map fst M = map fst M' -> map fst (matrix_product L M) = map fst (matrix_product L' M').
Proof. intros E F. unfold matrix_product. apply triplets_alike. rewrite !terms_places, E, F. reflexivity. Qed.
Lemma merge_places {A B A' B'} : forall (l : list (nat * A)) (l' : list (nat * A')), map fst l = map fst l' -> forall (r : list (nat * B)) (r' : list (nat * B')), map fst r = map fst r' -> map fst (merge_rows l r) = map fst (merge_rows l' r').
Proof.
  induction l as [|[i a] l IH]; intros [|[i' a'] l'] E; try discriminate; [reflexivity|]. cbn [map fst] in E. injection E as <- E.
  induction r as [|[j b] r IHr]; intros [|[j' b'] r'] F; try discriminate; [reflexivity|]. cbn [map fst] in F. injection F as <- F. cbn [merge_rows]. destruct (Nat.compare j i).
  - cbn [map fst]. f_equal. apply IH; assumption.
  - apply IHr, F.
  - apply IH; [exact E|]. cbn [map fst]. f_equal. exact F.
Qed.
Lemma row_places {A} (m : mapped A) row : whole m -> map fst (row_of m row) = map snd (filter (fun p => Nat.eqb (fst p) row) (mp_pattern m)).
Proof.
  intros W. rewrite <- (entries_fst m W). unfold row_of. rewrite map_map. cbn [fst]. rewrite <- (map_fst_filter (fun p => Nat.eqb (fst p) row)), map_map. reflexivity.
Qed.
Lemma constant_places {A B} (x : nat * nat) (l : list (nat * A)) (l' : list (nat * B)) : map fst l = map fst l' -> map (fun _ => x) l = map (fun _ => x) l'.
Proof. intros E. rewrite <- (map_map fst (fun _ => x)), E, map_map. reflexivity. Qed.
Lemma lambda_alike o o' s s' vcs vcs' m dqdv dqdv' : whole (fs_gradient s) -> whole (fs_gradient s') -> whole (fs_distance s) -> whole (fs_distance s') ->
  mp_pattern (fs_gradient s') = mp_pattern (fs_gradient s) -> mp_pattern (fs_distance s') = mp_pattern (fs_distance s) -> map fst (lambda_product o' s' vcs' m dqdv') = map fst (lambda_product o s vcs m dqdv).
Proof.
  intros W1 W1' W2 W2' E1 E2. unfold lambda_product, rows_of. cbv zeta. rewrite E1, E2. rewrite !map_of_flat. apply flat_map_ext. intros r. rewrite !map_of_flat. apply flat_map_ext. intros k. rewrite !map_map.
  match goal with |- map ?f ?l = map ?g ?l' => transitivity (map (fun _ => (r, k)) l); [apply map_ext; intros [j [x y]]; reflexivity|transitivity (map (fun _ => (r, k)) l'); [|apply map_ext; intros [j [x y]]; reflexivity]] end.
  apply constant_places, merge_places; rewrite !row_places by assumption; rewrite ?E1, ?E2; reflexivity.
Qed.
Lemma all_some_places {A A' B B' C} (f : A -> option B) (f' : A' -> option B') (k : A -> C) (k' : A' -> C) (h : B -> C) (h' : B' -> C) :
  (forall a b, f a = Some b -> h b = k a) -> (forall a b, f' a = Some b -> h' b = k' a) ->
  forall L L' M M', map k L = map k' L' -> all_some (map f L) = Some M -> all_some (map f' L') = Some M' -> map h M = map h' M'.
Proof.
  intros H H'. assert (G : forall {P Q} (g : P -> option Q) (q : P -> C) (u : Q -> C), (forall a b, g a = Some b -> u b = q a) -> forall L M, all_some (map g L) = Some M -> map u M = map q L).
  { intros P Q g q u Hg. induction L as [|a L IH]; intros M E; [injection E as <-; reflexivity|]. cbn [map all_some] in E. destruct (g a) as [b|] eqn:Ea; [|discriminate]. destruct (all_some (map g L)) as [M1|]; [|discriminate]. injection E as <-. cbn [map]. rewrite (Hg a b Ea), (IH M1 eq_refl). reflexivity. }
  intros L L' M M' E EM EM'. rewrite (G _ _ f k h H L M EM), (G _ _ f' k' h' H' L' M' EM'). exact E.
Qed.
Definition spot (e : nat * nat * nat * m3) : nat * nat := let '(k, q, v, _) := e in (k, v).
Lemma query_blocks_alike inv collider Q Q' qb qb' : map fst Q = map fst Q' -> query_blocks inv collider Q = Some qb -> query_blocks inv collider Q' = Some qb' -> map spot qb = map spot qb'.
Proof.
  intros E. unfold query_blocks. intros EQ EQ'. destruct (all_some _) as [M|] eqn:EM in EQ; [|discriminate]. destruct (all_some _) as [M'|] eqn:EM' in EQ'; [|discriminate]. injection EQ as <-. injection EQ' as <-. rewrite !concat_map. f_equal.
  set (k := fun p : nat * m3 => match nth_error inv (fst p) with Some (Some k) => match nth_error collider (fst p) with Some v => [(k, v)] | None => [] end | _ => [] end).
  refine (all_some_places _ _ k k (map spot) (map spot) _ _ Q Q' M M' _ EM EM').
  1, 2: intros [q H] b Eb; unfold k; cbn [fst]; destruct (nth_error inv q) as [[j|]|]; [|injection Eb as <-; reflexivity|discriminate]; destruct (nth_error collider q); [injection Eb as <-; reflexivity|discriminate].
  etransitivity; [symmetry; exact (map_map fst (fun a => match nth_error inv a with Some (Some k) => match nth_error collider a with Some v => [(k, v)] | None => [] end | _ => [] end) Q)|]. rewrite E. apply map_map.
Qed.
Lemma surface_blocks_alike inv surface L L' sb sb' : map fst L = map fst L' -> surface_blocks inv surface L = Some sb -> surface_blocks inv surface L' = Some sb' -> map spot sb = map spot sb'.
Proof.
  intros E. unfold surface_blocks. intros EQ EQ'. destruct (all_some _) as [M|] eqn:EM in EQ; [|discriminate]. destruct (all_some _) as [M'|] eqn:EM' in EQ'; [|discriminate]. injection EQ as <-. injection EQ' as <-. rewrite !concat_map. f_equal.
  set (k := fun p : nat * nat * m3 => match nth_error inv (fst (fst p)) with Some (Some k) => match nth_error surface (snd (fst p)) with Some v => [(k, v)] | None => [] end | _ => [] end).
  refine (all_some_places _ _ k k (map spot) (map spot) _ _ L L' M M' _ EM EM').
  1, 2: intros [[q v] H] b Eb; unfold k; cbn [fst snd]; destruct (nth_error inv q) as [[j|]|]; [|injection Eb as <-; reflexivity|discriminate]; destruct (nth_error surface v); [injection Eb as <-; reflexivity|discriminate].
  etransitivity; [symmetry; exact (map_map fst (fun a : nat * nat => match nth_error inv (fst a) with Some (Some k) => match nth_error surface (snd a) with Some v => [(k, v)] | None => [] end | _ => [] end) L)|]. rewrite E. apply map_map.
Qed.
Lemma basis_alike iamax inv surface collider normals normals' grads grads' ms ms' tr tr' Q Q' L L' m g g' : map fst Q = map fst Q' -> map fst L = map fst L' ->
  basis_gradient_product iamax inv surface collider normals grads ms tr Q L m = Some g -> basis_gradient_product iamax inv surface collider normals' grads' ms' tr' Q' L' m = Some g' -> alike (entries g) (entries g').
Proof.
  intros EQ EL. unfold basis_gradient_product, basis_jacobian_product. destruct (query_blocks inv collider Q) as [qb|] eqn:E1; [|discriminate]. destruct (surface_blocks inv surface L) as [sb|] eqn:E2; [|discriminate].
  destruct (query_blocks inv collider Q') as [qb'|] eqn:E1'; [|discriminate]. destruct (surface_blocks inv surface L') as [sb'|] eqn:E2'; [|discriminate]. intros EG EG'.
  destruct (all_some _) as [P|] eqn:EP in EG; [|discriminate]. destruct (all_some _) as [P'|] eqn:EP' in EG'; [|discriminate]. injection EG as <-. injection EG' as <-.
  assert (F : map fst P = map fst P').
  { refine (all_some_places _ _ spot spot fst fst _ _ (qb ++ sb) (qb' ++ sb') P P' _ EP EP').
    1, 2: intros [[[k q] v] H] b Eb; cbn [spot]; repeat match type of Eb with match ?x with _ => _ end = _ => destruct x; try discriminate end; injection Eb as <-; reflexivity.
    rewrite !map_app. f_equal; [exact (query_blocks_alike _ _ _ _ _ _ EQ E1 E1')|exact (surface_blocks_alike _ _ _ _ _ _ EL E2 E2')]. }
  apply triplets_alike. match goal with |- map fst (map _ ?X) = map fst (map _ ?Y) => change (map fst (transposed X) = map fst (transposed Y)) end. rewrite !transposed_places, !(map_fst_filter (fun e => Nat.ltb (snd e) m)), F. reflexivity.
Qed.

(** ** States of one contact at different times *)
Lemma same_setup_refl c : same_setup c c.
Proof. unfold same_setup. repeat split. Qed.
Lemma same_setup_trans a b c : same_setup a b -> same_setup b c -> same_setup a c.
Proof. unfold same_setup. intros (T1 & T2 & T3 & T4 & T5 & T6 & T7 & T8 & T9 & T10 & T11 & T12 & T13 & T14 & T15) (U1 & U2 & U3 & U4 & U5 & U6 & U7 & U8 & U9 & U10 & U11 & U12 & U13 & U14 & U15). repeat split; congruence. Qed.
Lemma values_pattern {A} (add : A -> A -> A) z m bs m' : update_values add z m bs = Some m' -> mp_pattern m' = mp_pattern m.
Proof. unfold update_values. destruct (forallb _ _); [|discriminate]. intros E. injection E as <-. reflexivity. Qed.
Definition same_layout (s s' : friction_state) : Prop :=
  same_setup (fs_contact s) (fs_contact s') /\ fs_constraints s' = fs_constraints s /\ mp_pattern (fs_gradient s') = mp_pattern (fs_gradient s) /\ mp_pattern (fs_distance s') = mp_pattern (fs_distance s) /\
  fs_jac_jacobian s' = fs_jac_jacobian s /\ fs_jac_gradient s' = fs_jac_gradient s.
Lemma later_facts iamax ord n s s' : lists_the_set ord -> reached iamax ord n s -> later iamax n s s' -> reached iamax ord n s' /\ same_layout s s'.
Proof.
  intros OK RS. induction 1 as [|s' X rb c s'' L (RS' & SL) EU ER].
  - split; [exact RS|]. refine (conj (same_setup_refl _) _). repeat split.
  - assert (RS'' := reached_updated iamax ord n s' X rb c s'' RS' EU ER). split; [exact RS''|]. destruct (reached_facts iamax ord n s' OK RS') as (SH & _ & _). destruct (update_places _ n X rb c SH EU) as (_ & _ & _ & SS).
    destruct SL as (S1 & S2 & S3 & S4 & S5 & S6). unfold refresh_friction in ER.
    destruct (update_jacobian _ _ _ _) as [J|]; [|discriminate]. destruct (update_gradient _ _ _ _ _ _ _ _) as [G|] eqn:EG; [|discriminate]. destruct (update_constraint_gradient _ _) as [Dg|] eqn:ED; [|discriminate]. destruct (distance_potential c) as [ds|]; [|discriminate]. destruct (contact_multipliers c) as [la|]; [|discriminate].
    destruct (contact_frames iamax c la) as [fr|]; [|discriminate]. injection ER as <-. unfold same_layout. cbn [fs_contact fs_constraints fs_gradient fs_distance fs_jac_jacobian fs_jac_gradient].
    refine (conj (same_setup_trans _ _ _ S1 SS) (conj S2 (conj _ (conj _ (conj S5 S6))))).
    + unfold update_gradient in EG. destruct (from_selection_full _ _ _ _ _ _ _); [|discriminate]. rewrite (values_pattern _ _ _ _ _ EG). exact S3.
    + unfold update_constraint_gradient, update_distance_gradient in ED. destruct (distance_jacobian c); [|discriminate]. rewrite (values_pattern _ _ _ _ _ ED). exact S4.
Qed.
Lemma state_whole iamax ord n s : lists_the_set ord -> reached iamax ord n s -> whole (fs_gradient s) /\ whole (fs_distance s) /\ whole (fs_jac_jacobian s).
Proof.
  intros OK RS. destruct (reached_facts iamax ord n s OK RS) as (SH & _ & D). destruct D as (_ & _ & _ & _ & D5 & (A & B & _ & _ & D6) & _ & D8 & _). refine (conj _ (conj _ _)).
  - unfold build_gradient in D5. destruct (reverse_map _ _); [|discriminate]. destruct (from_selection_full _ _ _ _ _ _ _); [|discriminate]. injection D5 as <-. apply triplets_whole.
  - rewrite D8. unfold build_distance_gradient. destruct (build_correct v3 v3_add v3_0 v3_monoid (fun p => Nat.ltb (fst p) n && Nat.ltb (snd p) (constraint_size (fs_contact s))) (distance_triplets (jacobian_rows (fs_contact s)))) as (_ & _ & _ & _ & _ & W & _). exact W.
  - rewrite D6. apply triplets_whole.
Qed.
Lemma same_filled c c' : same_setup c c' -> filled (ct_topo c') = filled (ct_topo c).
Proof. intros (T1 & _). unfold filled. rewrite T1. reflexivity. Qed.
Lemma hessian_q_places c n : contact_shape c n -> map fst (hessian_q c) = filled (ct_topo c).
Proof. intros SH. unfold hessian_q. rewrite map_map. cbn [fst]. rewrite (rows_at c n SH), map_map. cbn [row_at fst]. apply map_id. Qed.
Lemma flat_map_in_ext {A B} (f g : A -> list B) l : (forall a, In a l -> f a = g a) -> flat_map f l = flat_map g l.
Proof. induction l as [|a l IH]; intros H; [reflexivity|]. cbn [flat_map]. rewrite (H a (or_introl eq_refl)), IH by (intros b I; apply H; right; exact I). reflexivity. Qed.
Lemma hessian_v_places c n : contact_shape c n -> map fst (hessian_v c) = flat_map (fun a => map (fun v => (a, v)) (unseen [] (flat_map tri_verts (map (fun i => nth i (sb_topo (cbase c)) (0, 0, 0)%nat) (nth a (trivial_neighborhood (ct_topo c)) []))))) (filled (ct_topo c)).
Proof.
  intros SH. unfold hessian_v. rewrite map_of_flat. transitivity (flat_map (fun p => map (fun v => (fst p, v)) (unseen [] (flat_map tri_verts (map (fun i => nth i (sb_topo (cbase c)) (0, 0, 0)%nat) (snd (snd p)))))) (crows c)).
  - apply flat_map_in_ext. intros p I. rewrite map_map. cbn [fst]. rewrite <- (map_map fst (fun v => (fst p, v))). f_equal. apply (hmix_index c n SH p I).
  - rewrite (rows_at c n SH). generalize (filled (ct_topo c)). intros l. induction l as [|a l IH]; [reflexivity|]. cbn [map flat_map]. rewrite IH. reflexivity.
Qed.
Lemma hessian_places c c' n : contact_shape c n -> contact_shape c' n -> same_setup c c' -> map fst (hessian_q c) = map fst (hessian_q c') /\ map fst (hessian_v c) = map fst (hessian_v c').
Proof.
  intros SH SH' SS. rewrite (hessian_q_places c n SH), (hessian_q_places c' n SH'), (hessian_v_places c n SH), (hessian_v_places c' n SH'), (same_filled c c' SS). destruct SS as (T1 & _ & _ & _ & _ & T6 & _). rewrite T1, T6. split; reflexivity.
Qed.

Section Layout.
Variable iamax : v3 -> nat.
Variable ord : list nat -> list nat.
Hypothesis OK : lists_the_set ord.
Variable n : nat.
Variables s s' : friction_state.
Hypothesis RS : reached iamax ord n s.
Hypothesis LS : later iamax n s s'.
Let c := fs_contact s.
Let c' := fs_contact s'.
Let RS' : reached iamax ord n s' := proj1 (later_facts iamax ord n s s' OK RS LS).
Let SL : same_layout s s' := proj2 (later_facts iamax ord n s s' OK RS LS).
Let SH : contact_shape c n := proj1 (reached_facts iamax ord n s OK RS).
Let SH' : contact_shape c' n := proj1 (reached_facts iamax ord n s' OK RS').
Lemma gradient_places : map fst (entries (fs_gradient s')) = map fst (entries (fs_gradient s)).
Proof. rewrite !entries_fst; [apply SL|apply (state_whole iamax ord n s OK RS)|apply (state_whole iamax ord n s' OK RS')]. Qed.
Lemma basis_places ms ms' tr m g g' : basis_gradient iamax s ms tr m = Some g -> basis_gradient iamax s' ms' tr m = Some g' -> map fst (entries g') = map fst (entries g).
Proof.
  unfold basis_gradient. fold c c'. intros E E'.
  assert (LC : length (fs_constraints s) = length (ct_points c)). { pose proof (proj2 (proj2 (reached_facts iamax ord n s OK RS))) as D. destruct D as (_ & _ & D3 & _). destruct (reverse_map_spec (length (ct_points c)) (filled (ct_topo c)) (filled_nodup c) (filled_range c n SH)) as (inv & EI & LI & _). fold c in D3. rewrite D3 in EI. injection EI as <-. exact LI. }
  assert (LC' : length (fs_constraints s') = length (ct_points c')). { pose proof (proj2 (proj2 (reached_facts iamax ord n s' OK RS'))) as D. destruct D as (_ & _ & D3 & _). destruct (reverse_map_spec (length (ct_points c')) (filled (ct_topo c')) (filled_nodup c') (filled_range c' n SH')) as (inv & EI & LI & _). fold c' in D3. rewrite D3 in EI. injection EI as <-. exact LI. }
  rewrite LC in E. rewrite LC' in E'. rewrite (hessian_q_some c _ (rows_bound c n SH)), (hessian_v_some c n SH) in E. rewrite (hessian_q_some c' _ (rows_bound c' n SH')), (hessian_v_some c' n SH') in E'.
  destruct (query_gradients (ct_topo c) (ct_points c)) as [gr|]; [|discriminate]. destruct (query_gradients (ct_topo c') (ct_points c')) as [gr'|]; [|discriminate].
  destruct SL as (SS & S2 & _). fold c c' in SS. destruct (hessian_places c c' n SH SH' SS) as (HQ & HV). destruct SS as (_ & _ & _ & _ & _ & _ & _ & _ & T9 & T10 & _). rewrite S2, T9, T10 in E'. symmetry. exact (basis_alike _ _ _ _ _ _ _ _ _ _ _ _ _ _ _ _ _ _ _ HQ HV E E').
Qed.
Lemma jac_gradient_size ms ms' m A A' : length ms = length (filled (ct_topo c)) -> length ms' = length (filled (ct_topo c)) -> jac_gradient_triplets ord c ms m = Some A -> jac_gradient_triplets ord c' ms' m = Some A' -> length A' = length A.
Proof.
  intros LM LM' E E'. destruct SL as (SS & _). fold c c' in SS. assert (LF := same_filled c c' SS).
  destruct (jg_some ord OK c n SH ms LM) as (P & Q & _ & _ & FP & FQ & _ & _ & J). rewrite J in E. injection E as <-. rewrite <- LF in LM'. destruct (jg_some ord OK c' n SH' ms' LM') as (P' & Q' & _ & _ & FP' & FQ' & _ & _ & J'). rewrite J' in E'. injection E' as <-.
  rewrite <- (map_length fst (jg_blocks c m P Q)), <- (map_length fst (jg_blocks c' m P' Q')), !jg_fst, FP, FQ, FP', FQ', LF. destruct SS as (T1 & _ & _ & _ & _ & T6 & _ & _ & T9 & T10 & _). unfold cbase in *. rewrite T1, T6. unfold jg_places, sv, cv. rewrite T9, T10. reflexivity.
Qed.
Lemma slips_count st v : reached iamax ord n st -> length v = n -> length (contact_mul (friction_maps st) v) = length (filled (ct_topo (fs_contact st))) /\ length (fs_frames st) = length (filled (ct_topo (fs_contact st))) /\ length (fs_lambda st) = length (filled (ct_topo (fs_contact st))).
Proof.
  intros R LV. destruct (reached_facts iamax ord n st OK R) as (SHt & _ & D). destruct (state_action iamax ord (fs_contact st) n SHt st D) as (L & _ & _ & _ & PV). rewrite (PV v LV), (frames_seq iamax ord (fs_contact st) n SHt st D), (lambda_seq iamax ord (fs_contact st) n SHt st D), !map_length, !seq_length. repeat split.
Qed.
Lemma filter_alike (q : nat * nat -> bool) (L M : blocks) : map fst L = map fst M -> map fst (filter (fun e => q (fst e)) L) = map fst (filter (fun e => q (fst e)) M).
Proof. intros E. rewrite !map_fst_filter, E. reflexivity. Qed.
Lemma lagged_layout o o' cur cur' v v' dqdv dqdv' m J J' : fo_lagged o = true -> fo_lagged o' = true -> friction_jacobian_blocks iamax ord o s cur v dqdv m = Some J -> friction_jacobian_blocks iamax ord o' s' cur' v' dqdv' m = Some J' -> map fst J' = map fst J.
Proof.
  intros OL OL' E E'. unfold friction_jacobian_blocks in E, E'. rewrite OL in E. rewrite OL' in E'. cbv zeta in E, E'. injection E as <-. injection E' as <-. apply (filter_alike (fun p => andb (Nat.ltb (fst p) m) (Nat.ltb (snd p) m))).
  apply product_alike; [apply gradient_places|]. rewrite !premultiply_alike, !transposed_places, gradient_places. reflexivity.
Qed.
Lemma moving_layout o o' prev prev' v v' dqdv dqdv' m J J' : fo_lagged o = false -> fo_lagged o' = false -> fo_incomplete o' = fo_incomplete o -> length v = n -> length v' = n ->
  friction_jacobian_blocks iamax ord o prev s v dqdv m = Some J -> friction_jacobian_blocks iamax ord o' prev' s' v' dqdv' m = Some J' -> map fst J' = map fst J.
Proof.
  intros OL OL' OI LV LV' E E'. unfold friction_jacobian_blocks in E, E'. rewrite OL in E. rewrite OL', OI in E'. cbv zeta in E, E'. fold c in E. fold c' in E'.
  destruct (state_whole iamax ord n s OK RS) as (W1 & W2 & W3). destruct (state_whole iamax ord n s' OK RS') as (W1' & W2' & W3'). pose proof SL as (_ & _ & S3 & S4 & S5 & S6).
  assert (EL : map fst (lambda_product o' s' (contact_mul (friction_maps s') v') m dqdv') = map fst (lambda_product o s (contact_mul (friction_maps s) v) m dqdv)) by (apply lambda_alike; assumption).
  assert (PA : forall M M' : blocks, map fst M' = map fst M -> map fst (matrix_product (entries (fs_gradient s')) M') = map fst (matrix_product (entries (fs_gradient s)) M)) by (intros M M' EM; apply product_alike; [apply gradient_places|exact EM]).
  destruct (fo_incomplete o).
  - injection E as <-. injection E' as <-. apply (filter_alike (fun p => andb (Nat.ltb (fst p) m) (Nat.ltb (snd p) m))). rewrite !map_app. f_equal; [exact EL|]. apply PA. rewrite !premultiply_alike, !transposed_places, gradient_places. reflexivity.
  - destruct (jac_gradient_triplets ord c _ m) as [A|] eqn:EA; [|discriminate]. destruct (basis_gradient iamax s _ false m) as [jb|] eqn:EB; [|discriminate]. destruct (basis_gradient iamax s _ true m) as [jbt|] eqn:EBT; [|discriminate]. destruct (match jac_jacobian_triplets _ _ _ _ _ with Some _ => _ | None => _ end) as [JJ|] eqn:EJ in E; [|discriminate].
    destruct (jac_gradient_triplets ord c' _ m) as [A'|] eqn:EA'; [|discriminate]. destruct (basis_gradient iamax s' _ false m) as [jb'|] eqn:EB'; [|discriminate]. destruct (basis_gradient iamax s' _ true m) as [jbt'|] eqn:EBT'; [|discriminate]. destruct (match jac_jacobian_triplets _ _ _ _ _ with Some _ => _ | None => _ end) as [JJ'|] eqn:EJ' in E'; [|discriminate].
    injection E as <-. injection E' as <-. apply (filter_alike (fun p => andb (Nat.ltb (fst p) m) (Nat.ltb (snd p) m))). rewrite !map_app, !scaled_alike.
    destruct (slips_count s v RS LV) as (C1 & C2 & C3). destruct (slips_count s' v' RS' LV') as (C1' & C2' & C3'). assert (LF := same_filled c c' (proj1 SL)). fold c in C1, C2, C3. fold c' in C1', C2', C3'. rewrite LF in C1', C2', C3'.
    assert (LA : length A' = length A).
    { refine (jac_gradient_size _ _ m A A' _ _ EA EA'); rewrite map_length, combine_length, map_length, !combine_length; rewrite ?C1, ?C2, ?C3, ?C1', ?C2', ?C3'; lia. }
    f_equal; [exact EL|]. f_equal; [|f_equal; [|f_equal; [|f_equal]]].
    + rewrite S6. clear - LA. revert A A' LA. generalize (fs_jac_gradient s). induction l as [|p l IH]; intros [|a A] [|a' A'] LA; try discriminate; try reflexivity. cbn [map combine fst]. f_equal. apply IH. cbn in LA. lia.
    + apply PA. rewrite !transposed_places, (basis_places _ _ _ _ _ _ EB EB'). reflexivity.
    + apply PA. rewrite !premultiply_alike, !transposed_places, (basis_places _ _ _ _ _ _ EBT EBT'). reflexivity.
    + apply PA. rewrite !premultiply_alike, !transposed_places. f_equal. destruct (jac_jacobian_triplets ord c _ _ m) as [T|]; [|discriminate]. destruct (jac_jacobian_triplets ord c' _ _ m) as [T'|]; [|discriminate]. rewrite S5 in EJ'.
      assert (WV : forall x y, update_values m3_add m3_zero (fs_jac_jacobian s) x = Some y -> whole y) by (intros x y; unfold update_values; destruct (forallb _ _); [|discriminate]; intros Q; injection Q as <-; unfold whole; cbn [mp_blocks mp_pattern]; unfold whole in W3; rewrite <- W3; apply accumulate_length).
      rewrite !entries_fst by (eapply WV; eassumption). rewrite (values_pattern _ _ _ _ _ EJ), (values_pattern _ _ _ _ _ EJ'). reflexivity.
    + apply PA. rewrite !premultiply_alike, !transposed_places, gradient_places. reflexivity.
Qed.
End Layout.
