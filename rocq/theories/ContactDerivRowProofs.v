(** The derivatives of the contact Jacobian, row by row and assembled. *)
From Coq Require Import Reals List Bool Lra Lia Psatz FunctionalExtensionality Permutation Sorted.
From Coquelicot Require Import Coquelicot.
From Verif Require Import Vec3 Mat3 RList Calc KernelModel KernelSpec KernelProofs FieldModel FieldSpec FieldProofs FieldDerivProofs
  NeighborModel NeighborSpec NeighborProofs UpdateProps SurfJacModel SurfJacSpec SurfJacProofs ContactMapModel ContactMapSpec ContactMapProofs HessModel HessSpec HessProofs HessMixProofs
  BasisJacProofs ContactDerivModel ContactDerivSpec ContactDerivProofs.
Import ListNotations.
Local Open Scope R_scope.

(** ** Velocities of samples do not enter *)
Definition entry_at (q : v3) (S : list sample) (view : list nat) (k : kernel) (P : bg_params) (i : nat) : m3 :=
  match contact_setup q S view k P with Some (g, wsi, d, _) => sample_contact_jacobian_at q (smp S i) k g wsi d | None => m3_0 end.
Lemma strip_setup q S view k P : contact_setup q (map strip S) view k P = contact_setup q S view k P.
Proof.
  unfold contact_setup. rewrite jacobian_strip. unfold bg_local. replace (closest_sample q (map strip S) view) with (closest_sample q S view).
  2:{ unfold closest_sample, dist2. rewrite smp_strip. reflexivity. }
  destruct (closest_sample q S view) as [c|]; [|reflexivity]. destruct (query_jacobian_at q S view None k P) as [g|]; [|reflexivity]. f_equal.
  unfold weight_nml_sum_inv, bg_query_jacobian, weight_sum_inv, field_value, field_gradient, neighbor_weight_gradient, background_weight_gradient, background_weight, orientation, bg_new_impl.
  cbn [b_q b_all b_view b_value b_weighted b_sum b_kernel b_dist b_disp b_index]. unfold background_weight. rewrite smp_strip. reflexivity.
Qed.
Lemma strip_entry q S view k P i : entry_at q (map strip S) view k P i = entry_at q S view k P i.
Proof. unfold entry_at. rewrite strip_setup, smp_strip. destruct (contact_setup q S view k P) as [[[[g wsi] d] bj]|]; reflexivity. Qed.
Lemma keep_strip S T : length T = length S -> map strip (keep S T) = map strip T.
Proof.
  intros L. unfold keep. rewrite map_map. unfold strip at 1. cbn [s_pos s_nml s_value].
  revert T L. induction S as [|a S IH]; intros [|x T] L; try discriminate; [reflexivity|]. cbn [combine map snd]. rewrite IH by (cbn in L; lia). reflexivity.
Qed.
Lemma entry_keep q S T view k P i : length T = length S -> entry_at q (keep S T) view k P i = entry_at q T view k P i.
Proof. intros L. rewrite <- strip_entry, keep_strip by exact L. apply strip_entry. Qed.
Lemma contact_jacobian_entries q S view k P : view <> [] -> exists bj, contact_jacobian_at q S view k P = Some (map (entry_at q S view k P) view, bj).
Proof.
  intros NE. destruct (contact_map_form q S view k P NE) as (f & bj & E & _). revert E. unfold contact_jacobian_at, entry_at. destruct (contact_setup q S view k P) as [[[[g wsi] d] bj']|]; [|discriminate]. intros _. exists bj'. reflexivity.
Qed.
Definition flip (tr : bool) (M : m3) : m3 := if tr then m3_transpose M else M.

(** ** One row *)
Lemma contact_row_derive ord t U rebuild (q : R -> v3) dq view : let b := q_base t in let k := q_kernel t in let P := sb_bg b in
  sb_type b = SFace -> well_formed b -> (forall tr, In tr (sb_topo b) -> distinct_corners tr) -> in_place b -> (forall i, In i view -> (i < length (sb_samples b))%nat) -> NoDup view ->
  valid_kernel k -> p_weighted P = false -> lists_the_set ord -> moves q dq -> contact_point t (q 0) view ->
  exists (bq : bool -> nat -> v3 -> m3) (bv : bool -> nat -> v3 -> list (nat * m3)),
    (forall tr, query_contact_blocks t (q 0) view tr = Some (bq tr)) /\
    (forall tr, vertex_contact_blocks ord t (q 0) view tr = Some (map (fun i => (nth i (sb_topo b) (0, 0, 0)%nat, bv tr i)) view)) /\
    (forall tr i mult e, In i view -> In e (bv tr i mult) -> exists j, In j view /\ In (fst e) (tri_verts (nth j (sb_topo b) (0, 0, 0)%nat))) /\
    forall tr i x, In i view -> moves (fun s => m3_mulv (flip tr (entry_at (q s) (sb_samples (moved b U rebuild s)) view k P i)) x)
      (v3_add (tm (bq tr i x) dq) (vsum (map (fun e => tm (snd e) (U (fst e))) (bv tr i x)))).
Proof.
  intros b k P TY WF DC IP LEN ND Vk PW OK Mq (c & g & NE & RV & SD & RC & EG & NO). fold b in NE, RV, SD, RC, EG, NO. fold k P in NE, RV, SD, RC, EG, NO.
  assert (NO' : forall i, In i view -> v3_dot (unit_of (s_nml (smp (sb_samples b) i))) g <> -1).
  { intros i Hi. specialize (NO i Hi). unfold direction in NO. destruct (RV i Hi) as (_ & NZ & _). unfold unit_of. replace (1 / v3_norm (s_nml (smp (sb_samples b) i))) with (/ v3_norm (s_nml (smp (sb_samples b) i))) by (unfold Rdiv; ring). exact NO. }
  assert (SB : smooth_background k P 0 (sb_samples b) (q 0) c) by (refine (conj SD (conj _ _)); rewrite PW; discriminate).
  assert (QB : quiet_background k P (sb_samples b) (q 0) c) by (right; split; [exact PW|]; destruct (k_radius k); [left; exact RC|exact Logic.I]).
  destruct (mixed_gradient_derive t U rebuild q dq view c TY WF DC IP LEN ND Vk Mq NE RV SB QB) as (H & row & J & EH & ER & _ & EJ & MJ). fold b k P in EH, EJ.
  destruct (vertex_block_rate t (q 0) view c g Vk NE RV PW RC EG NO' TY WF DC LEN ord OK) as (bv & A & EV & ER' & RT & IN).
  rewrite ER in ER'. injection ER' as ->.
  set (tri := fun i => nth i (sb_topo b) (0, 0, 0)%nat) in *. set (verts := ord (flat_map tri_verts (map tri view))) in *.
  assert (EA : block_row_product (map (fun v => (v, A v)) (unseen [] (flat_map tri_verts (map tri view)))) U = vsum (map (fun v => m3_mulv (A v) (U v)) verts)).
  { unfold block_row_product. change (fold_right v3_add v3_0) with vsum. rewrite map_map. cbn [fst snd]. apply vsum_perm. apply Permutation_map. apply NoDup_Permutation; [apply unseen_nodup|apply OK|]. intros v. rewrite unseen_in. unfold verts. rewrite (proj2 (OK _)). cbn. tauto. }
  change (fun i => nth i (sb_topo (q_base t)) (0%nat, 0%nat, 0%nat)) with tri in MJ. rewrite EA in MJ. clear EA.
  exists (fun tr i mult => query_contact_block (q 0) (smp (sb_samples b) i) k g (weight_nml_gradient (bg_new_impl (q 0) (sb_samples b) view (Local c) k P None) g (m3_transpose H)) H (weight_nml_sum_inv (q 0) (sb_samples b) view k (v3_norm (away (sb_samples b) (q 0) c)) g) (v3_norm (away (sb_samples b) (q 0) c)) mult tr), bv.
  assert (EB : bg_local (q 0) (sb_samples b) view k P None = Some (bg_new_impl (q 0) (sb_samples b) view (Local c) k P None)) by exact (b_some t (q 0) view c NE).
  refine (conj _ (conj _ (conj _ _))).
  - intros tr. unfold query_contact_blocks. cbv zeta. fold b. fold k P. rewrite EB, EG, EH. reflexivity.
  - exact EV.
  - intros tr i mult e Hi He. specialize (IN tr i mult e Hi He). unfold verts in IN. apply (proj1 (proj2 (OK (flat_map tri_verts (map tri view))) (fst e))) in IN. apply in_flat_map in IN. destruct IN as (x & Hx & Hv). apply in_map_iff in Hx. destruct Hx as (j & <- & Hj). exists j. auto.
  - intros tr i x Hi.
    assert (EQ := query_block_rate t (q 0) view c g Vk NE RV PW RC NO' H i dq x tr Hi). cbv zeta in EQ. fold b k P in EQ. rewrite EQ. clear EQ.
    rewrite (RT tr i x U Hi). fold b k P tri verts.
    rewrite <- entry_rate_add.
    destruct (moving_mesh b U rebuild view WF DC IP LEN) as (S0 & MS & _). cbv zeta in S0, MS. set (S := fun s => keep (sb_samples b) (sb_samples (moved b U rebuild s))) in *. change (keep _ _) with (S 0) in S0. cbv beta in MS.
    assert (G0 : J 0 = g).
    { pose proof (locally_singleton _ _ EJ) as E0. cbv beta in E0. rewrite <- (jacobian_keep _ (sb_samples b)) in E0 by apply moved_length. change (keep (sb_samples b) (sb_samples (moved b U rebuild 0))) with (S 0) in E0. rewrite S0, EG in E0. congruence. }
    rewrite <- S0 in NE, RV, SB, RC, NO'. rewrite <- G0 in NO'.
    pose proof (entry_moves k view c q S dq (pos_rate b U) (nml_rate b U) J _ Vk Mq MS NE RV RC MJ NO' tr i x Hi) as EM.
    pose proof (entry_near k P 0 view c q S dq (pos_rate b U) (nml_rate b U) J _ Vk Mq MS NE RV SB RC MJ NO') as EN.
    pose proof (view_near k P 0 view c q S dq (pos_rate b U) (nml_rate b U) Mq MS NE RV SB) as VN.
    eapply moves_ext_loc; [|eapply moves_is; [exact EM|]].
    + eapply filter_imp; [|exact (filter_and _ _ (filter_and _ _ EN VN) EJ)]. intros s [[HE (HN & HV & HB)] HJ]. symmetry. rewrite <- (HE i x tr Hi). rewrite <- (entry_keep (q s) (sb_samples b)) by apply moved_length. fold (S s).
      assert (BS : bg_local (q s) (S s) view k P None = Some (bg_new_impl (q s) (S s) view (Local c) k P None)) by exact (the_background k P view c (fun _ => q s) (fun _ => S s) HN).
      rewrite <- (jacobian_keep _ (sb_samples b)) in HJ by apply moved_length. fold (S s) in HJ. unfold entry_at, contact_setup. rewrite BS, HJ. reflexivity.
    + unfold entry_rate, w_rate, N_rate, W_rate, w_rate, N_rate. rewrite S0, G0. reflexivity.
Qed.

(** ** Assembled *)
Lemma filled_in t r : In r (filled t) <-> (r < length (trivial_neighborhood t))%nat /\ nth r (trivial_neighborhood t) [] <> [].
Proof.
  unfold filled. rewrite filter_In, in_seq. split.
  - intros [A B]. split; [lia|]. intros E. rewrite E in B. discriminate.
  - intros [A B]. split; [lia|]. destruct (nth r (trivial_neighborhood t) []); [congruence|reflexivity].
Qed.
Lemma rows_of_filled t qs : length qs = length (trivial_neighborhood t) ->
  filter (fun p => negb (is_nil (snd (snd p)))) (enumerate (combine qs (trivial_neighborhood t))) = map (fun r => (r, (nth r qs v3_0, nth r (trivial_neighborhood t) []))) (filled t).
Proof.
  intros L. unfold filled, enumerate. rewrite combine_length, L, Nat.min_id.
  assert (G : forall (ns : list (list nat)) qs m, length qs = length ns -> filter (fun p : nat * (v3 * list nat) => negb (is_nil (snd (snd p)))) (combine (seq m (length ns)) (combine qs ns)) =
    map (fun r => (r, (nth (r - m) qs v3_0, nth (r - m) ns []))) (filter (fun r => match nth (r - m) ns [] with [] => false | _ => true end) (seq m (length ns)))).
  { clear. induction ns as [|a ns IH]; intros [|q qs] m L; try discriminate; [reflexivity|]. cbn [length seq combine filter snd]. rewrite (IH qs (S m)) by (cbn in L; lia).
    rewrite Nat.sub_diag. change (nth 0 (a :: ns) []) with a.
    assert (E1 : filter (fun r => match nth (r - m) (a :: ns) [] with [] => false | _ => true end) (seq (S m) (length ns)) = filter (fun r => match nth (r - S m) ns [] with [] => false | _ => true end) (seq (S m) (length ns))).
    { apply filter_ext_in. intros r Hr. apply in_seq in Hr. replace (r - m)%nat with (S (r - S m)) by lia. reflexivity. }
    assert (E2 : forall l, (forall r, In r l -> (S m <= r)%nat) -> map (fun r => (r, (nth (r - m) (q :: qs) v3_0, nth (r - m) (a :: ns) []))) l = map (fun r => (r, (nth (r - S m) qs v3_0, nth (r - S m) ns []))) l).
    { intros l Hl. apply map_ext_in. intros r Hr. specialize (Hl r Hr). replace (r - m)%nat with (S (r - S m)) by lia. reflexivity. }
    rewrite E1. assert (HS : forall r, In r (filter (fun r => match nth (r - S m) ns [] with [] => false | _ => true end) (seq (S m) (length ns))) -> (S m <= r)%nat) by (intros r Hr; apply filter_In in Hr; destruct Hr as [Hr _]; apply in_seq in Hr; lia).
    destruct a as [|x a]; cbn [is_nil negb map].
    - rewrite (E2 _ HS). reflexivity.
    - rewrite (E2 _ HS), Nat.sub_diag. reflexivity. }
  rewrite G by exact L. replace (filter (fun r => match nth (r - 0) (trivial_neighborhood t) [] with [] => false | _ => true end) (seq 0 (length (trivial_neighborhood t)))) with (filter (fun r => match nth r (trivial_neighborhood t) [] with [] => false | _ => true end) (seq 0 (length (trivial_neighborhood t)))).
  - apply map_ext. intros r. rewrite Nat.sub_0_r. reflexivity.
  - apply filter_ext. intros r. rewrite Nat.sub_0_r. reflexivity.
Qed.
Lemma surface_at_base t V rebuild : q_base (surface_at t V rebuild) = fst (update_base (q_base t) V rebuild) /\ q_kernel (surface_at t V rebuild) = q_kernel t /\ trivial_neighborhood (surface_at t V rebuild) = trivial_neighborhood t.
Proof.
  unfold surface_at, update_surface. destruct t as [l n|tol b cl si]; cbn [q_base].
  - destruct (update_base (lm_base l) V rebuild) as [b' m] eqn:E. cbn [fst q_base lm_base]. auto.
  - destruct (update_base b V rebuild) as [b' m]. cbn [fst q_base]. auto.
Qed.
Lemma concat_flat {A C} (f : A -> option (list C)) (h : A -> list C) l : (forall a, In a l -> f a = Some (h a)) -> option_map (@concat C) (all_some (map f l)) = Some (flat_map h l).
Proof. intros H. rewrite (all_some_each f h l H). cbn [option_map]. rewrite flat_map_concat_map. reflexivity. Qed.
Lemma combine_own {A B} (f : A -> B) l : combine (map f l) l = map (fun i => (f i, i)) l.
Proof. induction l as [|a l IH]; [reflexivity|]. cbn [map combine]. rewrite IH. reflexivity. Qed.
Lemma matrices_flat t qs : sb_type (q_base t) = SFace -> well_formed (q_base t) -> indices_ok t -> length qs = length (trivial_neighborhood t) ->
  contact_matrices t qs = Some (flat_map (fun r => flat_map (fun i => map (fun col => (r, col, m3_scale (1 / 3) (entry_at (nth r qs v3_0) (sb_samples (q_base t)) (nth r (trivial_neighborhood t) []) (q_kernel t) (sb_bg (q_base t)) i)))
    (tri_verts (nth i (sb_topo (q_base t)) (0, 0, 0)%nat))) (nth r (trivial_neighborhood t) [])) (filled t)).
Proof.
  intros TY [W1 W2] IOK LQ. rewrite TY in W2. unfold contact_matrices. rewrite LQ, Nat.eqb_refl, rows_of_filled by exact LQ. rewrite map_map. cbn [fst snd]. apply concat_flat. intros r Hr. cbv beta. apply filled_in in Hr. destruct Hr as [RL RN].
  unfold contact_row. destruct (contact_jacobian_entries (nth r qs v3_0) (sb_samples (q_base t)) (nth r (trivial_neighborhood t) []) (q_kernel t) (sb_bg (q_base t)) RN) as (bj & ->).
  rewrite TY. set (nb := nth r (trivial_neighborhood t) []) in *. set (f := entry_at _ _ _ _ _).
  assert (E : combine (map f nb) nb = map (fun i => (f i, i)) nb) by apply combine_own.
  rewrite E, map_map. cbn [fst snd]. apply concat_flat. intros i Hi. cbv beta.
  assert (Li : (i < length (sb_topo (q_base t)))%nat). { rewrite <- W2. apply (proj1 (proj2 IOK) nb); [left; apply nth_In; exact RL|exact Hi]. }
  assert (ET : nth_error (sb_topo (q_base t)) i = Some (nth i (sb_topo (q_base t)) (0, 0, 0)%nat)) by (apply nth_error_nth'; exact Li). rewrite ET. reflexivity.
Qed.
Lemma vsum_flat {A B} (f : B -> v3) (g : A -> list B) l : vsum (map f (flat_map g l)) = vsum (map (fun a => vsum (map f (g a))) l).
Proof. induction l as [|a l IH]; [reflexivity|]. cbn [flat_map map]. rewrite map_app, vsum_app, vsum_cons, IH. reflexivity. Qed.
Lemma filled_sorted t : StronglySorted lt (filled t).
Proof.
  unfold filled. generalize (fun r => match nth r (trivial_neighborhood t) [] with [] => false | _ :: _ => true end) (length (trivial_neighborhood t)) 0%nat. intros p n.
  induction n as [|n IH]; intros m; cbn [seq filter]; [constructor|]. destruct (p m); [|apply IH]. constructor; [apply IH|]. apply List.Forall_forall. intros x Hx. apply filter_In in Hx. destruct Hx as [Hx _]. apply in_seq in Hx. lia.
Qed.
Lemma for_filled_combine t (mults : list v3) : length mults = length (filled t) -> combine (filled t) mults = map (fun r => (r, for_filled t mults r)) (filled t).
Proof.
  unfold for_filled. pose proof (filled_sorted t) as SO. revert SO. generalize (filled t). intros l.
  assert (G : forall l pre mults mp, StronglySorted lt (pre ++ l) -> length mults = length l -> length mp = length pre -> combine l mults = map (fun r => (r, nth (length (filter (fun j => Nat.ltb j r) (pre ++ l))) (mp ++ mults) v3_0)) l).
  { clear. induction l as [|a l IH]; intros pre [|m mults] mp SO LM LP; try discriminate; [reflexivity|]. cbn [combine map]. f_equal.
    - f_equal. assert (EL : length (filter (fun j => Nat.ltb j a) (pre ++ a :: l)) = length pre).
      { rewrite filter_app, app_length.
        assert (E1 : filter (fun j => Nat.ltb j a) pre = pre).
        { clear IH LM LP. induction pre as [|x pre IHp]; [reflexivity|]. cbn [app] in SO. inversion SO as [|? ? S1 S2]; subst. cbn [filter]. rewrite (List.Forall_forall) in S2.
          assert (x < a)%nat by (apply S2, in_or_app; right; left; reflexivity). apply Nat.ltb_lt in H. rewrite H, IHp by exact S1. reflexivity. }
        assert (E2 : filter (fun j => Nat.ltb j a) (a :: l) = []).
        { assert (SA : StronglySorted lt (a :: l)). { clear -SO. induction pre as [|x pre IHp]; [exact SO|]. inversion SO; subst. auto. }
          inversion SA as [|? ? S1 S2]; subst. rewrite List.Forall_forall in S2. cbn [filter]. rewrite Nat.ltb_irrefl. clear -S2. induction l as [|y l IHl]; [reflexivity|]. cbn [filter]. assert (a < y)%nat by (apply S2; left; reflexivity).
          replace (Nat.ltb y a) with false by (symmetry; apply Nat.ltb_ge; lia). apply IHl. intros z Hz. apply S2. right. exact Hz. }
        rewrite E1, E2. cbn [length]. lia. }
      rewrite EL, app_nth2 by lia. rewrite LP, Nat.sub_diag. reflexivity.
    - specialize (IH (pre ++ [a]) mults (mp ++ [m])). rewrite <- !app_assoc in IH. cbn [app] in IH. apply IH; [exact SO|cbn in LM; lia|rewrite !app_length; cbn; lia]. }
  intros SO LM. exact (G l [] mults [] SO LM eq_refl).
Qed.
Lemma mean_multiplier_some (topo : list triangle) mults i n : (n <= length mults)%nat -> (i < length topo)%nat -> (forall v, In v (tri_verts (nth i topo (0, 0, 0)%nat)) -> (v < n)%nat) ->
  mean_multiplier mults topo i = Some (v3_scale (1 / 3) (vsum (map (fun v => nth v mults v3_0) (tri_verts (nth i topo (0, 0, 0)%nat))))).
Proof.
  intros LM Hi Hv. unfold mean_multiplier. assert (ET : nth_error topo i = Some (nth i topo (0, 0, 0)%nat)) by (apply nth_error_nth'; exact Hi). rewrite ET.
  rewrite (all_some_each (nth_error mults) (fun v => nth v mults v3_0)); [reflexivity|]. intros v V. apply nth_error_nth'. specialize (Hv v V). lia.
Qed.
Section Assembled.
Variables (ord : list nat -> list nat) (t : query_topo) (U : nat -> v3) (rebuild : bool) (qs : R -> list v3) (dq : nat -> v3).
Let b := q_base t.
Let k := q_kernel t.
Let P := sb_bg b.
Let nb (r : nat) := nth r (trivial_neighborhood t) [].
Let tri (i : nat) := nth i (sb_topo b) (0, 0, 0)%nat.
Hypothesis TY : sb_type b = SFace.
Hypothesis WF : well_formed b.
Hypothesis DC : forall tr, In tr (sb_topo b) -> distinct_corners tr.
Hypothesis IP : in_place b.
Hypothesis IOK : indices_ok t.
Hypothesis ND : forall l, In l (trivial_neighborhood t) -> NoDup l.
Hypothesis Vk : valid_kernel k.
Hypothesis PW : p_weighted P = false.
Hypothesis OK : lists_the_set ord.
Hypothesis LQ : forall s, length (qs s) = length (trivial_neighborhood t).
Hypothesis MQ : forall r, moves (fun s => nth r (qs s) v3_0) (dq r).
Hypothesis CP : forall r, In r (filled t) -> contact_point t (nth r (qs 0) v3_0) (nb r).
Let F (s : R) (r i : nat) := entry_at (nth r (qs s) v3_0) (sb_samples (moved b U rebuild s)) (nb r) k P i.
Let L (s : R) := flat_map (fun r => flat_map (fun i => map (fun col => (r, col, m3_scale (1 / 3) (F s r i))) (tri_verts (tri i))) (nb r)) (filled t).
Lemma nb_in r : In r (filled t) -> In (nb r) (trivial_neighborhood t) /\ nb r <> [].
Proof. intros Hr. apply filled_in in Hr. destruct Hr as [A B]. split; [apply nth_In; exact A|exact B]. Qed.
Lemma nb_len r i : In r (filled t) -> In i (nb r) -> (i < length (sb_samples b))%nat.
Proof. intros Hr Hi. apply (proj1 (proj2 IOK) (nb r)); [left; apply nb_in, Hr|exact Hi]. Qed.
Lemma nb_topo r i : In r (filled t) -> In i (nb r) -> (i < length (sb_topo b))%nat.
Proof. intros Hr Hi. pose proof (nb_len r i Hr Hi) as LI. destruct WF as [_ W2]. rewrite TY in W2. rewrite <- W2. exact LI. Qed.
Lemma tri_bound r i v : In r (filled t) -> In i (nb r) -> In v (tri_verts (tri i)) -> (v < length (sb_verts b))%nat.
Proof. intros Hr Hi Hv. apply (proj1 WF (tri i)); [apply nth_In, (nb_topo r i Hr Hi)|exact Hv]. Qed.
Lemma moving_matrices s : contact_matrices (surface_at t (mesh_line (sb_verts b) U s) rebuild) (qs s) = Some (L s).
Proof.
  destruct (surface_at_base t (mesh_line (sb_verts b) U s) rebuild) as (EB & EK & EN). fold b in EB. fold (moved b U rebuild s) in EB.
  assert (LV : length (mesh_line (sb_verts b) U s) = length (sb_verts b)) by (unfold mesh_line; rewrite map_length, combine_length, seq_length; lia).
  destruct (update_keeps b (mesh_line (sb_verts b) U s) rebuild WF LV) as (WF' & _). fold (moved b U rebuild s) in WF'.
  rewrite matrices_flat.
  - rewrite EB, EK, EN. unfold filled. rewrite EN. reflexivity.
  - rewrite EB. exact TY.
  - rewrite EB. exact WF'.
  - assert (EX : extended_neighborhood (surface_at t (mesh_line (sb_verts b) U s) rebuild) = extended_neighborhood t).
    { clear. unfold surface_at, update_surface. destruct t as [l n|tol b0 cl si]; [destruct (update_base (lm_base l) _ rebuild)|destruct (update_base b0 _ rebuild)]; reflexivity. }
    destruct IOK as (I1 & I2 & I3). unfold indices_ok. rewrite EX, EN, EB, moved_length. auto.
  - rewrite EN. apply LQ.
Qed.
Lemma choose_blocks : exists (bq : bool -> nat -> nat -> v3 -> m3) (bv : bool -> nat -> nat -> v3 -> list (nat * m3)), forall r, In r (filled t) ->
    (forall tr, query_contact_blocks t (nth r (qs 0) v3_0) (nb r) tr = Some (bq tr r)) /\
    (forall tr, vertex_contact_blocks ord t (nth r (qs 0) v3_0) (nb r) tr = Some (map (fun i => (tri i, bv tr r i)) (nb r))) /\
    (forall tr i mult e, In i (nb r) -> In e (bv tr r i mult) -> exists j, In j (nb r) /\ In (fst e) (tri_verts (tri j))) /\
    forall tr i x, In i (nb r) -> moves (fun s => m3_mulv (flip tr (F s r i)) x)
      (v3_add (tm (bq tr r i x) (dq r)) (vsum (map (fun e => tm (snd e) (U (fst e))) (bv tr r i x)))).
Proof.
  assert (G : forall r, In r (filled t) -> exists (bq : bool -> nat -> v3 -> m3) (bv : bool -> nat -> v3 -> list (nat * m3)),
    (forall tr, query_contact_blocks t (nth r (qs 0) v3_0) (nb r) tr = Some (bq tr)) /\
    (forall tr, vertex_contact_blocks ord t (nth r (qs 0) v3_0) (nb r) tr = Some (map (fun i => (tri i, bv tr i)) (nb r))) /\
    (forall tr i mult e, In i (nb r) -> In e (bv tr i mult) -> exists j, In j (nb r) /\ In (fst e) (tri_verts (tri j))) /\
    forall tr i x, In i (nb r) -> moves (fun s => m3_mulv (flip tr (F s r i)) x)
      (v3_add (tm (bq tr i x) (dq r)) (vsum (map (fun e => tm (snd e) (U (fst e))) (bv tr i x))))).
  { intros r Hr. exact (contact_row_derive ord t U rebuild (fun s => nth r (qs s) v3_0) (dq r) (nb r) TY WF DC IP (fun i => nb_len r i Hr) (ND _ (proj1 (nb_in r Hr))) Vk PW OK (MQ r) (CP r Hr)). }
  revert G. generalize (filled t). intros l. induction l as [|a l IH]; intros G; [exists (fun _ _ _ _ => m3_0), (fun _ _ _ _ => []); intros r []|].
  destruct IH as (bq & bv & H); [intros r Hr; apply G; right; exact Hr|]. destruct (G a (or_introl eq_refl)) as (bq0 & bv0 & H0).
  exists (fun tr r => if Nat.eqb a r then bq0 tr else bq tr r), (fun tr r => if Nat.eqb a r then bv0 tr else bv tr r). intros r Hr. destruct (Nat.eqb_spec a r) as [<-|N]; [exact H0|]. apply H. destruct Hr as [E|Hr]; [contradiction|exact Hr].
Qed.
Lemma vsum_if (c : bool) {A} (f : A -> v3) l : vsum (map (fun a => if c then f a else v3_0) l) = if c then vsum (map f l) else v3_0.
Proof. destruct c; [reflexivity|]. apply SurfJacProofs.vsum_zero. reflexivity. Qed.
Lemma moves_if (c : bool) f d : moves f d -> moves (fun s => if c then f s else v3_0) (if c then d else v3_0).
Proof. intros M. destruct c; [exact M|apply moves_const]. Qed.
Lemma add_00 : v3_add v3_0 v3_0 = v3_0.
Proof. apply v3_eq; unv; ring. Qed.

Lemma assembled_plain mults : length mults = length (sb_verts b) -> exists A B, contact_jacobian_jacobian ord t (qs 0) mults = Result (Some A) /\ contact_query_jacobian_jacobian t (qs 0) mults = Result (Some B) /\
  forall r, moves (fun s => block_product (L s) (fun v => nth v mults v3_0) r) (v3_add (column_major_product A U r) (column_major_product B dq r)).
Proof.
  intros LM. destruct choose_blocks as (bq & bv & HB). set (x := fun v => nth v mults v3_0). set (mean := fun i => v3_scale (1 / 3) (vsum (map x (tri_verts (tri i))))).
  exists (flat_map (fun r => flat_map (fun i => map (fun e => (r, fst e, snd e)) (bv false r i (mean i))) (nb r)) (filled t)), (flat_map (fun r => map (fun i => (r, r, bq false r i (mean i))) (nb r)) (filled t)).
  assert (HM : forall r i, In r (filled t) -> In i (nb r) -> mean_multiplier mults (sb_topo b) i = Some (mean i)).
  { intros r i Hr Hi. apply (mean_multiplier_some (sb_topo b) mults i (length (sb_verts b)) ltac:(rewrite LM; apply Nat.le_refl) (nb_topo r i Hr Hi)). intros v. apply (tri_bound r i v Hr Hi). }
  refine (conj _ (conj _ _)).
  - unfold contact_jacobian_jacobian. fold b. rewrite TY. f_equal. unfold hessian_rows. rewrite rows_of_filled by apply LQ. rewrite map_map. cbv beta iota. apply concat_flat. intros r Hr. cbv beta. destruct (HB r Hr) as (_ & EV & _). unfold contact_jacobian_jacobian_at. fold (nb r). rewrite EV.
    rewrite map_map. rewrite (concat_flat _ (fun i => bv false r i (mean i))).
    + cbn [option_map]. f_equal. clear. induction (nb r) as [|a l IH]; [reflexivity|]. cbn [flat_map]. rewrite map_app, IH. reflexivity.
    + intros i Hi. rewrite (all_some_each (nth_error mults) x); [reflexivity|]. intros v V. apply nth_error_nth'. rewrite LM. apply (tri_bound r i v Hr Hi V).
  - unfold contact_query_jacobian_jacobian. fold b. rewrite TY. f_equal. unfold hessian_rows. rewrite rows_of_filled by apply LQ. rewrite map_map. cbv beta iota. apply concat_flat. intros r Hr. cbv beta. destruct (HB r Hr) as (EQ & _ & _). fold (nb r). rewrite EQ.
    apply all_some_each. intros i Hi. rewrite (HM r i Hr Hi). reflexivity.
  - intros r. eapply moves_is; [eapply moves_ext; [|apply (moves_vsum (fun s rr => if Nat.eqb rr r then vsum (map (fun i => m3_mulv (flip false (F s rr i)) (mean i)) (nb rr)) else v3_0)
      (fun rr => if Nat.eqb rr r then vsum (map (fun i => v3_add (tm (bq false rr i (mean i)) (dq rr)) (vsum (map (fun e => tm (snd e) (U (fst e))) (bv false rr i (mean i))))) (nb rr)) else v3_0) (filled t))]|].
    + intros s. unfold block_product, L. rewrite vsum_flat. apply vsum_ext. intros rr Hr0. rewrite vsum_flat. rewrite <- vsum_if. apply vsum_ext. intros i Hi. rewrite map_map. rewrite vsum_if. destruct (Nat.eqb rr r); [|reflexivity].
      unfold mean, flip. destruct (tri i) as [[v0 v1] v2]. cbn [tri_verts map]. rewrite !vsum_cons. change (vsum []) with v3_0. generalize (x v0) (x v1) (x v2) (F s rr i). intros [x1 x2 x3] [y1 y2 y3] [z1 z2 z3] [[a1 a2 a3] [a4 a5 a6] [a7 a8 a9]].
      apply v3_eq; cbv [v3_add v3_scale v3_0 m3_mulv m3_scale v3_dot r0 r1 r2 vx vy vz]; ring.
    + intros rr Hr0. apply moves_if. apply (moves_vsum (fun s i => m3_mulv (flip false (F s rr i)) (mean i))). intros i Hi. destruct (HB rr Hr0) as (_ & _ & _ & M). exact (M false i (mean i) Hi).
    + unfold column_major_product. rewrite !vsum_flat, <- vsum_plus. apply vsum_ext. intros rr Hr0. rewrite vsum_flat, map_map, vsum_if.
      rewrite (vsum_ext (fun a => vsum (map _ (map _ _))) (fun i => if Nat.eqb rr r then vsum (map (fun e => tm (snd e) (U (fst e))) (bv false rr i (mean i))) else v3_0)) by (intros i _; rewrite map_map; apply vsum_if).
      rewrite vsum_if. destruct (Nat.eqb rr r); [|symmetry; apply add_00]. rewrite vsum_plus. change (fun i => m3_mulv (m3_transpose (bq false rr i (mean i))) (dq rr)) with (fun i => tm (bq false rr i (mean i)) (dq rr)).
      generalize (vsum (map (fun i => tm (bq false rr i (mean i)) (dq rr)) (nb rr))). intros z. match goal with |- v3_add z ?y = _ => generalize y end. intros y. apply v3_eq; unv; ring.
Qed.
Lemma assembled_transposed mults : length mults = length (filled t) -> exists A B, contact_hessian ord t (qs 0) mults = Result (Some A) /\ contact_query_hessian t (qs 0) mults = Result (Some B) /\
  forall v, moves (fun s => transposed_product (L s) (for_filled t mults) v) (v3_add (column_major_product A U v) (column_major_product B dq v)).
Proof.
  intros LM. destruct choose_blocks as (bq & bv & HB). set (y := for_filled t mults).
  exists (flat_map (fun r => flat_map (fun i => flat_map (fun w => map (fun e => (w, fst e, m3_scale (1 / 3) (snd e))) (bv true r i (y r))) (tri_verts (tri i))) (nb r)) (filled t)),
    (flat_map (fun r => flat_map (fun i => map (fun v => (v, r, m3_scale (1 / 3) (bq true r i (y r)))) (tri_verts (tri i))) (nb r)) (filled t)).
  assert (EC : combine (hessian_rows t (qs 0)) mults = map (fun r => ((r, (nth r (qs 0) v3_0, nb r)), y r)) (filled t)).
  { unfold hessian_rows. rewrite rows_of_filled by apply LQ. pose proof (for_filled_combine t mults LM) as E. fold y in E. revert E. generalize (filled t) mults. clear. induction l as [|a l IH]; intros [|m ms] E; try discriminate; [reflexivity|reflexivity|]. cbn [combine map] in *. injection E as E1 E2. rewrite E1, (IH _ E2). reflexivity. }
  refine (conj _ (conj _ _)).
  - unfold contact_hessian. fold b. rewrite TY. f_equal. rewrite EC, map_map. cbv beta iota. apply concat_flat. intros r Hr. cbv beta. destruct (HB r Hr) as (_ & EV & _). unfold contact_hessian_at. rewrite EV. cbn [option_map]. f_equal.
    rewrite flat_map_concat_map, flat_map_concat_map, map_map. reflexivity.
  - unfold contact_query_hessian. fold b. rewrite TY. f_equal. rewrite EC, map_map. cbv beta iota. apply concat_flat. intros r Hr. cbv beta. destruct (HB r Hr) as (EQ & _ & _). rewrite EQ.
    apply concat_flat. intros i Hi. cbv beta. assert (ET : nth_error (sb_topo b) i = Some (tri i)) by (apply nth_error_nth'; exact (nb_topo r i Hr Hi)). rewrite ET. reflexivity.
  - intros v. eapply moves_is; [eapply moves_ext; [|apply (moves_vsum (fun s rr => vsum (map (fun i => vsum (map (fun col => if Nat.eqb col v then v3_scale (1 / 3) (m3_mulv (flip true (F s rr i)) (y rr)) else v3_0) (tri_verts (tri i)))) (nb rr)))
      (fun rr => vsum (map (fun i => vsum (map (fun col => if Nat.eqb col v then v3_scale (1 / 3) (v3_add (tm (bq true rr i (y rr)) (dq rr)) (vsum (map (fun e => tm (snd e) (U (fst e))) (bv true rr i (y rr))))) else v3_0) (tri_verts (tri i)))) (nb rr))) (filled t))]|].
    + intros s. unfold transposed_product, L. rewrite vsum_flat. apply vsum_ext. intros rr Hr0. rewrite vsum_flat. apply vsum_ext. intros i Hi. rewrite map_map. apply vsum_ext. intros col Hc. destruct (Nat.eqb col v); [|reflexivity].
      unfold flip. generalize (y rr) (F s rr i). intros [x1 x2 x3] [[a1 a2 a3] [a4 a5 a6] [a7 a8 a9]].
      apply v3_eq; cbv [v3_add v3_scale v3_0 m3_mulv m3_scale m3_transpose v3_dot r0 r1 r2 vx vy vz]; ring.
    + intros rr Hr0. apply (moves_vsum (fun s i => vsum (map (fun col => if Nat.eqb col v then v3_scale (1 / 3) (m3_mulv (flip true (F s rr i)) (y rr)) else v3_0) (tri_verts (tri i))))). intros i Hi.
      apply (moves_vsum (fun s col => if Nat.eqb col v then v3_scale (1 / 3) (m3_mulv (flip true (F s rr i)) (y rr)) else v3_0)). intros col _. apply moves_if. apply moves_scale. destruct (HB rr Hr0) as (_ & _ & _ & M). exact (M true i (y rr) Hi).
    + unfold column_major_product. rewrite !vsum_flat, <- vsum_plus. apply vsum_ext. intros rr Hr0. rewrite !vsum_flat, <- vsum_plus. apply vsum_ext. intros i Hi. rewrite vsum_flat, map_map, <- vsum_plus. apply vsum_ext. intros col Hc. rewrite map_map, vsum_if.
      destruct (Nat.eqb col v); [|symmetry; apply add_00].
      assert (ES : vsum (map (fun e => m3_mulv (m3_transpose (m3_scale (1 / 3) (snd e))) (U (fst e))) (bv true rr i (y rr))) = v3_scale (1 / 3) (vsum (map (fun e => tm (snd e) (U (fst e))) (bv true rr i (y rr))))).
      { rewrite <- vsum_scale. apply vsum_ext. intros e _. apply (tm_scale (1 / 3) (snd e)). }
      rewrite ES.
      change (m3_mulv (m3_transpose (m3_scale (1 / 3) (bq true rr i (y rr)))) (dq rr)) with (tm (m3_scale (1 / 3) (bq true rr i (y rr))) (dq rr)). rewrite tm_scale.
      generalize (tm (bq true rr i (y rr)) (dq rr)) (vsum (map (fun e => tm (snd e) (U (fst e))) (bv true rr i (y rr)))). intros z1 z2. apply v3_eq; unv; ring.
Qed.
End Assembled.
