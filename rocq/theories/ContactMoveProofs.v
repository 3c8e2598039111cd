(** Proofs about the assembled contacts: the vertices of the mesh move, the energy and its second derivative. *)
From Coq Require Import Reals List Bool Lra Lia Psatz Sorting.Sorted.
From Coquelicot Require Import Coquelicot.
From Verif Require Import Vec3 Mat3 RList Calc KernelModel KernelSpec KernelProofs FieldModel FieldSpec FieldProofs FieldDerivProofs FieldProps
  NeighborModel NeighborSpec NeighborProofs UpdateProps SurfJacModel SurfJacSpec SurfJacProofs SurfJacProps HessModel HessSpec HessProofs HessMixProofs HessProps
  SurfHessModel SurfHessSpec JetProofs SurfHessProofs SurfHessCodeProofs SurfHessProps JointHessProofs ContactModel ContactSpec ContactProofs ContactMapSpec ContactMapProofs AssemblyModel ContactAsmModel ContactAsmSpec ContactAsmProofs ContactAsmProps
  ContactHessModel ContactHessSpec ContactHessProofs ContactRowProofs.
From Verif Require MassProofs ElasticModel.
Import ListNotations.
Local Open Scope R_scope.

(** ** Updates *)
Definition same_setup (c c' : contact) : Prop :=
  trivial_neighborhood (ct_topo c') = trivial_neighborhood (ct_topo c) /\ extended_neighborhood (ct_topo c') = extended_neighborhood (ct_topo c) /\
  closest_samples (ct_topo c') = closest_samples (ct_topo c) /\ q_kernel (ct_topo c') = q_kernel (ct_topo c) /\
  sb_type (cbase c') = sb_type (cbase c) /\ sb_topo (cbase c') = sb_topo (cbase c) /\ sb_bg (cbase c') = sb_bg (cbase c) /\ sb_dual (cbase c') = sb_dual (cbase c) /\
  ct_surface c' = ct_surface c /\ ct_collider c' = ct_collider c /\ ct_object_fixed c' = ct_object_fixed c /\ ct_collider_fixed c' = ct_collider_fixed c /\
  ct_offset c' = ct_offset c /\ ct_delta c' = ct_delta c /\ ct_kappa c' = ct_kappa c.
Lemma update_state_some c n Y vs ps rb : contact_shape c n -> subset Y (ct_surface c) = Some vs -> subset Y (ct_collider c) = Some ps ->
  exists c', update_state c Y rb = Some c' /\ cbase c' = fst (update_base (cbase c) vs rb) /\ ct_points c' = ps /\ same_setup c c'.
Proof.
  intros SH EV EP. destruct (subset_spec _ _ _ EV) as [LV _]. destruct (subset_spec _ _ _ EP) as [LP _]. rewrite (LSV c n SH) in LV. rewrite (LCV c n SH) in LP.
  unfold update_state. rewrite EV, EP.
  assert (G : forall t', (let (b', k) := update_base (cbase c) vs rb in True) -> forall count, update_surface (ct_topo c) vs rb = (t', count) -> q_base t' = fst (update_base (cbase c) vs rb) /\ count = Nat.min (length (sb_verts (cbase c))) (length vs) /\
    trivial_neighborhood t' = trivial_neighborhood (ct_topo c) /\ extended_neighborhood t' = extended_neighborhood (ct_topo c) /\ closest_samples t' = closest_samples (ct_topo c) /\ q_kernel t' = q_kernel (ct_topo c)).
  { intros t' _ count E. unfold cbase. destruct (ct_topo c) as [s nb|tol b0 cl si]; cbn [update_surface q_base] in *; unfold update_base in *; injection E as <- <-; cbn [fst q_base lm_base trivial_neighborhood extended_neighborhood closest_samples q_kernel lm_kernel lm_base_radius]; repeat split. }
  destruct (update_surface (ct_topo c) vs rb) as [t' count] eqn:E. destruct (G t' ltac:(destruct (update_base _ _ _); exact Logic.I) count eq_refl) as (EB & EC & E1 & E2 & E3 & E4).
  assert (LB : length (sb_verts (q_base t')) = length (sb_verts (cbase c))) by (rewrite EB, update_verts by exact LV; exact LV).
  rewrite EC, LV, Nat.min_id, LB, LP, !Nat.eqb_refl. cbn [andb]. eexists. split; [reflexivity|]. unfold cbase at 1, same_setup. cbn [ct_topo ct_points ct_surface ct_collider ct_object_fixed ct_collider_fixed ct_offset ct_delta ct_kappa].
  split; [exact EB|]. split; [reflexivity|]. unfold cbase at 1 3 5 7. cbn [ct_topo]. rewrite EB. repeat (split; [assumption || reflexivity|]). reflexivity.
Qed.
Lemma update_shape c n Y vs ps rb c' : contact_shape c n -> subset Y (ct_surface c) = Some vs -> subset Y (ct_collider c) = Some ps ->
  cbase c' = fst (update_base (cbase c) vs rb) -> ct_points c' = ps -> same_setup c c' -> contact_shape c' n /\ in_place (cbase c').
Proof.
  intros SH EV EP EB EQ (T1 & T2 & T3 & T4 & T5 & T6 & T7 & T8 & T9 & T10 & T11 & T12 & T13 & T14 & T15).
  destruct (subset_spec _ _ _ EV) as [LV _]. destruct (subset_spec _ _ _ EP) as [LP _]. rewrite (LSV c n SH) in LV.
  destruct (update_keeps (cbase c) vs rb (WF c n SH) LV) as (W & _ & LS & _). rewrite <- EB in W, LS.
  assert (VV : sb_verts (cbase c') = vs) by (rewrite EB; apply update_verts; exact LV).
  split; [|rewrite EB; apply update_puts_in_place; [exact (WF c n SH)|apply (PM c n SH)]].
  destruct SH as (S1 & S2 & S3 & S4 & S5 & S6 & S7 & S8 & S9 & S10 & S11 & S12 & S13). unfold contact_shape. fold (cbase c'). fold (cbase c) in S1, S2, S3, S9.
  split; [rewrite T5; exact S1|]. split; [exact W|]. split; [unfold proper_mesh; rewrite T6, T5, T8, VV, LV; exact S3|]. split; [rewrite T4; exact S4|].
  split. { unfold indices_ok. fold (cbase c'). rewrite T1, T2, LS. exact S5. }
  split; [rewrite T1; exact S6|]. rewrite T1, T3, T9, T10, EQ, T14, VV. split; [rewrite LP, S10; exact S7|]. split; [exact S8|]. split; [rewrite LV; exact S9|]. split; [symmetry; exact LP|].
  split; [exact S11|]. split; [exact S12|exact S13].
Qed.
(** Where the positions of the mesh put the contact. *)
Definition placed (c : contact) (X : list v3) : Prop := subset X (ct_surface c) = Some (sb_verts (cbase c)) /\ subset X (ct_collider c) = Some (ct_points c).
Lemma update_places c n X rb c' : contact_shape c n -> update_state c X rb = Some c' -> contact_shape c' n /\ placed c' X /\ in_place (cbase c') /\ same_setup c c'.
Proof.
  intros SH E. assert (E0 := E). unfold update_state in E0. destruct (subset X (ct_surface c)) as [vs|] eqn:EV; [|discriminate]. destruct (subset X (ct_collider c)) as [ps|] eqn:EP; [|discriminate]. clear E0.
  destruct (update_state_some c n X vs ps rb SH EV EP) as (c'' & E' & EB & EQ & SS). rewrite E in E'. injection E' as <-.
  destruct (update_shape c n X vs ps rb c' SH EV EP EB EQ SS) as [SH' IP]. split; [exact SH'|]. split; [|split; [exact IP|exact SS]].
  assert (SS' := SS). destruct SS' as (_ & _ & _ & _ & _ & _ & _ & _ & T9 & T10 & _). unfold placed. rewrite T9, T10, EV, EP, EQ, EB. split; [|reflexivity]. f_equal. symmetry. apply update_verts. destruct (subset_spec _ _ _ EV) as [LV _]. rewrite LV. exact (LSV c n SH).
Qed.

(** ** Motions *)
Lemma pick_by {A} (k : A -> nat) (F : A -> R) a : forall l, NoDup (map k l) -> In a l -> rsum (map (fun x => if Nat.eqb (k x) (k a) then F x else 0) l) = F a.
Proof.
  induction l as [|x l IH]; intros ND I; [destruct I|]. cbn [map] in *. inversion ND as [|? ? N ND']; subst. rewrite rsum_cons. destruct I as [->|I].
  - rewrite Nat.eqb_refl, rsum_zero; [ring|]. intros y Hy. destruct (Nat.eqb_spec (k y) (k a)) as [E|]; [|reflexivity]. destruct N. rewrite <- E. apply in_map, Hy.
  - rewrite (IH ND' I). destruct (Nat.eqb_spec (k x) (k a)) as [E|]; [|ring]. destruct N. rewrite E. apply in_map, I.
Qed.
Section Moving.
Variable c : contact.
Variable n : nat.
Variable X : list v3.
Hypothesis SH : contact_shape c n.
Hypothesis PL : in_place (cbase c).
Hypothesis AT : placed c X.
Hypothesis RG : contact_regular c.
Variable U : nat -> v3.
Definition mobj (v : nat) : v3 := U (sv c v).
Definition mcol (i : nat) : v3 := U (cv c i).
Definition obj2 (p : crow) : R := form full_square mobj (hface c 1 p).
Definition mix2 (p : crow) : R := rsum (map (fun e => bil (snd e) (mcol (fst p)) (mobj (fst e))) (hmix c p)).
Definition rate1 (p : crow) : R := v3_dot (jcol c p) (mcol (fst p)) + rsum (map (fun e => v3_dot (snd e) (mobj (fst e))) (jobj c p)).
Definition rate2 (p : crow) : R := obj2 p + 2 * mix2 p + bil (hq c p) (mcol (fst p)) (mcol (fst p)).
Definition pot_line (rb : bool) (p : crow) (s : R) : R :=
  potential_at (v3_line (fst (snd p)) (mcol (fst p)) s) (sb_samples (moved (cbase c) mobj rb s)) (snd (snd p)) (q_kernel (ct_topo c)) (sb_bg (cbase c)) 0 - ct_offset c.
Lemma row_jets rb p : In p (crows c) -> jet (pot_line rb p) (dpot c p) (rate1 p) (rate2 p) /\ forall sq m, square_rule sq -> form sq mobj (hface c m p) = m * obj2 p.
Proof.
  intros I. destruct (row_in c p I) as (LT & EQ & EN & NE). assert (LN : nth (fst p) (trivial_neighborhood (ct_topo c)) [] = snd (snd p)) by (apply nth_error_nth; exact EN).
  assert (LQ : nth (fst p) (ct_points c) v3_0 = fst (snd p)) by (apply nth_error_nth; exact EQ).
  destruct (RG (fst p) LT) as (cl & NR & RV & SB & QB); [rewrite LN; exact NE|]. rewrite LN, LQ in *.
  destruct (joint_row_jet (ct_topo c) (fst (snd p)) (mcol (fst p)) (snd (snd p)) cl mobj rb (TY c n SH) (WF c n SH) (PM c n SH) PL (VK c n SH) (row_nodup c n SH p I) (fun i => row_nbrs c n SH p i I) NR RV SB QB) as (H & row & J & blocks & C & EH & ER & _ & EJ & EB & EF & JT).
  pose proof (hq_some c p I) as A1. unfold csamples, cbase in A1. rewrite EH in A1. injection A1 as A1.
  pose proof (hmix_some c n SH p I) as A2. rewrite ER in A2. injection A2 as A2.
  pose proof (jcol_some c p I) as A3. unfold csamples, cbase in A3. rewrite EJ in A3. injection A3 as A3.
  assert (CE : C = obj2 p). { unfold obj2. pose proof (EF full_square 1 (hface c 1 p) full_rule (hface_some c n SH p 1 I)) as Q. rewrite Q. ring. }
  split.
  - unfold pot_line, dpot. eapply jet_eq; [apply jet_minus; [exact JT|apply jet_const]|reflexivity| |].
    + unfold rate1. rewrite <- A3. unfold jobj. rewrite EB. cbn [opt_list]. unfold paired. fold (cbase c). ring.
    + unfold rate2, mix2. rewrite <- A1, <- A2, <- CE. ring.
  - intros sq m Q. rewrite <- CE. apply EF; [exact Q|]. apply (hface_some c n SH p m I).
Qed.
Lemma energy_rows rb s : energy_at c rb (mesh_line X U s) = rsum (map (fun p => ct_kappa c * penalty_b (ct_delta c) (pot_line rb p s)) (crows c)).
Proof.
  destruct AT as [A1 A2]. pose proof (subset_line X _ _ U s A1) as EV. pose proof (subset_line X _ _ U s A2) as EP.
  destruct (update_state_some c n _ _ _ rb SH EV EP) as (c' & E & EB & EQ & SS). destruct (update_shape _ _ _ _ _ _ _ SH EV EP EB EQ SS) as [SH' _].
  unfold energy_at. rewrite E. unfold contact_constraint. rewrite (distances c' n SH'). cbn [option_map]. unfold contact_energy. rewrite map_map.
  destruct SS as (T1 & _ & _ & T4 & _ & _ & T7 & _ & _ & _ & _ & _ & T13 & T14 & T15).
  assert (ER : crows c' = map (line_row mcol s) (crows c)). { unfold crows, hessian_rows. rewrite T1, EQ. apply rows_line. }
  rewrite ER, map_map. apply rsum_ext. intros [i [q l]] _. unfold dpot, pot_line, csamples. rewrite T4, T7, T13, T14, T15, EB. reflexivity.
Qed.
Lemma energy_jet rb : jet (fun s => energy_at c rb (mesh_line X U s)) (rsum (map (fun p => ct_kappa c * penalty_b (ct_delta c) (dpot c p)) (crows c)))
  (rsum (map (fun p => ct_kappa c * penalty_db (ct_delta c) (dpot c p) * rate1 p) (crows c)))
  (rsum (map (fun p => ct_kappa c * (penalty_ddb (ct_delta c) (dpot c p) * rate1 p * rate1 p + penalty_db (ct_delta c) (dpot c p) * rate2 p)) (crows c))).
Proof.
  apply (jet_ext (fun s => rsum (map (fun p => ct_kappa c * penalty_b (ct_delta c) (pot_line rb p s)) (crows c)))); [intros s; symmetry; apply energy_rows|].
  apply (jet_rsum (fun p s => ct_kappa c * penalty_b (ct_delta c) (pot_line rb p s))). intros p I. destruct (row_jets rb p I) as [J _]. assert (D : 0 < ct_delta c) by apply SH.
  eapply jet_eq; [apply jet_scal, (jet_comp (penalty_b (ct_delta c)) (penalty_db (ct_delta c)) (penalty_ddb (ct_delta c) (dpot c p)) _ _ _ _ J)|reflexivity|ring|ring].
  - apply filter_forall. intros x. apply penalty_derive, D.
  - apply penalty_derive, D.
Qed.
(** Rows of the Jacobian. *)
Hypothesis RE : respects c U.
Lemma still_object : ct_object_fixed c = true -> forall v, (v < length (sb_verts (cbase c)))%nat -> mobj v = v3_0.
Proof. intros F v L. apply (proj1 RE F). apply (in_surface c n SH v L). Qed.
Lemma still_collider : ct_collider_fixed c = true -> forall p, In p (crows c) -> mcol (fst p) = v3_0.
Proof. intros F p I. apply (proj2 RE F). apply (in_collider c n SH p I). Qed.
Lemma dot_0_r a : v3_dot a v3_0 = 0.
Proof. destruct a as [a0 a1 a2]. unfold v3_dot, v3_0. cbn [vx vy vz]. ring. Qed.
Lemma numbers_nodup : NoDup (map (fun p : crow => cnum c (fst p)) (crows c)).
Proof. rewrite (row_numbers c n SH). apply seq_NoDup. Qed.
Lemma jacobian_rate p : In p (crows c) -> row_product (jacobian_rows c) U (cnum c (fst p)) = rate1 p.
Proof.
  intros I. unfold row_product, jacobian_rows. rewrite map_app, rsum_app. unfold rate1. rewrite Rplus_comm. f_equal.
  - destruct (ct_collider_fixed c) eqn:F; [cbn [map]; rewrite (still_collider F p I), dot_0_r; apply rsum_nil|]. unfold collider_rows. rewrite map_map.
    apply (pick_by (fun p : crow => cnum c (fst p)) (fun p => v3_dot (jcol c p) (mcol (fst p))) p (crows c) numbers_nodup I).
  - destruct (ct_object_fixed c) eqn:F; [cbn [map]; rewrite rsum_nil; symmetry; apply rsum_zero; intros e He; rewrite (still_object F (fst e) (jobj_below c n SH p e I He)); apply dot_0_r|].
    unfold object_rows. rewrite MassProofs.rsum_flat_map.
    rewrite (rsum_ext _ (fun p' : crow => if Nat.eqb (cnum c (fst p')) (cnum c (fst p)) then rsum (map (fun e => v3_dot (snd e) (mobj (fst e))) (jobj c p')) else 0)).
    + apply (pick_by (fun p : crow => cnum c (fst p)) (fun p => rsum (map (fun e => v3_dot (snd e) (mobj (fst e))) (jobj c p))) p (crows c) numbers_nodup I).
    + intros p' _. rewrite map_map. destruct (Nat.eqb _ _) eqn:E; [reflexivity|]. apply rsum_zero. reflexivity.
Qed.
(** Blocks of the second derivative. *)
Section Blocks.
Variable lam : crow -> R.
Hypothesis DJ : forall v, In v (ct_surface c) -> ~ In v (ct_collider c).
Lemma object_form sq : square_rule sq -> form sq U (object_blocks c lam) = rsum (map (fun p => lam p * obj2 p) (crows c)).
Proof.
  intros Q. unfold form, object_blocks. rewrite MassProofs.rsum_flat_map. apply rsum_ext. intros p I. rewrite <- (proj2 (row_jets true p I) sq (lam p) Q). unfold form. rewrite map_map. apply rsum_ext.
  intros [[i j] A] Hh. pose proof (hface_below c n SH p _ _ I Hh) as B. unfold below in B. cbn [fst snd] in B. cbn [fst snd bform]. destruct (Nat.eqb_spec i j) as [->|N]; [rewrite Nat.eqb_refl; reflexivity|].
  destruct (Nat.eqb_spec (sv c i) (sv c j)) as [E|_]; [|reflexivity]. destruct N. apply (surface_injective c n SH); [lia|lia|exact E].
Qed.
Lemma mixed_apart p e : In p (crows c) -> In e (hmix c p) -> cv c (fst p) <> sv c (fst e).
Proof. intros I He E. apply (DJ (sv c (fst e))); [apply (in_surface c n SH), (hmix_below c n SH p e I He)|]. rewrite <- E. apply (in_collider c n SH p I). Qed.
Lemma mixed_form sq : form sq U (mixed_blocks c lam) = rsum (map (fun p => lam p * (2 * mix2 p)) (crows c)).
Proof.
  unfold form, mixed_blocks. rewrite MassProofs.rsum_flat_map. apply rsum_ext. intros p I. unfold mix2. rewrite <- !rsum_scale, map_map. apply rsum_ext. intros e He. cbn [bform].
  destruct (Nat.eqb_spec (cv c (fst p)) (sv c (fst e))) as [E|_]; [destruct (mixed_apart p e I He E)|]. rewrite bil_scale. unfold mcol, mobj. ring.
Qed.
Lemma collider_form : gbil U U (collider_blocks c lam) = rsum (map (fun p => lam p * bil (hq c p) (mcol (fst p)) (mcol (fst p))) (crows c)).
Proof. unfold gbil, collider_blocks. rewrite map_map. apply rsum_ext. intros p _. apply bil_scale. Qed.
Definition object_part : list (nat * nat * m3) := if ct_object_fixed c then [] else object_blocks c lam.
Definition mixed_part : list (nat * nat * m3) := if ct_object_fixed c then [] else mixed_blocks c lam.
Definition collider_part : list (nat * nat * m3) := if ct_collider_fixed c then [] else collider_blocks c lam.
Lemma bil_0_l A u : bil A v3_0 u = 0.
Proof. destruct A as [[a0 a1 a2] [a3 a4 a5] [a6 a7 a8]], u as [u0 u1 u2]. unfold bil, m3_mulv, v3_dot, v3_0. cbn [r0 r1 r2 vx vy vz]. ring. Qed.
Lemma object_still p : In p (crows c) -> ct_object_fixed c = true -> obj2 p = 0 /\ mix2 p = 0.
Proof.
  intros I F. split.
  - unfold obj2, form. apply rsum_zero. intros [[i j] A] Hh. pose proof (hface_below c n SH p _ _ I Hh) as B. unfold below in B. cbn [fst snd] in B. cbn [bform]. rewrite (still_object F i), (still_object F j) by lia. unfold full_square. rewrite bil_0_l. destruct (Nat.eqb i j); ring.
  - unfold mix2. apply rsum_zero. intros e He. rewrite (still_object F _ (hmix_below c n SH p e I He)). apply bil_0_r.
Qed.
Lemma parts_form : gbil U U (flat_map mirrored (object_part ++ mixed_part) ++ collider_part) = rsum (map (fun p => lam p * rate2 p) (crows c)).
Proof.
  rewrite gbil_app, gbil_mirrored, form_app. unfold rate2.
  rewrite (rsum_ext (fun p => lam p * (obj2 p + 2 * mix2 p + bil (hq c p) (mcol (fst p)) (mcol (fst p)))) (fun p => (lam p * obj2 p + lam p * (2 * mix2 p)) + lam p * bil (hq c p) (mcol (fst p)) (mcol (fst p)))) by (intros; ring).
  rewrite !rsum_plus. f_equal; [|unfold collider_part; destruct (ct_collider_fixed c) eqn:F; [|apply collider_form]].
  - unfold object_part, mixed_part. destruct (ct_object_fixed c) eqn:F; [|rewrite (object_form _ full_rule), mixed_form; reflexivity]. rewrite form_nil, !rsum_zero; [ring| |]; intros p I; destruct (object_still p I F) as [E1 E2]; cbv beta; rewrite ?E1, ?E2; ring.
  - rewrite gbil_nil. symmetry. apply rsum_zero. intros p I. rewrite (still_collider F p I), bil_0_l. ring.
Qed.
End Blocks.
End Moving.

(** ** Symmetry *)
Lemma parts_symmetric c n lam U W : contact_shape c n -> in_place (cbase c) -> contact_regular c -> (forall v, In v (ct_surface c) -> ~ In v (ct_collider c)) ->
  let L := flat_map mirrored (object_part c lam ++ mixed_part c lam) ++ collider_part c lam in gbil U W L = gbil W U L.
Proof.
  intros SH PL RG DJ L. unfold L. rewrite !gbil_app. f_equal.
  - apply Rminus_diag_uniq. rewrite mirrored_symmetric, map_app, rsum_app.
    assert (A : rsum (map (fun h : nat * nat * m3 => let '(r, k, A) := h in if Nat.eqb r k then skew A (U r) (W r) else 0) (object_part c lam)) = 0).
    { unfold object_part. destruct (ct_object_fixed c); [apply rsum_nil|]. apply (skew_total U W n).
      - intros Z. rewrite (object_form c n SH PL RG Z lam _ full_rule), (object_form c n SH PL RG Z lam _ low_rule). reflexivity.
      - intros h Hh. apply in_flat_map in Hh. destruct Hh as (p & Hp & Hh). apply in_map_iff in Hh. destruct Hh as (h' & <- & Hh). cbn [fst snd]. apply (vertex_range c n SH). left. apply (in_surface c n SH). apply (hface_below c n SH p _ _ Hp Hh). }
    assert (B : rsum (map (fun h : nat * nat * m3 => let '(r, k, A) := h in if Nat.eqb r k then skew A (U r) (W r) else 0) (mixed_part c lam)) = 0).
    { unfold mixed_part. destruct (ct_object_fixed c); [apply rsum_nil|]. apply rsum_zero. intros h Hh. apply in_flat_map in Hh. destruct Hh as (p & Hp & Hh). apply in_map_iff in Hh. destruct Hh as (e & <- & He).
      destruct (Nat.eqb_spec (cv c (fst p)) (sv c (fst e))) as [E|_]; [|reflexivity]. destruct (mixed_apart c n SH DJ p e Hp He E). }
    rewrite A, B. ring.
  - unfold collider_part. destruct (ct_collider_fixed c); [reflexivity|]. unfold gbil, collider_blocks. rewrite !map_map. apply rsum_ext. intros p Hp. rewrite !bil_scale. f_equal. apply (sf_query _ _ _ _ _ _ (hq_some c p Hp)).
Qed.

(** ** Indices *)
Lemma jacobian_indices c n : contact_shape c n -> in_place (cbase c) -> exists I, surface_jacobian_block_indices (ct_topo c) = Some I /\
  map fst (jacobian_rows c) = (if ct_object_fixed c then [] else map (fun ij => (cnum c (fst ij), sv c (snd ij))) I)
    ++ (if ct_collider_fixed c then [] else map (fun p => (cnum c (fst p), cv c (fst p))) (nonempty (trivial_neighborhood (ct_topo c)))).
Proof.
  intros SH PL. assert (IK : indices_ok (ct_topo c)) by apply SH. destruct (surface_jacobian_matches_indices (ct_topo c) (ct_points c) (WF c n SH) (PM c n SH) PL IK (LPN c n SH)) as (I & B & E1 & _ & LB & E3).
  exists I. split; [exact E1|]. rewrite (triplets_rows c n SH) in E3. injection E3 as E3. unfold jacobian_rows. rewrite map_app. f_equal.
  - destruct (ct_object_fixed c); [reflexivity|]. assert (EI : I = map fst (flat_map (fun p => map (fun e => (fst p, fst e, snd e)) (jobj c p)) (crows c))).
    { rewrite E3. symmetry. clear -LB. revert B LB. induction I as [|x I IH]; intros [|y B] LB; try discriminate; [reflexivity|]. cbn [combine map fst]. f_equal. apply IH. cbn in LB. lia. }
    rewrite EI. unfold object_rows. rewrite !flat_map_map. apply flat_map_ext. intros p. rewrite !map_map. reflexivity.
  - destruct (ct_collider_fixed c); [reflexivity|]. unfold collider_rows. rewrite map_map. rewrite <- (rows_nonempty (ct_points c) _ (LPN c n SH)), map_map. reflexivity.
Qed.
Lemma same_jacobian_indices c c' n : contact_shape c n -> in_place (cbase c) -> contact_shape c' n -> in_place (cbase c') -> same_setup c c' -> map fst (jacobian_rows c') = map fst (jacobian_rows c).
Proof.
  intros SH PL SH' PL' SS. destruct (jacobian_indices c n SH PL) as (I & E & F). destruct (jacobian_indices c' n SH' PL') as (I' & E' & F'). rewrite F, F'.
  destruct SS as (T1 & T2 & _ & _ & T5 & T6 & _ & _ & T9 & T10 & T11 & T12 & _). fold (cbase c) in *. unfold cbase in T5, T6.
  assert (BT : by_type (ct_topo c') = by_type (ct_topo c)) by (unfold by_type; rewrite T1, T2, T5; reflexivity).
  assert (EI : I' = I). { unfold surface_jacobian_block_indices in E, E'. rewrite BT in E'. assert (EC : columns (q_base (ct_topo c')) = columns (q_base (ct_topo c))) by (unfold columns; rewrite T5, T6; reflexivity). rewrite EC, E in E'. injection E' as <-. reflexivity. }
  unfold cnum, sv, cv, neighborhood_numbers, neighborhood_sizes. rewrite BT, T1, T9, T10, T11, T12, EI. reflexivity.
Qed.
Lemma same_hessian_indices c c' : same_setup c c' -> object_hessian_indices c' = object_hessian_indices c /\ object_collider_hessian_indices c' = object_collider_hessian_indices c /\ collider_hessian_indices c' = collider_hessian_indices c.
Proof.
  intros (T1 & T2 & _ & _ & T5 & T6 & T7 & _ & T9 & T10 & T11 & T12 & _). unfold cbase in T5, T6, T7. unfold object_hessian_indices, object_collider_hessian_indices, collider_hessian_indices, surface_hessian_block_indices, sample_query_hessian_indices, query_hessian_block_indices.
  rewrite T1, T5, T6, T7, T9, T10, T11, T12. repeat split.
Qed.
Lemma product_indices g f m : map fst (gradient_product g f m) = gradient_product_indices g m.
Proof.
  unfold gradient_product, gradient_product_indices. rewrite flat_map_map. apply flat_map_ext. intros r. rewrite flat_map_map. apply flat_map_ext. intros k. rewrite map_map. apply map_ext. intros [j [x y]]. reflexivity.
Qed.
Lemma common_count {B} (x : B) l r l' r' : map fst l = map fst l' -> map fst r = map fst r' -> map (fun _ => x) (common_columns l r) = map (fun _ => x) (common_columns l' r').
Proof.
  intros EL ER. assert (G : forall l r, map (fun _ : nat * (v3 * v3) => x) (common_columns l r) = flat_map (fun a => map (fun _ => x) (filter (Nat.eqb a) (map fst r))) (map fst l)).
  { clear. intros l r. unfold common_columns. rewrite flat_map_map. induction l as [|[a u] l IH]; [reflexivity|]. cbn [flat_map map fst]. f_equal; [|exact IH]. rewrite map_map. clear. induction r as [|[k w] r IH]; [reflexivity|]. cbn [filter map fst]. destruct (Nat.eqb a k); cbn [map]; rewrite IH; reflexivity. }
  rewrite !G, EL, ER. reflexivity.
Qed.
Lemma entries_pattern g row : length (mp_blocks g) = length (mp_pattern g) -> map fst (row_entries g row) = map snd (filter (fun p => Nat.eqb (fst p) row) (mp_pattern g)).
Proof.
  unfold row_entries. rewrite map_map. cbn [fst]. destruct g as [P B M]. cbn [mp_pattern mp_blocks]. clear M. revert B. induction P as [|[r k] P IH]; intros [|x B] L; try discriminate; [reflexivity|]. cbn [combine filter fst]. destruct (Nat.eqb r row); cbn [map fst snd]; rewrite (IH B) by (cbn in L; lia); reflexivity.
Qed.
Lemma same_product_indices g g' m : mp_pattern g' = mp_pattern g -> length (mp_blocks g) = length (mp_pattern g) -> length (mp_blocks g') = length (mp_pattern g') -> gradient_product_indices g' m = gradient_product_indices g m.
Proof.
  intros EP L L'. unfold gradient_product_indices, stored_rows. rewrite EP. apply flat_map_ext. intros r. apply flat_map_ext. intros k. apply common_count; rewrite !entries_pattern by assumption; rewrite EP; reflexivity.
Qed.
Lemma positions_entries h : map fst (scalar_entries h) = scalar_positions (fst h).
Proof. destruct h as [[r k] A]. reflexivity. Qed.
Lemma mirrored_index h : map fst (mirrored h) = mirrored_indices (fst h).
Proof. destruct h as [[r k] A]. cbn [mirrored mirrored_indices fst map]. destruct (Nat.eqb r k); reflexivity. Qed.
Lemma map_filter_fst {A} (q : nat * nat -> bool) (L : list (nat * nat * A)) : map fst (filter (fun h => q (fst h)) L) = filter q (map fst L).
Proof. induction L as [|h L IH]; [reflexivity|]. cbn [filter map]. destruct (q (fst h)); cbn [map]; rewrite IH; reflexivity. Qed.
Lemma flat_map_fst {A B} (f : nat * nat * A -> list B) (g : nat * nat -> list B) L : (forall h, f h = g (fst h)) -> flat_map f L = flat_map g (map fst L).
Proof. intros H. induction L as [|h L IH]; [reflexivity|]. cbn [flat_map map]. rewrite H, IH. reflexivity. Qed.
