(** Proofs that the force of a contact changes by its second derivatives: mixed second derivatives of the energy of a contact. *)
From Coq Require Import Reals List Bool Lra Lia Psatz Sorting.Sorted FunctionalExtensionality.
From Coquelicot Require Import Coquelicot.
From Verif Require Import Vec3 Mat3 RList Calc KernelModel KernelSpec KernelProofs FieldModel FieldSpec FieldProofs FieldDerivProofs FieldProps
  NeighborModel NeighborSpec NeighborProofs UpdateProps SurfJacModel SurfJacSpec SurfJacProofs SurfJacProps HessModel HessSpec HessProofs HessMixProofs HessProps
  SurfHessModel SurfHessSpec JetProofs SurfHessProofs SurfHessCodeProofs SurfHessProps JointHessProofs ContactModel ContactSpec ContactProofs ContactMapSpec ContactMapProofs AssemblyModel ContactAsmModel ContactAsmSpec ContactAsmProofs ContactAsmProps
  ContactHessModel ContactHessSpec ContactHessProofs ContactRowProofs ContactMoveProofs MixedProofs.
From Verif Require ProblemContactProofs.
Import ListNotations.
Local Open Scope R_scope.
Local Notation contact_power := ProblemContactProofs.contact_power.
Local Notation contact_curve := ProblemContactProofs.contact_curve.

Lemma mesh_twice V (A B : disp) s t : mesh_line (mesh_line V A s) B t = mesh_line V (blend s A t B) 1.
Proof.
  apply (nth_ext _ _ v3_0 v3_0); [rewrite !mesh_length; reflexivity|]. intros i L. rewrite !mesh_length in L. change (pt (mesh_line (mesh_line V A s) B t) i = pt (mesh_line V (blend s A t B) 1) i).
  rewrite !mesh_pt by (rewrite ?mesh_length; exact L). unfold blend. apply v3_eq; unfold v3_line; unv; ring.
Qed.
Lemma mesh_rest V : mesh_line V rest 1 = V.
Proof.
  apply (nth_ext _ _ v3_0 v3_0); [rewrite !mesh_length; reflexivity|]. intros i L. rewrite !mesh_length in L. change (pt (mesh_line V rest 1) i = pt V i).
  rewrite !mesh_pt by exact L. unfold rest. apply v3_eq; unfold v3_line; unv; ring.
Qed.
Lemma same_view S S' q view k P v c : (forall i, In i view -> s_pos (smp S' i) = s_pos (smp S i) /\ s_nml (smp S' i) = s_nml (smp S i)) ->
  nearest S q view c /\ regular_view k S q view /\ smooth_background k P v S q c -> nearest S' q view c /\ regular_view k S' q view /\ smooth_background k P v S' q c.
Proof.
  intros E ((IC & NE) & RV & SB). assert (EA : forall i, In i view -> away S' q i = away S q i) by (intros i Hi; unfold away; rewrite (proj1 (E i Hi)); reflexivity).
  split; [|split].
  - split; [exact IC|]. intros j J N. rewrite !EA by assumption. apply NE; assumption.
  - intros i Hi. rewrite (EA i Hi), (proj2 (E i Hi)). apply (RV i Hi).
  - destruct SB as (A & B & C). split; [|split; assumption]. intros T. rewrite (EA c IC), (proj2 (E c IC)). exact (A T).
Qed.
(** Along one direction mixed derivatives are second derivatives. *)
Lemma crossed_diagonal F U bs bt d a b c : crossed (fun s t => F (blend s U t U)) bs bt d -> jet (fun s => F (fun i => v3_scale s (U i))) a b c -> d = c.
Proof.
  intros (_ & g & G & _ & DG) (_ & g' & G' & _ & DG'). assert (E : locally 0 (fun s => g' s = g s)).
  { eapply filter_imp; [|exact (filter_and _ _ G G')]. intros s [H1 H2].
    assert (H3 : is_derive (fun t => F (blend s U t U)) 0 (g' s)).
    { apply (is_derive_ext (fun t => F (fun i => v3_scale (s + t) (U i)))).
      - intros t. f_equal. apply functional_extensionality. intros i. unfold blend. apply v3_eq; unv; ring.
      - assert (D1 : is_derive (fun t : R => s + t) 0 1) by (auto_derive; [exact Logic.I|reflexivity]).
        evar_last; [apply (is_derive_comp (fun x => F (fun i => v3_scale x (U i))) (fun t => s + t)); [rewrite Rplus_0_r; exact H2|exact D1]|]. cbv [scal mult]; cbn. cbv [mult]; cbn. ring. }
    exact (eq_trans (eq_sym (is_derive_unique _ _ _ H3)) (is_derive_unique _ _ _ H1)). }
  pose proof (is_derive_ext_loc _ _ _ _ E DG') as D. exact (eq_trans (eq_sym (is_derive_unique _ _ _ DG)) (is_derive_unique _ _ _ D)).
Qed.

Section Contact.
Variables (c : contact) (n : nat) (X : list v3).
Hypothesis SH : contact_shape c n.
Hypothesis PL : in_place (cbase c).
Hypothesis AT : placed c X.
Hypothesis RG : contact_regular c.
Let DC : forall t, In t (sb_topo (cbase c)) -> distinct_corners t := proj1 (PM c n SH).
Definition samples_at (rb : bool) (D : disp) : list sample := keep (csamples c) (sb_samples (moved (cbase c) (mobj c D) rb 1)).
Lemma samples_values rb D i : (i < length (csamples c))%nat -> let V := mesh_line (sb_verts (cbase c)) (mobj c D) 1 in let t := nth i (sb_topo (cbase c)) (0, 0, 0)%nat in
  s_pos (smp (samples_at rb D) i) = tri_centroid V t /\ s_nml (smp (samples_at rb D) i) = area_vector V t /\ s_value (smp (samples_at rb D) i) = s_value (smp (csamples c) i).
Proof.
  intros L. cbv zeta. unfold samples_at. rewrite keep_smp by (try exact L; apply moved_length). cbn [s_pos s_nml s_value]. destruct (moved_sample (cbase c) (mobj c D) rb 1 i (WF c n SH) DC L) as [A M]. rewrite (TY c n SH) in M. destruct M as [M1 M2]. rewrite M1, M2.
  split; [reflexivity|]. split; [reflexivity|exact A].
Qed.
Lemma samples_rest rb : samples_at rb rest = csamples c.
Proof.
  destruct (moving_mesh (cbase c) (mobj c rest) rb [] (WF c n SH) DC PL ltac:(intros i [])) as (E0 & _). cbv zeta in E0. unfold samples_at. rewrite <- E0 at 2. unfold csamples, moved. rewrite mesh_0. change (mobj c rest) with rest. rewrite mesh_rest. reflexivity.
Qed.
Lemma samples_mixed rb i : (i < length (csamples c))%nat -> vmixed (fun D => s_pos (smp (samples_at rb D) i)) /\ vmixed (fun D => s_nml (smp (samples_at rb D) i)) /\ forall D, s_value (smp (samples_at rb D) i) = s_value (smp (csamples c) i).
Proof.
  intros L. refine (conj _ (conj _ _)); [| |intros D; apply (samples_values rb D i L)].
  - apply (vmixed_ext (fun D => tri_centroid (mesh_line (sb_verts (cbase c)) (mobj c D) 1) (nth i (sb_topo (cbase c)) (0, 0, 0)%nat))); [intros D; symmetry; apply (samples_values rb D i L)|].
    assert (RGE : forall w, In w (tri_verts (nth i (sb_topo (cbase c)) (0, 0, 0)%nat)) -> (w < length (sb_verts (cbase c)))%nat).
    { intros w. pose proof (WF c n SH) as [W1 W2]. apply W1, nth_In. rewrite (TY c n SH) in W2. rewrite <- W2. exact L. }
    destruct (nth i (sb_topo (cbase c)) (0, 0, 0)%nat) as [[x y] z]. assert (x < length (sb_verts (cbase c)) /\ y < length (sb_verts (cbase c)) /\ z < length (sb_verts (cbase c)))%nat as (LA & LB & LC) by (repeat split; apply RGE; cbn; tauto).
    apply (vmixed_ext (fun D => v3_scale (1 / 3) (v3_add (v3_add (v3_line (pt (sb_verts (cbase c)) x) (D (sv c x)) 1) (v3_line (pt (sb_verts (cbase c)) y) (D (sv c y)) 1)) (v3_line (pt (sb_verts (cbase c)) z) (D (sv c z)) 1)))).
    { intros D. unfold tri_centroid, centroid. rewrite !mesh_pt by assumption. reflexivity. }
    apply vmixed_scale, vmixed_add; [apply vmixed_add|]; apply vmixed_moves.
  - apply (vmixed_ext (fun D => area_vector (mesh_line (sb_verts (cbase c)) (mobj c D) 1) (nth i (sb_topo (cbase c)) (0, 0, 0)%nat))); [intros D; symmetry; apply (samples_values rb D i L)|].
    assert (RGE : forall w, In w (tri_verts (nth i (sb_topo (cbase c)) (0, 0, 0)%nat)) -> (w < length (sb_verts (cbase c)))%nat).
    { intros w. pose proof (WF c n SH) as [W1 W2]. apply W1, nth_In. rewrite (TY c n SH) in W2. rewrite <- W2. exact L. }
    destruct (nth i (sb_topo (cbase c)) (0, 0, 0)%nat) as [[x y] z]. assert (x < length (sb_verts (cbase c)) /\ y < length (sb_verts (cbase c)) /\ z < length (sb_verts (cbase c)))%nat as (LA & LB & LC) by (repeat split; apply RGE; cbn; tauto).
    apply (vmixed_ext (fun D => v3_cross (v3_sub (v3_line (pt (sb_verts (cbase c)) y) (D (sv c y)) 1) (v3_line (pt (sb_verts (cbase c)) x) (D (sv c x)) 1)) (v3_sub (v3_line (pt (sb_verts (cbase c)) z) (D (sv c z)) 1) (v3_line (pt (sb_verts (cbase c)) x) (D (sv c x)) 1)))).
    { intros D. unfold area_vector. rewrite !mesh_pt by assumption. reflexivity. }
    apply vmixed_cross; apply vmixed_sub; apply vmixed_moves.
Qed.
Definition point_at (p : crow) (D : disp) : v3 := v3_line (fst (snd p)) (mcol c D (fst p)) 1.
Lemma point_rest p : point_at p rest = fst (snd p).
Proof. unfold point_at, mcol, rest. apply v3_eq; unfold v3_line; unv; ring. Qed.
Lemma row_regular p : In p (crows c) -> exists cl, nearest (csamples c) (fst (snd p)) (snd (snd p)) cl /\ regular_view (q_kernel (ct_topo c)) (csamples c) (fst (snd p)) (snd (snd p)) /\
  smooth_background (q_kernel (ct_topo c)) (sb_bg (cbase c)) 0 (csamples c) (fst (snd p)) cl /\ quiet_background (q_kernel (ct_topo c)) (sb_bg (cbase c)) (csamples c) (fst (snd p)) cl.
Proof.
  intros I. destruct (row_in c p I) as (LT & EQ & EN & NE). assert (LN : nth (fst p) (trivial_neighborhood (ct_topo c)) [] = snd (snd p)) by (apply nth_error_nth; exact EN).
  assert (LQ : nth (fst p) (ct_points c) v3_0 = fst (snd p)) by (apply nth_error_nth; exact EQ).
  destruct (RG (fst p) LT) as (cl & NR & RV & SB & QB); [rewrite LN; exact NE|]. rewrite LN, LQ in *. exists cl. unfold csamples, cbase. repeat (split; [assumption|]). assumption.
Qed.
Lemma row_mixed rb p : In p (crows c) -> mixed (fun D => pot_line c D rb p 1).
Proof.
  intros I. destruct (row_regular p I) as (cl & NR & RV & SB & QB). unfold pot_line. apply mixed_minus; [|apply mixed_const].
  apply (mixed_ext (fun D => potential_at (point_at p D) (samples_at rb D) (snd (snd p)) (q_kernel (ct_topo c)) (sb_bg (cbase c)) 0)).
  { intros D. unfold point_at. symmetry. apply (moving_mesh (cbase c) (mobj c D) rb (snd (snd p)) (WF c n SH) DC PL (fun i => row_nbrs c n SH p i I)). }
  apply (mixed_potential _ _ _ _ cl (point_at p) (samples_at rb) (fun i => s_value (smp (csamples c) i)) (VK c n SH)).
  - unfold point_at, mcol. apply vmixed_moves.
  - intros i Hi. apply samples_mixed. exact (row_nbrs c n SH p i I Hi).
  - rewrite point_rest, samples_rest. exact NR.
  - rewrite point_rest, samples_rest. exact RV.
  - rewrite point_rest, samples_rest. exact SB.
Qed.
Lemma energy_mixed rb : mixed (fun D => energy_at c rb (mesh_line X D 1)).
Proof.
  apply (mixed_ext (fun D => rsum (map (fun p => ct_kappa c * penalty_b (ct_delta c) (pot_line c D rb p 1)) (crows c)))); [intros D; symmetry; apply (energy_rows c n X SH AT)|].
  apply (mixed_rsum (fun p D => ct_kappa c * penalty_b (ct_delta c) (pot_line c D rb p 1))). intros p I. assert (D : 0 < ct_delta c) by apply SH. apply mixed_scal.
  apply (mixed_comp (penalty_b (ct_delta c)) (penalty_db (ct_delta c)) (penalty_ddb (ct_delta c) (pot_line c rest rb p 1)) (fun D => pot_line c D rb p 1) (row_mixed rb p I)).
  - apply filter_forall. intros x. apply penalty_derive, D.
  - apply penalty_derive, D.
Qed.
(** ** Where the contact goes *)
Lemma at_line W s rb : exists c', update_state c (mesh_line X W s) rb = Some c' /\ cbase c' = moved (cbase c) (mobj c W) rb s /\ ct_points c' = mesh_line (ct_points c) (mcol c W) s /\
  same_setup c c' /\ contact_shape c' n /\ in_place (cbase c') /\ placed c' (mesh_line X W s) /\ sb_verts (cbase c') = mesh_line (sb_verts (cbase c)) (mobj c W) s.
Proof.
  destruct AT as [A1 A2]. pose proof (subset_line X _ _ W s A1) as EV. pose proof (subset_line X _ _ W s A2) as EP.
  destruct (update_state_some c n _ _ _ rb SH EV EP) as (c' & E & EB & EQ & SS). destruct (update_places c n _ rb c' SH E) as (SH' & AT' & PL' & _). exists c'.
  repeat (split; [assumption|]). rewrite EB. apply update_verts. apply mesh_length.
Qed.
Lemma rows_at c' W s : ct_points c' = mesh_line (ct_points c) (mcol c W) s -> same_setup c c' -> crows c' = map (line_row (mcol c W) s) (crows c).
Proof. intros EQ (T1 & _). unfold crows, hessian_rows. rewrite T1, EQ. apply rows_line. Qed.
Lemma samples_at_line c' W s rb i : cbase c' = moved (cbase c) (mobj c W) rb s -> (i < length (csamples c))%nat -> let V := mesh_line (sb_verts (cbase c)) (mobj c W) s in let t := nth i (sb_topo (cbase c)) (0, 0, 0)%nat in
  s_pos (smp (csamples c') i) = tri_centroid V t /\ s_nml (smp (csamples c') i) = area_vector V t /\ s_value (smp (csamples c') i) = s_value (smp (csamples c) i).
Proof.
  intros EB L. cbv zeta. unfold csamples at 1 2 3. rewrite EB. destruct (moved_sample (cbase c) (mobj c W) rb s i (WF c n SH) DC L) as [A M]. rewrite (TY c n SH) in M. destruct M as [M1 M2]. rewrite M1, M2.
  split; [reflexivity|]. split; [reflexivity|exact A].
Qed.
Lemma energy_again c' W U s t rb rb' : cbase c' = moved (cbase c) (mobj c W) rb' s -> ct_points c' = mesh_line (ct_points c) (mcol c W) s -> same_setup c c' -> contact_shape c' n -> placed c' (mesh_line X W s) ->
  energy_at c' rb (mesh_line (mesh_line X W s) U t) = energy_at c rb (mesh_line X (blend s W t U) 1).
Proof.
  intros EB EQ SS SH' AT'. rewrite (energy_rows c' n _ SH' AT'), (energy_rows c n X SH AT). rewrite (rows_at c' W s EQ SS), map_map. assert (SS' := SS).
  destruct SS' as (T1 & _ & _ & T4 & T5 & T6 & T7 & _ & T9 & T10 & _ & _ & T13 & T14 & T15). rewrite T14, T15.
  apply rsum_ext. intros p I. f_equal. f_equal. unfold pot_line. rewrite T4, T7, T13. f_equal. cbn [line_row fst snd].
  assert (EP : v3_line (v3_line (fst (snd p)) (mcol c W (fst p)) s) (mcol c' U (fst p)) t = v3_line (fst (snd p)) (mcol c (blend s W t U) (fst p)) 1) by (unfold mcol, cv; rewrite T10; unfold blend; apply v3_eq; unfold v3_line; unv; ring).
  rewrite EP. apply potential_ext. intros i Hi. pose proof (row_nbrs c n SH p i I Hi) as L.
  assert (L' : (i < length (sb_samples (cbase c')))%nat) by (rewrite EB, moved_length; exact L).
  destruct (moved_sample (cbase c) (mobj c (blend s W t U)) rb 1 i (WF c n SH) DC L) as [B1 B2]. rewrite (TY c n SH) in B2. destruct B2 as [B2 B3]. rewrite B1, B2, B3.
  assert (DC' : forall tr, In tr (sb_topo (cbase c')) -> distinct_corners tr) by (rewrite T6; exact DC).
  destruct (moved_sample (cbase c') (mobj c' U) rb t i (WF c' n SH') DC' L') as [C1 C2]. rewrite (TY c' n SH') in C2. destruct C2 as [C2 C3]. rewrite C1, C2, C3. rewrite T6.
  assert (EV : mesh_line (sb_verts (cbase c')) (mobj c' U) t = mesh_line (sb_verts (cbase c)) (mobj c (blend s W t U)) 1).
  { assert (VV : sb_verts (cbase c') = mesh_line (sb_verts (cbase c)) (mobj c W) s) by (rewrite EB; apply update_verts, mesh_length). rewrite VV, mesh_twice. f_equal. unfold mobj, sv. rewrite T9. reflexivity. }
  rewrite EV. split; [reflexivity|]. split; [reflexivity|]. exact (proj2 (proj2 (samples_at_line c' W s rb' i EB L))).
Qed.
(** Regular contacts stay regular for a short while. *)
Lemma quiet_near rb p cl U W : In p (crows c) -> nearest (csamples c) (fst (snd p)) (snd (snd p)) cl -> regular_view (q_kernel (ct_topo c)) (csamples c) (fst (snd p)) (snd (snd p)) ->
  quiet_background (q_kernel (ct_topo c)) (sb_bg (cbase c)) (csamples c) (fst (snd p)) cl ->
  locally 0 (fun s => quiet_background (q_kernel (ct_topo c)) (sb_bg (cbase c)) (samples_at rb (blend s W 0 U)) (point_at p (blend s W 0 U)) cl).
Proof.
  intros I NR RV [T|[PW RR]]; [apply filter_forall; intros s; left; exact T|]. unfold quiet_background. destruct (k_radius (q_kernel (ct_topo c))) as [r|] eqn:E; [|apply filter_forall; intros s; right; split; [exact PW|exact Logic.I]].
  assert (IC : In cl (snd (snd p))) by apply NR. assert (NE : v3_norm (away (csamples c) (fst (snd p)) cl) <> r) by (apply (regular_radius (q_kernel (ct_topo c)) _ r); [apply (RV cl IC)|exact E]).
  assert (M : mixed (fun D => v3_norm (away (samples_at rb D) (point_at p D) cl))).
  { apply mixed_norm; [|rewrite point_rest, samples_rest; apply (RV cl IC)]. unfold away. apply (vmixed_sub (point_at p) (fun D => s_pos (smp (samples_at rb D) cl))); [unfold point_at, mcol; apply vmixed_moves|exact (proj1 (samples_mixed rb cl (row_nbrs c n SH p cl I IC)))]. }
  assert (L : v3_norm (away (samples_at rb rest) (point_at p rest) cl) < r) by (rewrite point_rest, samples_rest; lra).
  eapply filter_imp; [|exact (mixed_near _ _ M (locally_below _ _ L) U W)]. intros s Hs. cbv beta in Hs. apply locally_singleton in Hs. right. split; [exact PW|]. apply Rlt_le. exact Hs.
Qed.
Lemma rows_regular W rb : locally 0 (fun s => forall p, In p (crows c) -> exists cl, sound_at (q_kernel (ct_topo c)) (sb_bg (cbase c)) 0 (snd (snd p)) cl (point_at p) (samples_at rb) (blend s W 0 rest) /\
  quiet_background (q_kernel (ct_topo c)) (sb_bg (cbase c)) (samples_at rb (blend s W 0 rest)) (point_at p (blend s W 0 rest)) cl).
Proof.
  apply FieldProofs.locally_all. intros p I. destruct (row_regular p I) as (cl & NR & RV & SB & QB).
  assert (A : locally 0 (fun s => sound_at (q_kernel (ct_topo c)) (sb_bg (cbase c)) 0 (snd (snd p)) cl (point_at p) (samples_at rb) (blend s W 0 rest))).
  { apply (sound_first _ _ _ _ cl (point_at p) (samples_at rb) (fun i => s_value (smp (csamples c) i))).
    - unfold point_at, mcol. apply vmixed_moves.
    - intros i Hi. apply samples_mixed. exact (row_nbrs c n SH p i I Hi).
    - rewrite point_rest, samples_rest. exact NR.
    - rewrite point_rest, samples_rest. exact RV.
    - rewrite point_rest, samples_rest. exact SB. }
  eapply filter_imp; [|exact (filter_and _ _ A (quiet_near rb p cl rest W I NR RV QB))]. intros s [H1 H2]. exists cl. split; assumption.
Qed.
Lemma regular_along W rb : locally 0 (fun s => forall c', update_state c (mesh_line X W s) rb = Some c' -> contact_regular c').
Proof.
  eapply filter_imp; [|exact (rows_regular W rb)]. intros s HS c' E. destruct (at_line W s rb) as (c'' & E' & EB & EQ & SS & SH' & PL' & AT' & VV). rewrite E in E'. injection E' as <-.
  assert (SS' := SS). destruct SS' as (T1 & _ & _ & T4 & T5 & T6 & T7 & _ & T9 & T10 & _). unfold contact_regular. cbv zeta. fold (cbase c'). rewrite T1, T4, T7. intros i LI NN.
  set (p := (i, (nth i (ct_points c) v3_0, nth i (trivial_neighborhood (ct_topo c)) []))). assert (LI0 : (i < length (ct_points c))%nat) by (rewrite EQ, mesh_length in LI; exact LI).
  assert (LP : length (ct_points c) = length (trivial_neighborhood (ct_topo c))) by apply SH.
  assert (I : In p (crows c)).
  { unfold crows, hessian_rows. apply filter_In. split; [|unfold p; cbn [snd]; destruct (nth i (trivial_neighborhood (ct_topo c)) []); [congruence|reflexivity]].
    unfold p. rewrite <- (combine_nth (ct_points c) (trivial_neighborhood (ct_topo c)) i v3_0 [] LP). apply enumerate_nth. apply nth_error_nth'. rewrite combine_length, <- LP, Nat.min_id. exact LI0. }
  destruct (HS p I) as (cl & SD & QB).
  assert (EP : point_at p (blend s W 0 rest) = nth i (ct_points c') v3_0).
  { rewrite EQ. change (nth i (mesh_line (ct_points c) (mcol c W) s) v3_0) with (pt (mesh_line (ct_points c) (mcol c W) s) i). rewrite mesh_pt by exact LI0. unfold point_at, p, pt, mcol, blend, rest. cbn [fst snd]. apply v3_eq; unfold v3_line; unv; ring. }
  assert (EV : mesh_line (sb_verts (cbase c)) (mobj c (blend s W 0 rest)) 1 = mesh_line (sb_verts (cbase c)) (mobj c W) s).
  { rewrite <- (mesh_0 (mesh_line (sb_verts (cbase c)) (mobj c W) s) rest), mesh_twice. reflexivity. }
  assert (ES : forall j, In j (snd (snd p)) -> s_pos (smp (csamples c') j) = s_pos (smp (samples_at rb (blend s W 0 rest)) j) /\ s_nml (smp (csamples c') j) = s_nml (smp (samples_at rb (blend s W 0 rest)) j)).
  { intros j Hj. pose proof (row_nbrs c n SH p j I Hj) as L. destruct (samples_values rb (blend s W 0 rest) j L) as (A1 & A2 & _). destruct (samples_at_line c' W s rb j EB L) as (B1 & B2 & _). rewrite A1, A2, B1, B2, EV. split; reflexivity. }
  unfold sound_at in SD. rewrite EP in SD, QB. destruct (same_view _ _ _ _ _ _ _ _ ES SD) as (N1 & N2 & N3). exists cl. refine (conj N1 (conj N2 (conj N3 _))).
  assert (IC : In cl (snd (snd p))) by apply N1. destruct QB as [T|[PW RR]]; [left; exact T|right; split; [exact PW|]]. destruct (k_radius _); [|exact Logic.I]. unfold away in *. change (sb_samples (cbase c')) with (csamples c'). rewrite (proj1 (ES cl IC)). exact RR.
Qed.
(** The force changes by a symmetric form that is the second derivative of the energy along each direction. *)
Lemma power_changes : exists B, bilinear_in B /\ (forall U, B U U = contact_curve c U) /\
  forall U W rb, is_derive (fun s => match update_state c (mesh_line X W s) rb with Some c' => contact_power c' U | None => 0 end) 0 (B U W).
Proof.
  destruct (energy_mixed false) as (L & B & HL & HB & C). exists B. split; [exact HB|]. split.
  - intros U. apply (crossed_diagonal (fun D => energy_at c false (mesh_line X D 1)) U (L U) (L U) (B U U) (rsum (map (fun p => ct_kappa c * penalty_b (ct_delta c) (dpot c p)) (crows c))) (contact_power c U) (contact_curve c U) (C U U)).
    eapply jet_ext; [|exact (energy_jet c n X SH PL AT RG U false)]. intros s. cbv beta. f_equal. rewrite <- (mesh_0 (mesh_line X U s) rest), mesh_twice. f_equal. apply functional_extensionality. intros i. unfold blend, rest. apply v3_eq; unv; ring.
  - intros U W rb. destruct (C U W) as (_ & g & G & _ & DG). apply (is_derive_ext_loc g); [|exact DG].
    eapply filter_imp; [|exact (filter_and _ _ G (regular_along W rb))]. intros s [H1 H2]. destruct (at_line W s rb) as (c' & E & EB & EQ & SS & SH' & PL' & AT' & VV). rewrite E. specialize (H2 c' E).
    pose proof (jet_derive _ _ _ _ (energy_jet c' n _ SH' PL' AT' H2 U false)) as D. fold (contact_power c' U) in D.
    assert (D' : is_derive (fun t => energy_at c false (mesh_line X (blend s W t U) 1)) 0 (contact_power c' U)).
    { eapply is_derive_ext; [|exact D]. intros t. cbv beta. exact (energy_again c' W U s t false rb EB EQ SS SH' AT'). }
    exact (eq_trans (eq_sym (is_derive_unique _ _ _ H1)) (is_derive_unique _ _ _ D')).
Qed.
End Contact.
