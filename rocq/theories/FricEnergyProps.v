(** Properties of friction assembled over the mesh: potential, power and symmetry. *)
From Coq Require Import Reals List Bool Lra Lia Psatz Sorting.Sorted.
From Coquelicot Require Import Coquelicot.
From Verif Require Import Vec3 Mat3 RList KernelModel KernelSpec FieldModel FieldSpec FieldProofs NeighborModel NeighborSpec NeighborProofs UpdateProps SurfJacModel SurfJacSpec SurfJacProofs SurfJacProps HessModel HessSpec SurfHessSpec ContactModel ContactJacModel ContactJacSpec ContactMapModel ContactMapSpec ContactMapProofs
  AssemblyModel ContactAsmModel ContactAsmSpec ContactDerivModel ContactDerivSpec ContactDerivProps BasisJacModel BasisJacSpec BasisJacProps
  ContactHessModel ContactHessSpec ContactHessProofs ContactRowProofs ContactMoveProofs FrictionModel FrictionSpec FricAsmModel FricAsmSpec FricForceSpec FricStateProofs FricActProofs FricFormProofs FricMoveProofs FricJacProofs FricTotalProofs FricEnergyProofs FricAsmProps.
From Verif Require ContactAsmProofs ContactJacProofs SurfHessProps ContactProofs FricCurveProofs.
Import FricCurveProofs.
Import ListNotations.
Local Open Scope R_scope.

Lemma state_matrices iamax ord n s : lists_the_set ord -> reached iamax ord n s -> exists L, contact_matrices (ct_topo (fs_contact s)) (ct_points (fs_contact s)) = Some L.
Proof. intros OK RS. destruct (reached_facts iamax ord n s OK RS) as (SH & _ & D). destruct (state_action iamax ord (fs_contact s) n SH s D) as (L & EL & _). exists L. exact EL. Qed.

(** C170.  Without viscosity and with one coefficient of friction, the friction force is the negative gradient in the velocities of the
    lagged potential times that coefficient, over [dqdv].  Partial: the code leaves the coefficient out. *)
Theorem lagged_friction_potential_gradient_partial : forall iamax ord s o n V U dqdv, let fp := fo_params o in
  lists_the_set ord -> reached iamax ord n s -> length V = n -> separate_sides (fs_contact s) -> 0 < fp_epsilon fp -> plain_params fp ->
  is_derive (fun h => fp_dynamic fp * friction_energy o s (mesh_line V U h) dqdv) 0 (- dqdv * pairing n (fun i => nth i (compute_friction_force o s V) v3_0) U).
Proof.
  intros iamax ord s o n V U dqdv fp OK RS LV SEP EP PP. destruct (state_matrices iamax ord n s OK RS) as (L & EL). exact (energy_gradient iamax ord OK n s RS L EL o SEP V U dqdv LV EP PP).
Qed.
(** C171.  The friction force never feeds energy into the motion. *)
Theorem friction_force_dissipates : forall iamax ord s o n V, lists_the_set ord -> reached iamax ord n s -> length V = n -> separate_sides (fs_contact s) ->
  valid_params (fo_params o) -> 0 <= ct_kappa (fs_contact s) -> pairing n (fun i => nth i (compute_friction_force o s V) v3_0) (fun i => nth i V v3_0) <= 0.
Proof.
  intros iamax ord s o n V OK RS LV SEP VP KP. destruct (state_matrices iamax ord n s OK RS) as (L & EL). exact (power_sign iamax ord OK n s RS L EL o SEP V LV VP KP).
Qed.

Lemma coordinate_pairing U F m : rsum (map (fun i => coordinate U i * coordinate F i) (seq 0 (3 * m))) = pairing m U F.
Proof.
  induction m as [|m IH]; [reflexivity|]. replace (3 * S m)%nat with (3 * m + 3)%nat by lia. rewrite seq_app, map_app, rsum_app, IH. unfold pairing. rewrite (seq_S m 0), map_app, rsum_app. f_equal. cbn [seq map Nat.add]. rewrite !rsum_cons, !rsum_nil.
  pose proof (fun G k => coordinate_at G m k) as Q.
  replace (S (3 * m)) with (3 * m + 1)%nat by lia. replace (S (3 * m + 1)) with (3 * m + 2)%nat by lia. assert (Q0 : forall G, coordinate G (3 * m) = vx (G m)) by (intros G; rewrite <- (Q G 0%nat) by lia; f_equal; lia).
  rewrite !Q0, (Q U 1%nat), (Q F 1%nat), (Q U 2%nat), (Q F 2%nat) by lia. unfold v3_dot. ring.
Qed.
Definition spiked (j : nat) : nat -> v3 := spike (j / 3) (j mod 3).
Lemma spiked_coordinate j i : coordinate (spiked j) i = if Nat.eqb i j then 1 else 0.
Proof.
  pose proof (Nat.div_mod i 3 ltac:(lia)) as Di. pose proof (Nat.mod_upper_bound i 3 ltac:(lia)) as Mi. pose proof (Nat.div_mod j 3 ltac:(lia)) as Dj. pose proof (Nat.mod_upper_bound j 3 ltac:(lia)) as Mj.
  unfold coordinate, spiked, spike. set (a := (i / 3)%nat) in *. set (b := (i mod 3)%nat) in *. set (x := (j / 3)%nat) in *. set (y := (j mod 3)%nat) in *. clearbody a b x y. subst i j.
  destruct (Nat.eqb_spec a x) as [->|N].
  - destruct b as [|[|[|b]]], y as [|[|[|y]]]; try lia; match goal with |- context [Nat.eqb ?p ?q] => destruct (Nat.eqb_spec p q); try lia end; reflexivity.
  - destruct (Nat.eqb_spec (3 * a + b) (3 * x + y)); [lia|]. destruct b as [|[|b]]; reflexivity.
Qed.
Lemma entry_times n L i j : (j < n)%nat -> matrix_times n L (coordinate (spiked j)) i = matrix_entry L i j.
Proof.
  intros J. unfold matrix_times. rewrite (rsum_ext _ (fun q => if Nat.eqb j q then matrix_entry L i q else 0)); [apply (SurfHessProps.seq_pick (fun q => matrix_entry L i q)), J|]. intros q _. rewrite spiked_coordinate, Nat.eqb_sym. destruct (Nat.eqb j q); ring.
Qed.
Lemma spiked_zero j m : (j < 3 * m)%nat -> forall v, (m <= v)%nat -> spiked j v = v3_0.
Proof. intros J v M. unfold spiked, spike. assert (j / 3 < m)%nat by (apply Nat.div_lt_upper_bound; lia). destruct (Nat.eqb_spec v (j / 3)); [lia|reflexivity]. Qed.

(** C172.  The lagged Jacobian is symmetric, and with one coefficient of friction it has no negative directions. *)
Theorem lagged_friction_jacobian_is_symmetric : forall iamax ord s cur o n V dqdv m J,
  lists_the_set ord -> reached iamax ord n s -> length V = n -> (m <= n)%nat -> fo_lagged o = true -> friction_jacobian iamax ord o s cur V dqdv m = Some J ->
  (forall i j, (i < 3 * m)%nat -> (j < 3 * m)%nat -> matrix_entry J i j = matrix_entry J j i) /\
  (valid_params (fo_params o) -> fp_static (fo_params o) = fp_dynamic (fo_params o) -> 0 <= ct_kappa (fs_contact s) ->
    forall U, 0 <= rsum (map (fun i => coordinate U i * matrix_times (3 * m) J (coordinate U) i) (seq 0 (3 * m)))).
Proof.
  intros iamax ord s cur o n V dqdv m J OK RS LV MN OL EJ. unfold friction_jacobian in EJ. destruct (friction_jacobian_blocks iamax ord o s cur V dqdv m) as [B|] eqn:EB; [|discriminate]. injection EJ as <-. pose proof (blocks_within _ _ _ _ _ _ _ _ _ EB) as BW.
  destruct (state_matrices iamax ord n s OK RS) as (L & EL).
  assert (Q : forall U W, rsum (map (fun i => coordinate U i * matrix_times (3 * m) (flat_map scalar_entries B) (coordinate W) i) (seq 0 (3 * m))) = pairing m U (block_product B W)).
  { intros U W. rewrite <- coordinate_pairing. apply rsum_ext. intros i _. rewrite matrix_times_blocks by exact BW. reflexivity. }
  pose proof (fun U W => lagged_form iamax ord OK n s RS L EL o cur V dqdv m B U W LV MN OL EB) as LF. split.
  - assert (T : forall i j, (i < 3 * m)%nat -> (j < 3 * m)%nat -> pairing m (spiked i) (block_product B (spiked j)) = matrix_entry (flat_map scalar_entries B) i j).
    { intros i j I J. rewrite <- Q. rewrite (rsum_ext _ (fun q => if Nat.eqb i q then matrix_entry (flat_map scalar_entries B) q j else 0)); [apply (SurfHessProps.seq_pick (fun q => matrix_entry (flat_map scalar_entries B) q j)), I|]. intros q _. rewrite spiked_coordinate, entry_times by exact J. rewrite Nat.eqb_sym. destruct (Nat.eqb i q); ring. }
    intros i j I J. rewrite <- !T by assumption. rewrite (LF _ _ (spiked_zero i m I) (spiked_zero j m J)), (LF _ _ (spiked_zero j m J) (spiked_zero i m I)). apply rsum_ext. intros k _. apply law_symmetric.
  - intros VP ES KP U. assert (E : forall i, (i < 3 * m)%nat -> coordinate U i = coordinate (within_mesh m U) i) by (intros i I; symmetry; apply within_coordinate, I).
    rewrite (rsum_ext _ (fun i => coordinate (within_mesh m U) i * matrix_times (3 * m) (flat_map scalar_entries B) (coordinate (within_mesh m U)) i)).
    2: { intros i I. apply in_seq in I. rewrite E by lia. f_equal. apply times_ext. intros j Jn. apply E, Jn. }
    assert (WZ : forall i, (m <= i)%nat -> within_mesh m U i = v3_0) by (intros i I; unfold within_mesh; destruct (Nat.ltb_spec i m); [lia|reflexivity]).
    rewrite Q, (LF _ _ WZ WZ). apply rsum_nonneg. intros x I. apply in_map_iff in I. destruct I as (k & <- & _). apply law_semidefinite; [exact VP|exact ES|].
    destruct (reached_facts iamax ord n s OK RS) as (SH & _ & _). apply (ContactProofs.multiplier_one (ct_delta (fs_contact s)) (ct_kappa (fs_contact s))); [apply SH|exact KP].
Qed.

(** ** Examples: the vertex sliding above the flat surface *)
Lemma slide_slip s L : fs_contact s = slide -> pull_form slide L (at3 slide_only) 0 = V3 (-1) (-2) 0.
Proof.
  intros EC. unfold pull_form. change (nth 0 (filled (ct_topo slide)) 0%nat) with 0%nat. assert (Z : block_product L (fun v => at3 slide_only (sv slide v)) 0 = v3_0).
  { unfold block_product. apply ContactAsmProofs.vsum_zero. intros [[r cl] B] _. assert (Q : at3 slide_only (sv slide cl) = v3_0) by (unfold sv; destruct cl as [|[|[|[|[|cl]]]]]; reflexivity). rewrite Q. destruct (Nat.eqb r 0); [|reflexivity]. apply v3_eq; unfold m3_mulv, v3_dot, v3_0; cbn [vx vy vz]; ring. }
  rewrite Z. unfold cv. cbn [slide ct_collider nth]. unfold at3. cbn [slide_only nth]. apply v3_eq; unv; cbn [vx vy vz v3_0]; unfold v3_0; cbn [vx vy vz]; ring.
Qed.
Lemma slide_tangent : let w := to_tangent_space (contact_frame first_largest (V3 0 0 1)) (V3 (-1) (-2) 0) in v2_dot w w = 5.
Proof.
  destruct slide_normal as [OR EN]. pose proof (ContactJacProofs.frame_isometry (contact_frame first_largest (V3 0 0 1)) (V3 (-1) (-2) 0) (V3 (-1) (-2) 0) OR) as H.
  assert (Z : vx (to_contact_coordinates (contact_frame first_largest (V3 0 0 1)) (V3 (-1) (-2) 0)) = 0) by (unfold to_contact_coordinates, contact_basis_matrix, m3_mulv; cbn [vx r0]; rewrite EN; unfold v3_dot; cbn [vx vy vz]; ring).
  cbv zeta. unfold to_tangent_space. cbv zeta. destruct (to_contact_coordinates _ _) as [x y z]. cbn [vx] in Z. subst x. unfold v3_dot in H. cbn [vx vy vz] in H. unfold v2_dot. cbn [vx vy vz v2x v2y]. lra.
Qed.
Lemma slide_power s o : fs_contact s = slide -> reached first_largest (nodup Nat.eq_dec) 5 s -> fo_profile o = Stabilized -> fo_params o = rubber ->
  pairing 5 (fun i => nth i (compute_friction_force o s slide_only) v3_0) (fun i => nth i slide_only v3_0) < 0.
Proof.
  intros EC RS EP EO. destruct (state_matrices first_largest (nodup Nat.eq_dec) 5 s sorted_listing RS) as (L & EL). assert (SEP : separate_sides (fs_contact s)) by (rewrite EC; exact slide_sides).
  change (pairing 5 (fun i => nth i (compute_friction_force o s slide_only) v3_0) (at3 slide_only) < 0). rewrite (force_pairing first_largest (nodup Nat.eq_dec) sorted_listing 5 s RS L EL o SEP slide_only (at3 slide_only) eq_refl). rewrite EC, EP, EO. change (length (filled (ct_topo slide))) with 1%nat. cbn [seq map]. rewrite rsum_cons, rsum_nil, (slide_slip s L EC).
  change (nth 0 (filled (ct_topo slide)) 0%nat) with 0%nat. assert (EF : frame_at first_largest slide 0 = contact_frame first_largest (V3 0 0 1)) by (unfold frame_at, grad_at; change (row_at slide 0) with (0%nat, (above, [0; 1]%nat)); rewrite slide_gradient; reflexivity). rewrite EF.
  pose proof slide_tangent as T. cbv zeta in T. set (w := to_tangent_space _ _) in *. clearbody w.
  assert (EL' : lam_at slide 0 = 9 / 4). { unfold lam_at. change (row_at slide 0) with (0%nat, (above, [0; 1]%nat)). assert (ED : dpot slide (0%nat, (above, [0; 1]%nat)) = 1 / 2) by (pose proof slide_potential; lra). rewrite ED. cbn [slide ct_delta ct_kappa]. unfold penalty_db. destruct (Rlt_dec 0 (1 - 1 / 2)); [|lra]. field. }
  rewrite EL'. unfold friction_profile, rubber, sliding_profile. cbn [fp_dynamic fp_static fp_viscous fp_stribeck fp_epsilon]. set (f := falloff _ _). assert (NP : 0 <= v2_norm w) by apply sqrt_pos. set (nn := v2_norm w) in *. clearbody nn f.
  assert (I : 0 < / (nn + 1 / 10 * (1 / 100))) by (apply Rinv_0_lt_compat; lra). match goal with |- - (v2_dot (v2_scale ?a w) w + 0) < 0 => replace (v2_dot (v2_scale a w) w) with (a * v2_dot w w) by (unfold v2_dot, v2_scale; cbn [v2x v2y]; ring); replace a with (9 / 8 * / (nn + 1 / 10 * (1 / 100))) by (field; lra) end. rewrite T. lra.
Qed.

(** C170, finding: the lagged potential of the code is not the potential of the friction force, as it misses the coefficient. *)
Theorem lagged_friction_potential_gradient_refuted : exists iamax ord s o n V U dqdv, lists_the_set ord /\ reached iamax ord n s /\ length V = n /\ separate_sides (fs_contact s) /\
  valid_params (fo_params o) /\ plain_params (fo_params o) /\ 0 < dqdv /\
  ~ is_derive (fun h => friction_energy o s (mesh_line V U h) dqdv) 0 (- dqdv * pairing n (fun i => nth i (compute_friction_force o s V) v3_0) U).
Proof.
  destruct slide_state as (s & E & EC & EA & _ & RS). assert (SEP : separate_sides (fs_contact s)) by (rewrite EC; exact slide_sides).
  exists first_largest, (nodup Nat.eq_dec), s, (rub true false), 5%nat, slide_only, (fun i => nth i slide_only v3_0), 1. refine (conj sorted_listing (conj RS (conj eq_refl (conj SEP (conj _ (conj _ (conj Rlt_0_1 _))))))).
  - apply rubber_valid.
  - split; reflexivity.
  - intros H. pose proof (slide_power s (rub true false) EC RS eq_refl eq_refl) as P. pose proof (is_derive_scal _ _ (1 / 2) _ H) as H1.
    pose proof (lagged_friction_potential_gradient_partial first_largest (nodup Nat.eq_dec) s (rub true false) 5 slide_only (fun i => nth i slide_only v3_0) 1 sorted_listing RS eq_refl SEP ltac:(cbn; lra) (conj eq_refl eq_refl)) as H2.
    pose proof (eq_trans (eq_sym (is_derive_unique _ _ _ H1)) (is_derive_unique _ _ _ H2)) as Q. cbv beta in Q. set (p := pairing 5 _ _) in *. clearbody p. change (@eq R (1 / 2 * (- (1) * p)) (- (1) * p)) in Q. lra.
Qed.

Example lagged_friction_potential_ex : exists s, precompute_friction first_largest (nodup Nat.eq_dec) slide 5 = Some s /\ fs_active s = [0%nat] /\
  exists p, p < 0 /\ is_derive (fun h => 1 / 2 * friction_energy (rub true false) s (mesh_line slide_only (fun i => nth i slide_only v3_0) h) (1 / 10)) 0 (- (1 / 10) * p).
Proof.
  destruct slide_state as (s & E & EC & EA & _ & RS). exists s. refine (conj E (conj EA _)). eexists. split; [exact (slide_power s (rub true false) EC RS eq_refl eq_refl)|].
  apply (lagged_friction_potential_gradient_partial first_largest (nodup Nat.eq_dec) s (rub true false) 5 slide_only); [exact sorted_listing|exact RS|reflexivity|rewrite EC; exact slide_sides|cbn; lra|split; reflexivity].
Qed.
(** The power is negative when the vertex slides. *)
Example friction_force_dissipates_ex : exists s, precompute_friction first_largest (nodup Nat.eq_dec) slide 5 = Some s /\
  (forall V, length V = 5%nat -> pairing 5 (fun i => nth i (compute_friction_force (rub false false) s V) v3_0) (fun i => nth i V v3_0) <= 0) /\
  pairing 5 (fun i => nth i (compute_friction_force (rub false false) s slide_only) v3_0) (fun i => nth i slide_only v3_0) < 0.
Proof.
  destruct slide_state as (s & E & EC & EA & _ & RS). exists s. refine (conj E (conj _ (slide_power s (rub false false) EC RS eq_refl eq_refl))). intros V LV.
  apply (friction_force_dissipates first_largest (nodup Nat.eq_dec)); [exact sorted_listing|exact RS|exact LV|rewrite EC; exact slide_sides|apply rubber_valid|rewrite EC; cbn; lra].
Qed.
Example lagged_friction_jacobian_symmetric_ex : exists s J, precompute_friction first_largest (nodup Nat.eq_dec) slide 5 = Some s /\ friction_jacobian first_largest (nodup Nat.eq_dec) (rub true false) s s slide_with (1 / 10) 4 = Some J /\
  (forall i j, (i < 12)%nat -> (j < 12)%nat -> matrix_entry J i j = matrix_entry J j i) /\
  forall U, 0 <= rsum (map (fun i => coordinate U i * matrix_times 12 J (coordinate U) i) (seq 0 12)).
Proof.
  destruct lagged_friction_jacobian_ex as (s & J & E & EJ & _). exists s, J. refine (conj E (conj EJ _)). destruct slide_state as (s' & E' & EC & _ & _ & RS). rewrite E in E'. injection E' as <-.
  destruct (lagged_friction_jacobian_is_symmetric first_largest (nodup Nat.eq_dec) s s (rub true false) 5 slide_with (1 / 10) 4 J sorted_listing RS eq_refl ltac:(lia) eq_refl EJ) as (A & B). split; [exact A|]. apply B; [apply rubber_valid|reflexivity|rewrite EC; cbn; lra].
Qed.

Print Assumptions lagged_friction_potential_gradient_partial.
Print Assumptions lagged_friction_potential_gradient_refuted.
Print Assumptions friction_force_dissipates.
Print Assumptions lagged_friction_jacobian_is_symmetric.
