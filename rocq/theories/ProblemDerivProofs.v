(** Proofs that the assembled Jacobian is the derivative of the residual, coordinate by coordinate. *)
From Coq Require Import Reals List Arith Bool Lra Lia FunctionalExtensionality.
From Coquelicot Require Import Coquelicot.
From Verif Require Import Vec3 Mat3 RList ElasticModel ElasticSpec ElasticProofs ElasticMeshProofs ElasticHessProofs MassModel MassSpec MassProofs AngleModel ShellModel ShellSpec ShellMeshProofs ShellHessProofs
  VolumeModel VolumeSpec.
From Verif Require Import SurfJacSpec SurfHessSpec JetProofs ContactAsmModel ContactHessModel ContactHessSpec.
From Verif Require Import ProblemModel ProblemSpec ProblemListProofs ProblemEnergyProofs ProblemProofs ProblemMatrixProofs ProblemDerivSpec.
From Verif Require ShellBalanceProofs ElasticProps ShellProofs ShellProps VolumeProofs NeighborModel ContactMoveProofs ContactHessProps ProblemContactProofs ProblemProps FricProblemProofs MixedProofs ContactMixedProofs.
From Verif Require Import ContactHessModel ProblemContactProofs.
Import ListNotations.
Local Open Scope R_scope.
Local Notation lower_form := ElasticSpec.lower_form.
Local Notation power := ElasticSpec.power.

(** Forms in two vectors. *)
Lemma mirrored_bilinear L x y : sparse_form (L ++ off_entries L) x y = lower_form L x y.
Proof.
  rewrite VolumeProofs.sparse_form_app. unfold off_entries, sparse_form, ElasticSpec.lower_form. induction L as [|[[r c] a] L IH]; [cbn [filter map]; rewrite rsum_nil; ring|].
  cbn [filter map fst snd]. unfold off_diagonal at 1. cbn [fst snd]. destruct (Nat.eqb_spec r c) as [->|N]; cbn [negb map mirror fst snd]; rewrite !rsum_cons, <- IH; ring.
Qed.
Lemma row_of_form n L k y : (forall j, (n <= j)%nat -> y j = 0) -> rsum (map (fun j => matrix_entry L k j * y j) (seq 0 n)) = sparse_form L (unit_at k) y.
Proof.
  intros Z. induction L as [|[[r c] a] L IH].
  - unfold sparse_form. cbn [map]. rewrite rsum_nil. apply rsum_zero. intros j _. rewrite entry_nil. ring.
  - unfold sparse_form. cbn [map fst snd]. rewrite rsum_cons. fold (sparse_form L (unit_at k) y). rewrite <- IH.
    rewrite (rsum_ext _ (fun j => (if Nat.eqb j c then a * unit_at k r * y j else 0) + matrix_entry L k j * y j)).
    2: { intros j _. rewrite entry_cons. cbn [fst snd]. unfold unit_at. rewrite (Nat.eqb_sym j c). destruct (Nat.eqb r k), (Nat.eqb_spec c j); cbn [andb]; ring. }
    rewrite rsum_plus. f_equal. destruct (Nat.ltb_spec c n) as [C|C].
    + exact (rsum_seq_single (fun j => a * unit_at k r * y j) n c C).
    + rewrite (Z c C), rsum_zero; [ring|]. intros j Hj. apply in_seq in Hj. destruct (Nat.eqb_spec j c); [lia|reflexivity].
Qed.

(** A form with symmetric entries, and the polar form of the second derivative of a contact. *)
Lemma row_sums n L x y : (forall i, (n <= i)%nat -> x i = 0) -> rsum (map (fun i => x i * sparse_form L (unit_at i) y) (seq 0 n)) = sparse_form L x y.
Proof.
  intros Z. induction L as [|[[r c] a] L IH].
  - unfold sparse_form. cbn [map]. rewrite rsum_nil. apply rsum_zero. intros i _. ring.
  - unfold sparse_form at 2. cbn [map fst snd]. rewrite rsum_cons. fold (sparse_form L x y). rewrite <- IH.
    rewrite (rsum_ext _ (fun i => (if Nat.eqb i r then a * x i * y c else 0) + x i * sparse_form L (unit_at i) y)).
    2: { intros i _. unfold sparse_form at 1. cbn [map fst snd]. rewrite rsum_cons. fold (sparse_form L (unit_at i) y). unfold unit_at. rewrite (Nat.eqb_sym i r). destruct (Nat.eqb r i); ring. }
    rewrite rsum_plus. f_equal. destruct (Nat.ltb_spec r n) as [C|C].
    + exact (rsum_seq_single (fun i => a * x i * y c) n r C).
    + rewrite (Z r C), rsum_zero; [ring|]. intros j Hj. apply in_seq in Hj. destruct (Nat.eqb_spec j r); [lia|reflexivity].
Qed.
Lemma sparse_both n L x y : (forall i, (n <= i)%nat -> x i = 0) -> (forall i, (n <= i)%nat -> y i = 0) ->
  sparse_form L x y = rsum (map (fun i => rsum (map (fun j => matrix_entry L i j * x i * y j) (seq 0 n))) (seq 0 n)).
Proof.
  intros ZX ZY. rewrite <- (row_sums n L x y ZX). apply rsum_ext. intros i _. rewrite <- (row_of_form n L i y ZY), <- rsum_scale. apply rsum_ext. intros j _. ring.
Qed.
Lemma symmetric_form n L x y : (forall i, (n <= i)%nat -> x i = 0) -> (forall i, (n <= i)%nat -> y i = 0) -> (forall i j, matrix_entry L i j = matrix_entry L j i) -> sparse_form L x y = sparse_form L y x.
Proof.
  intros ZX ZY S. rewrite (sparse_both n L x y ZX ZY), (sparse_both n L y x ZY ZX), rsum_swap. apply rsum_ext. intros j _. apply rsum_ext. intros i _. rewrite S. ring.
Qed.
Lemma square_of_sum L x y z : (forall k, z k = x k + y k) -> sparse_form L z z = sparse_form L x x + sparse_form L x y + sparse_form L y x + sparse_form L y y.
Proof. intros Z. unfold sparse_form. rewrite <- !rsum_plus. apply rsum_ext. intros [[r c] a] _. cbn [fst snd]. rewrite !Z. ring. Qed.
Definition polar (c : contact) (U W : nat -> v3) : R := (contact_curve c (MixedProofs.blend 1 U 1 W) - contact_curve c U - contact_curve c W) / 2.
Lemma polar_form B c : MixedProofs.bilinear_in B -> (forall U, B U U = contact_curve c U) -> forall U W, B U W = polar c U W.
Proof.
  intros [L S] D U W. unfold polar. rewrite <- !D, L, (S U (MixedProofs.blend 1 U 1 W)), (S W (MixedProofs.blend 1 U 1 W)), !L, (S W U). field.
Qed.
Section Moving.
Variables (p : problem) (V : list v3) (W U : nat -> v3) (rb : bool).
Let n := length (pb_pos p).
Let m := pb_active p.
Let h := dqdv p.
Let w := cut_at m W.
Let u := cut_at m U.
Let hw : nat -> v3 := fun i => v3_scale h (w i).
Let x := at_ (pb_pos p).
Let v := at_ (pb_vel p).
Hypothesis OK : problem_ok p.
Hypothesis LV : length V = m.
Hypothesis ATX : next_pos p V = pb_pos p.
Hypothesis ATV : next_vel p V = pb_vel p.
Hypothesis AT : forall cg, In cg (pb_contacts p) -> ContactMoveProofs.placed (fst cg) (pb_pos p).
Hypothesis ZD : zones_defined p.
Hypothesis RG : regular_state p.
Let after s := updated p (mesh_line V W s) rb.
Lemma after_pos s : at_ (pb_pos (after s)) = move x hw s. Proof. exact (at_pos_line p V W OK LV ATX s). Qed.
Lemma after_vel s : at_ (pb_vel (after s)) = move v w s. Proof. exact (at_vel_line p V W OK LV ATV s). Qed.
Lemma gradient_inside M s g y z : tet_gradient_with_damping M s h y z = Some g -> exists g', m_gradient M (elem_of s (gather s y)) = Some g'.
Proof. unfold tet_gradient_with_damping. cbv zeta. destruct (m_gradient M (elem_of s (gather s y))) as [g'|]; [intros _; exists g'; reflexivity|discriminate]. Qed.
Lemma contact_after cg s : In cg (pb_contacts p) -> update_state (fst cg) (mesh_line (pb_pos p) hw s) rb = Some (fst (upd (next_pos p (mesh_line V W s)) rb cg)).
Proof.
  intros Hc. assert (RD : contact_ready n m cg) by (apply OK, Hc). assert (LX : length (next_pos p (mesh_line V W s)) = n) by (apply next_pos_length, OK).
  destruct (contact_updates cg _ _ _ rb RD LX) as (c' & g' & E & E1 & _). unfold upd. rewrite E. cbn [fst]. rewrite <- E1. f_equal. symmetry. exact (pos_line p V W OK LV ATX s).
Qed.
(** Regular states stay regular for a short while. *)
Lemma regular_nearby : locally 0 (fun s => regular_state (after s)).
Proof.
  assert (G1 : forall s, In s (nh_tets p) -> exists g, tet_gradient_with_damping neo_hookean s h x v = Some g) by (intros s; exact (nh_gradients p RG s)).
  assert (G2 : forall s, In s (snh_tets p) -> exists g, tet_gradient_with_damping stable_neo_hookean s h x v = Some g) by (intros s; exact (snh_gradients p RG s)).
  destruct (mesh_force_derive neo_hookean (nh_tets p) h x v w u nh_good nh_smooth G1) as [L1 _]. destruct (mesh_force_derive stable_neo_hookean (snh_tets p) h x v w u snh_good snh_smooth G2) as [L2 _].
  assert (SM : smooth_at (pb_shell p) x) by apply RG. pose proof (smooth_line x (pb_shell p) hw SM) as L3.
  assert (L4 : locally 0 (fun s => forall cg, In cg (pb_contacts p) -> forall c', update_state (fst cg) (mesh_line (pb_pos p) hw s) rb = Some c' -> contact_regular c')).
  { apply (FieldProofs.locally_all (fun cg s => forall c', update_state (fst cg) (mesh_line (pb_pos p) hw s) rb = Some c' -> contact_regular c')). intros cg Hc. assert (RD : contact_ready n m cg) by (apply OK, Hc). destruct cg as [c g]. destruct RD as (SH & PL & _).
    exact (ContactMixedProofs.regular_along c n (pb_pos p) SH PL (AT _ Hc) (proj2 (proj2 (proj2 RG)) _ Hc) hw rb). }
  generalize (filter_and _ _ (filter_and _ _ (filter_and _ _ L1 L2) L3) L4). apply filter_imp. intros s [[[A B] C] D]. unfold regular_state. cbv zeta. change (fun i => nth i (pb_pos (after s)) v3_0) with (at_ (pb_pos (after s))). rewrite after_pos.
  split; [|split; [|split]].
  - intros e He. destruct (A (fst e)) as [g G]; [apply in_map, He|]. exact (gradient_inside _ _ g _ _ G).
  - intros e He. destruct (B (fst e)) as [g G]; [apply in_map, He|]. exact (gradient_inside _ _ g _ _ G).
  - exact C.
  - intros c Hc. unfold after in Hc. cbn [updated pb_contacts] in Hc. apply in_map_iff in Hc. destruct Hc as (cg & <- & Hc). exact (D cg Hc _ (contact_after cg s Hc)).
Qed.
Definition momentum_at (s share : R) (e : melem) (c : nat) : v3 := v3_scale (vertex_mass share e) (v3_sub (move v w s c) (cur_vel p c)).
Definition contacts_at (s : R) : R := rsum (map (fun cg => match update_state (fst cg) (mesh_line (pb_pos p) hw s) rb with Some c' => contact_power c' u | None => 0 end) (pb_contacts p)).
Definition power_at (s : R) : R := prev_power p u + h *
  (mesh_power neo_hookean (nh_tets p) h (move x hw s) (move v w s) u + mesh_power stable_neo_hookean (snh_tets p) h (move x hw s) (move v w s) u
  + elems_power_of (grav p (1 / 4)) (nh_masses p) u + elems_power_of (grav p (1 / 4)) (snh_masses p) u
  + shell_power (pb_shell p) h (move x hw s) (move v w s) u + elems_power_of (grav p (1 / 3)) (shell_masses p) u
  + rsum (map (fun z => zone_power (move x hw s) z u) (pb_zones p)) + contacts_at s)
  + (if is_static p then 0 else elems_power_of (momentum_at s (1 / 4)) (nh_masses p) u + elems_power_of (momentum_at s (1 / 4)) (snh_masses p) u + elems_power_of (momentum_at s (1 / 3)) (shell_masses p) u).
Lemma power_after s : objective_power (after s) U = power_at s.
Proof.
  unfold objective_power, force_power, momentum_power, power_at, mom, momentum_at. rewrite after_pos, after_vel.
  assert (EC : rsum (map (fun cg => contact_power (fst cg) u) (pb_contacts (after s))) = contacts_at s).
  { change (pb_contacts (after s)) with (map (upd (next_pos p (mesh_line V W s)) rb) (pb_contacts p)). rewrite map_map. apply rsum_ext. intros cg Hc. rewrite (contact_after cg s Hc). reflexivity. }
  rewrite <- EC. reflexivity.
Qed.
Definition zone_bilinear (z : zone) (a b : nat -> v3) : R :=
  pressure_atm / (compression z * 6) * (volume_change z x * VolumeProofs.bil z x a b + VolumeProofs.lin z x a * VolumeProofs.lin z x b / (pressurization z * rest_volume z * 6)).
Definition curve_of : R :=
  h * (h * mesh_curve neo_hookean (nh_tets p) h x v u w + h * mesh_curve stable_neo_hookean (snh_tets p) h x v u w + h * shell_curve (pb_shell p) x u w
  + rsum (map (fun z => zone_bilinear z u hw) (pb_zones p)) + rsum (map (fun cg => polar (fst cg) u hw) (pb_contacts p))) + (if is_static p then 0 else lower_form (inertia_matrix p) (coords u) (coords w)).
Lemma momentum_derive share es : is_derive (fun s => elems_power_of (momentum_at s share) es u) 0 (lower_form (combine (inertia_indices es 0 0) (inertia_values share es 1)) (coords u) (coords w)).
Proof.
  rewrite inertia_form. set (b := rsum _). apply (is_derive_ext (fun s => elems_power_of (momentum_at 0 share) es u + s * b)).
  - intros s. unfold b, elems_power_of. rewrite <- rsum_scale, <- rsum_plus. apply rsum_ext. intros e _. rewrite <- rsum_scale, <- rsum_plus. apply rsum_ext. intros c _. unfold momentum_at, move. destruct (v c) as [a1 a2 a3], (w c) as [b1 b2 b3], (u c) as [c1 c2 c3], (cur_vel p c) as [d1 d2 d3]. unfold v3_dot, v3_scale, v3_sub, v3_line, v3_add. cbv [v3_scale vx vy vz]. ring.
  - auto_derive; [exact I|ring].
Qed.
Lemma power_derive : is_derive power_at 0 curve_of.
Proof.
  assert (G1 : forall s, In s (nh_tets p) -> exists g, tet_gradient_with_damping neo_hookean s h x v = Some g) by (intros s; exact (nh_gradients p RG s)).
  assert (G2 : forall s, In s (snh_tets p) -> exists g, tet_gradient_with_damping stable_neo_hookean s h x v = Some g) by (intros s; exact (snh_gradients p RG s)).
  destruct (mesh_force_derive neo_hookean (nh_tets p) h x v w u nh_good nh_smooth G1) as [_ D1]. destruct (mesh_force_derive stable_neo_hookean (snh_tets p) h x v w u snh_good snh_smooth G2) as [_ D2].
  assert (SM : smooth_at (pb_shell p) x) by apply RG. assert (SR : shell_in_range n (pb_shell p)) by apply OK. assert (SD : shell_distinct (pb_shell p)) by apply OK.
  destruct (shell_force_derive (pb_shell p) h x v w u n SR SD SM) as (g & EG & D3). rewrite shell_form in D3 by (try exact SD; intros t Ht; apply ShellProofs.proper_gram, SM, Ht). rewrite Rmult_1_l in D3.
  assert (D3' : is_derive (fun s => shell_power (pb_shell p) h (move x hw s) (move v w s) u) 0 (h * shell_curve (pb_shell p) x u w)).
  { eapply is_derive_ext; [|exact D3]. intros s. cbv beta. rewrite (power_scatter _ _ _ u (EG s)). reflexivity. }
  assert (D4 : is_derive (fun s => rsum (map (fun z => zone_power (move x hw s) z u) (pb_zones p))) 0 (rsum (map (fun z => zone_bilinear z u hw) (pb_zones p)))).
  { apply (VolumeProofs.derive_rsum (fun z s => zone_power (move x hw s) z u)). intros z Hz. destruct (ZD z Hz) as [P _]. exact (VolumeProofs.force_derive z x u hw P). }
  assert (D5 : is_derive contacts_at 0 (rsum (map (fun cg => polar (fst cg) u hw) (pb_contacts p)))).
  { unfold contacts_at. apply (VolumeProofs.derive_rsum (fun cg s => match update_state (fst cg) (mesh_line (pb_pos p) hw s) rb with Some c' => contact_power c' u | None => 0 end)). intros cg Hc.
    assert (RD : contact_ready n m cg) by (apply OK, Hc). destruct cg as [c gc]. destruct RD as (SH & PL & _). cbn [fst].
    destruct (ContactMixedProofs.power_changes c n (pb_pos p) SH PL (AT _ Hc) (proj2 (proj2 (proj2 RG)) _ Hc)) as (B & HB & HD & DB). rewrite <- (polar_form B c HB HD). exact (DB u hw rb). }
  set (A := prev_power p u). set (B1 := elems_power_of (grav p (1 / 4)) (nh_masses p) u). set (B2 := elems_power_of (grav p (1 / 4)) (snh_masses p) u). set (B3 := elems_power_of (grav p (1 / 3)) (shell_masses p) u).
  unfold power_at, curve_of. fold A B1 B2 B3.
  assert (DF : is_derive (fun s => A + h * (mesh_power neo_hookean (nh_tets p) h (move x hw s) (move v w s) u + mesh_power stable_neo_hookean (snh_tets p) h (move x hw s) (move v w s) u + B1 + B2
     + shell_power (pb_shell p) h (move x hw s) (move v w s) u + B3 + rsum (map (fun z => zone_power (move x hw s) z u) (pb_zones p)) + contacts_at s)) 0
     (h * (h * mesh_curve neo_hookean (nh_tets p) h x v u w + h * mesh_curve stable_neo_hookean (snh_tets p) h x v u w + h * shell_curve (pb_shell p) x u w + rsum (map (fun z => zone_bilinear z u hw) (pb_zones p)) + rsum (map (fun cg => polar (fst cg) u hw) (pb_contacts p))))).
  { evar_last; [apply @is_derive_plus; [apply @is_derive_const|apply is_derive_scal; apply @is_derive_plus; [|exact D5]; apply @is_derive_plus; [|exact D4]; apply @is_derive_plus; [|apply @is_derive_const];
      apply @is_derive_plus; [|exact D3']; apply @is_derive_plus; [|apply @is_derive_const]; apply @is_derive_plus; [|apply @is_derive_const]; apply @is_derive_plus; [exact D1|exact D2]]|].
    unfold plus, zero; cbn. unfold mesh_curve. ring. }
  destruct (is_static p); [evar_last; [apply @is_derive_plus; [exact DF|apply @is_derive_const]|]; unfold plus, zero; cbn; ring|].
  evar_last; [apply @is_derive_plus; [exact DF|apply @is_derive_plus; [apply @is_derive_plus|]; apply momentum_derive]|]. unfold plus; cbn. unfold inertia_matrix. rewrite !lower_app. ring.
Qed.
End Moving.

Section Coordinates.
Variables (p0 : problem) (V : list v3) (rb : bool).
Let p := updated p0 V rb.
Let m := pb_active p0.
Let h := dqdv p0.
Hypothesis OK : problem_ok p0.
Hypothesis LV : length V = pb_active p0.
Hypothesis CA : contacts_apart p0.
Hypothesis ZD : zones_defined p0.
Hypothesis ZE : zones_exact p0.
Hypothesis RG : regular_state p.
Let OKp : problem_ok p := proj1 (proj2 (update_ok p0 V rb OK LV)).
Lemma bilinear_of W U : sparse_form (combine (all_ij p0 V rb) (all_vals p0 V rb)) (coords (cut_at m U)) (coords (cut_at m W)) = curve_of p W U.
Proof.
  set (w := cut_at m W). set (u := cut_at m U). set (hw := fun i => v3_scale h (w i)).
  rewrite (all_entries p0 V rb OK LV), (VolumeProofs.sparse_form_app (lower_entries p ++ off_entries (lower_entries p))), mirrored_bilinear, VolumeProofs.sparse_form_app, !VolumeProofs.sparse_form_flat.
  unfold curve_of. change (pb_active p) with m. change (dqdv p) with h. fold w u. change (fun i => v3_scale h (w i)) with hw. change (pb_zones p) with (pb_zones p0).
  assert (EZ : rsum (map (fun z => sparse_form (scaled_entries (dqdv p0 * dqdv p0) (zone_entries (updated p0 V rb) z)) (coords u) (coords w)) (pb_zones p0)) = h * rsum (map (fun z => zone_bilinear p z u hw) (pb_zones p0))).
  { rewrite <- rsum_scale. apply rsum_ext. intros z Hz. unfold scaled_entries. rewrite sparse_scale.
    assert (SH : h * sparse_form (zone_entries p z) (coords u) (coords w) = sparse_form (zone_entries p z) (coords u) (coords hw)) by (unfold sparse_form; rewrite <- rsum_scale; apply rsum_ext; intros [[r k] a] _; unfold hw; rewrite coords_scale; ring).
    fold h. fold p. rewrite Rmult_assoc, SH. f_equal. unfold zone_entries. rewrite VolumeProofs.hessian_form by exact (ZE z Hz). unfold zone_bilinear. ring. }
  assert (EC : rsum (map (fun cg => sparse_form (scaled_entries (- (dqdv p0 * dqdv p0)) (contact_entries (pb_active p0) (upd (next_pos p0 V) rb cg))) (coords u) (coords w)) (pb_contacts p0)) = h * rsum (map (fun cg => polar (fst cg) u hw) (pb_contacts p))).
  { change (pb_contacts p) with (map (upd (next_pos p0 V) rb) (pb_contacts p0)). rewrite map_map, <- rsum_scale. apply rsum_ext. intros cg Hc. unfold scaled_entries. rewrite sparse_scale. set (E := contact_entries (pb_active p0) (upd (next_pos p0 V) rb cg)).
    assert (SHW : h * sparse_form E (coords u) (coords w) = sparse_form E (coords u) (coords hw)) by (unfold sparse_form; rewrite <- rsum_scale; apply rsum_ext; intros [[r k] a] _; unfold hw; rewrite coords_scale; ring).
    fold h. replace (- (h * h) * sparse_form E (coords u) (coords w)) with (h * - (h * sparse_form E (coords u) (coords w))) by ring. rewrite SHW. f_equal.
    destruct (apart p0 V rb OK CA RG cg Hc) as [A B]. destruct (contacts_ok p0 V rb OK LV cg Hc) as (_ & _ & _ & _ & _ & Q). destruct (Q A B) as [SY F]. fold E in SY, F. change (pb_active p0) with m in F.
    assert (Zu : forall i, (m <= i)%nat -> u i = v3_0) by apply cut_zero. assert (Zw : forall i, (m <= i)%nat -> hw i = v3_0) by (intros i L; unfold hw, w; rewrite cut_zero by exact L; apply scale_zero).
    assert (FF : forall D, (forall i, (m <= i)%nat -> D i = v3_0) -> contact_curve (fst (upd (next_pos p0 V) rb cg)) D = - sparse_form E (coords D) (coords D)).
    { intros D ZD'. specialize (F D ZD'). rewrite (matrix_form_ext _ _ (coordinate D) (coords D)) in F by (intros k _; apply coordinate_coords). rewrite matrix_form_sparse in F by (apply coords_zero, ZD'). rewrite F. ring. }
    unfold polar. rewrite (FF u Zu), (FF hw Zw), (FF (MixedProofs.blend 1 u 1 hw)) by (intros i L; unfold MixedProofs.blend; rewrite Zu, Zw by exact L; apply FieldProofs.v3_eq; cbn; ring).
    rewrite (square_of_sum E (coords u) (coords hw) (coords (MixedProofs.blend 1 u 1 hw))) by (intros k; unfold coords, MixedProofs.blend; set (a := u (k / 3)%nat); set (b := hw (k / 3)%nat); destruct a, b; destruct (k mod 3) as [|[|[|j]]]; cbn; ring).
    rewrite (symmetric_form (3 * m) E (coords hw) (coords u) (coords_zero m hw Zw) (coords_zero m u Zu) SY). field. }
  rewrite EZ, EC. destruct OKp as (H1 & H2 & H3 & H4 & H5 & H6 & H7 & _). destruct (part_lengths p OKp) as (A1 & A2 & A3 & A4 & A5 & A6). destruct (value_lengths p OKp (h * h * 1) h (at_ (pb_pos p)) (at_ (pb_vel p))) as (B1 & B2 & B3 & B4 & B5 & B6).
  assert (T1 : forall s, In s (nh_tets p) -> distinct_vertices s) by (intros s Hs; apply in_map_iff in Hs; destruct Hs as (e & <- & He); apply (H5 e); left; exact He).
  assert (T2 : forall s, In s (snh_tets p) -> distinct_vertices s) by (intros s Hs; apply in_map_iff in Hs; destruct Hs as (e & <- & He); apply (H5 e); right; exact He).
  assert (EL : lower_form (lower_entries p) (coords u) (coords w) = h * h * (mesh_curve neo_hookean (nh_tets p) h (at_ (pb_pos p)) (at_ (pb_vel p)) u w + mesh_curve stable_neo_hookean (snh_tets p) h (at_ (pb_pos p)) (at_ (pb_vel p)) u w + shell_curve (pb_shell p) (at_ (pb_pos p)) u w)
    + if is_static p then 0 else lower_form (inertia_matrix p) (coords u) (coords w)).
  { unfold lower_entries, lower_ij, lower_vals. cbv zeta. change (dqdv p) with h. rewrite !combine_app_eq by (rewrite ?app_length; lia). rewrite !lower_app. rewrite (mesh_form_tets neo_hookean _ _ _ _ _ _ _ nh_block T1), (mesh_form_tets stable_neo_hookean _ _ _ _ _ _ _ snh_block T2).
    rewrite shell_form; [|exact H7|intros t Ht; apply ShellProofs.proper_gram; destruct RG as (_ & _ & [SM _] & _); exact (SM t Ht)]. unfold mesh_curve, shell_curve, inertia_matrix. destruct (is_static p).
    - unfold ElasticSpec.lower_form. cbn [combine map]. rewrite rsum_nil. ring.
    - rewrite !combine_app_eq by (rewrite ?app_length; lia). rewrite !lower_app. ring. }
  rewrite EL. ring.
Qed.
Lemma coordinate_derive W rb' k : (k < 3 * m)%nat ->
  locally 0 (fun s => exists r, residual_at p rb' (mesh_line V W s) = Some r /\ length r = (3 * m)%nat) /\
  is_derive (fun s => residual_coordinate p rb' (mesh_line V W s) k) 0 (rsum (map (fun j => matrix_entry (combine (all_ij p0 V rb) (all_vals p0 V rb)) k j * coordinate W j) (seq 0 (3 * m)))).
Proof.
  intros K. pose proof (proj1 (update_ok p0 V rb OK LV)) as E0. destruct (ProblemProps.settled p0 V rb p OK LV E0) as (EP0 & OKs & ATX & ATV & AT).
  assert (LV' : length V = pb_active p) by exact LV.
  pose proof (regular_nearby p V W W rb' OKp LV' ATX AT RG) as RN. destruct (unit_coords k) as [U HU].
  assert (CU : forall j, coords (cut_at m U) j = unit_at k j). { intros j. rewrite FricProblemProofs.coords_cut_at, <- HU. unfold unit_at. destruct (Nat.ltb_spec j (3 * m)); [reflexivity|]. destruct (Nat.eqb_spec j k); [lia|reflexivity]. }
  assert (RL : forall s, regular_state (updated p (mesh_line V W s) rb') -> exists r, residual_at p rb' (mesh_line V W s) = Some r /\ length r = (3 * m)%nat /\ nth k r 0 = power_at p W U rb' s).
  { intros s RS. assert (LL : length (mesh_line V W s) = pb_active p) by (rewrite line_length; exact LV). destruct (update_ok p (mesh_line V W s) rb' OKp LL) as (E & OK' & _).
    destruct (residual_exists (updated p (mesh_line V W s) rb') (mesh_line V W s) U OK' LL RS) as (r & ER & LR & PR). exists r. unfold residual_at. rewrite E. split; [exact ER|]. split; [exact LR|].
    rewrite <- (power_after p V W U rb' OKp LV' ATX ATV s), <- PR. change (pb_active (updated p (mesh_line V W s) rb')) with m. rewrite (rdot_ext r _ (unit_at k)) by (intros j _; apply CU). symmetry. apply FricProblemProofs.rdot_unit. rewrite LR. exact K. }
  split; [revert RN; apply filter_imp; intros s RS; destruct (RL s RS) as (r & A & B & _); exists r; split; assumption|].
  assert (D : is_derive (power_at p W U rb') 0 (curve_of p W U)) by exact (power_derive p W U rb' OKp AT ZD RG).
  rewrite <- (bilinear_of W U) in D. rewrite (sparse_ext _ _ (coords (cut_at m W)) (unit_at k) (coords (cut_at m W)) CU (fun _ => eq_refl)) in D. rewrite <- (row_of_form (3 * m)) in D by (apply coords_zero, cut_zero).
  rewrite (rsum_ext _ (fun j => matrix_entry (combine (all_ij p0 V rb) (all_vals p0 V rb)) k j * coords (cut_at m W) j)) by (intros j Hj; apply in_seq in Hj; rewrite coords_cut by lia; reflexivity).
  eapply is_derive_ext_loc; [|exact D]. revert RN. apply filter_imp. intros s RS. destruct (RL s RS) as (r & A & _ & B). unfold residual_coordinate. rewrite A. symmetry. exact B.
Qed.
End Coordinates.
