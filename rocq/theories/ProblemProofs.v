(** Proofs about the assembled problem: updates, the objective along a line of velocities, and its first derivative. *)
From Coq Require Import Reals List Arith Bool Lra Lia FunctionalExtensionality.
From Coquelicot Require Import Coquelicot.
From Verif Require Import Vec3 Mat3 RList ElasticModel ElasticSpec ElasticProofs ElasticMeshProofs ElasticHessProofs MassModel MassSpec MassProofs AngleModel ShellModel ShellSpec ShellMeshProofs
  VolumeModel VolumeSpec.
From Verif Require Import SurfJacSpec SurfHessSpec JetProofs ContactAsmModel ContactHessModel ContactHessSpec.
From Verif Require Import ProblemModel ProblemSpec ProblemListProofs ProblemEnergyProofs.
From Verif Require ElasticProps VolumeProofs VolumeProps TimeModel TimeSpec TimeProofs NeighborModel NeighborProofs ContactMoveProofs ContactHessProps ProblemContactProofs.
Import ListNotations.
Local Open Scope R_scope.
Import ProblemContactProofs.
Local Notation lower_form := ElasticSpec.lower_form.
Local Notation power := ElasticSpec.power.

(** * Updates *)
Definition upd (X : list v3) (rb : bool) (cg : contact * mapped v3) : contact * mapped v3 := match update_contact X rb cg with Some r => r | None => cg end.
Definition updated (p : problem) (V : list v3) (rb : bool) : problem :=
  Problem (pb_nh p) (pb_snh p) (pb_shell p) (pb_shell_density p) (pb_zones p) (map (upd (next_pos p V) rb) (pb_contacts p)) (pb_gravity p) (pb_time_step p) (pb_scheme p)
      (pb_nodes p) (pb_active p) (pb_fixed_vel p) (pb_prev_force p) (next_pos p V) (next_vel p V).
Lemma next_pos_length p V : (pb_active p <= length (pb_pos p))%nat -> length (next_pos p V) = length (pb_pos p).
Proof. intros L. unfold next_pos. rewrite app_length, map_length, seq_length, skipn_length. lia. Qed.
Lemma next_vel_length p V : (pb_active p <= length (pb_vel p))%nat -> length V = pb_active p -> length (next_vel p V) = length (pb_vel p).
Proof. intros L E. unfold next_vel. rewrite app_length, firstn_length, skipn_length. lia. Qed.
Lemma nth_skip {A} (l : list A) m i d : nth i (skipn m l) d = nth (m + i) l d.
Proof. revert l. induction m as [|m IH]; intros l; [reflexivity|]. destruct l as [|a l]; [destruct i; reflexivity|]. apply IH. Qed.
Lemma nth_first {A} : forall m (l : list A) i d, (i < m)%nat -> nth i (firstn m l) d = nth i l d.
Proof. induction m as [|m IH]; intros l i d L; [lia|]. destruct l as [|a l]; [reflexivity|]. destruct i as [|i]; [reflexivity|]. cbn [firstn nth]. apply IH. lia. Qed.
Lemma next_pos_at p V i : at_ (next_pos p V) i = if Nat.ltb i (pb_active p) then
    by_coordinate (fun k => TimeModel.integrate_step (pb_scheme p) (time_step p) (node_at p k) (nth k (stack V) 0)) i else at_ (pb_pos p) i.
Proof.
  unfold at_, next_pos. set (f := by_coordinate _). destruct (Nat.ltb_spec i (pb_active p)) as [L|L].
  - rewrite app_nth1 by (rewrite map_length, seq_length; exact L). rewrite (nth_indep _ v3_0 (f 0%nat)) by (rewrite map_length, seq_length; exact L). rewrite (map_nth f), seq_nth by exact L. reflexivity.
  - rewrite app_nth2 by (rewrite map_length, seq_length; lia). rewrite map_length, seq_length, nth_skip. f_equal. lia.
Qed.
Lemma next_vel_at p V i : length V = pb_active p -> at_ (next_vel p V) i = if Nat.ltb i (pb_active p) then at_ V i else at_ (pb_vel p) i.
Proof.
  intros E. unfold at_, next_vel. assert (LF : length (firstn (pb_active p) V) = pb_active p) by (rewrite firstn_length; lia). destruct (Nat.ltb_spec i (pb_active p)) as [L|L].
  - rewrite app_nth1 by lia. apply nth_first, L.
  - rewrite app_nth2 by lia. rewrite LF, nth_skip. f_equal. lia.
Qed.
Lemma update_ok p V rb : problem_ok p -> length V = pb_active p -> update_problem p V rb = Some (updated p V rb) /\ problem_ok (updated p V rb) /\
  (forall cg, In cg (pb_contacts p) -> update_contact (next_pos p V) rb cg = Some (upd (next_pos p V) rb cg)) /\
  (forall cg, In cg (pb_contacts (updated p V rb)) -> ContactMoveProofs.placed (fst cg) (next_pos p V)).
Proof.
  intros (H1 & H2 & H3 & H4 & H5 & H6 & H7 & H8 & H9 & H10) LV. pose proof (next_pos_length p V H1) as LX.
  assert (U : forall cg, In cg (pb_contacts p) -> update_contact (next_pos p V) rb cg = Some (upd (next_pos p V) rb cg) /\ contact_ready (length (pb_pos p)) (pb_active p) (upd (next_pos p V) rb cg) /\ ContactMoveProofs.placed (fst (upd (next_pos p V) rb cg)) (next_pos p V)).
  { intros cg Hc. destruct (contact_updates cg _ _ _ rb (H9 cg Hc) LX) as (c' & g' & E & _ & _ & RD & AT & _). unfold upd. rewrite E. split; [reflexivity|]. split; [exact RD|exact AT]. }
  split; [|split; [|split]].
  - unfold update_problem. rewrite (all_some_ok _ (upd (next_pos p V) rb)) by (intros cg Hc; apply (U cg Hc)). reflexivity.
  - unfold problem_ok. cbn [updated pb_pos pb_active pb_vel pb_prev_force pb_shell_density pb_shell pb_nh pb_snh pb_zones pb_contacts pb_scheme]. rewrite LX.
    repeat (split; [first [assumption|rewrite next_vel_length by lia; lia]|]). split; [|exact H10]. intros cg Hc. apply in_map_iff in Hc. destruct Hc as (cg0 & <- & Hc). apply (U cg0 Hc).
  - intros cg Hc. apply (U cg Hc).
  - intros cg Hc. cbn [updated pb_contacts] in Hc. apply in_map_iff in Hc. destruct Hc as (cg0 & <- & Hc). apply (U cg0 Hc).
Qed.
Lemma next_pos_again p V rb V' : (pb_active p <= length (pb_pos p))%nat -> next_pos (updated p V rb) V' = next_pos p V'.
Proof.
  intros L. apply list_at; [rewrite !next_pos_length; cbn [updated pb_pos pb_active]; rewrite ?next_pos_length; auto; lia|]. intros i _. rewrite !next_pos_at. cbn [updated pb_pos pb_active pb_scheme]. rewrite next_pos_at.
  change (time_step (updated p V rb)) with (time_step p). change (node_at (updated p V rb)) with (node_at p). destruct (Nat.ltb i (pb_active p)); reflexivity.
Qed.
Lemma next_vel_again p V rb V' : (pb_active p <= length (pb_vel p))%nat -> length V = pb_active p -> length V' = pb_active p -> next_vel (updated p V rb) V' = next_vel p V'.
Proof.
  intros L E E'. apply list_at; [rewrite !next_vel_length; cbn [updated pb_vel pb_active]; rewrite ?next_vel_length; auto; lia|]. intros i _. rewrite !next_vel_at by exact E'. cbn [updated pb_vel pb_active]. rewrite next_vel_at by exact E. destruct (Nat.ltb i (pb_active p)); reflexivity.
Qed.
(** * A line of velocities *)
Definition cut_at (m : nat) (W : nat -> v3) (i : nat) : v3 := if Nat.ltb i m then W i else v3_0.
Lemma cut_zero m W i : (m <= i)%nat -> cut_at m W i = v3_0.
Proof. intros L. unfold cut_at. destruct (Nat.ltb_spec i m); [lia|reflexivity]. Qed.
Lemma scale_zero h : v3_scale h v3_0 = v3_0.
Proof. unfold v3_scale, v3_0. cbn [vx vy vz]. f_equal; ring. Qed.
Section Settled.
Variables (p : problem) (V : list v3) (W : nat -> v3).
Let n := length (pb_pos p).
Let m := pb_active p.
Let h := dqdv p.
Let w := cut_at m W.
Let hw : nat -> v3 := fun i => v3_scale h (w i).
Let x := at_ (pb_pos p).
Let v := at_ (pb_vel p).
Hypothesis OK : problem_ok p.
Hypothesis LV : length V = m.
Hypothesis ATX : next_pos p V = pb_pos p.
Hypothesis ATV : next_vel p V = pb_vel p.
Hypothesis ATC : forall cg, In cg (pb_contacts p) -> ContactMoveProofs.placed (fst cg) (pb_pos p).
Lemma w_zero i : (m <= i)%nat -> w i = v3_0. Proof. apply cut_zero. Qed.
Lemma hw_zero i : (m <= i)%nat -> hw i = v3_0. Proof. intros L. unfold hw. rewrite w_zero by exact L. apply scale_zero. Qed.
Lemma le_mn : (m <= n)%nat. Proof. apply OK. Qed.
Lemma pos_line s : next_pos p (mesh_line V W s) = mesh_line (pb_pos p) hw s.
Proof.
  apply list_at; [rewrite next_pos_length, line_length by exact le_mn; reflexivity|]. intros i L. rewrite next_pos_length in L by exact le_mn.
  rewrite next_pos_at, at_line. fold m. destruct (Nat.ltb_spec i (length (pb_pos p))) as [_|?]; [|lia].
  assert (E : at_ (pb_pos p) i = at_ (next_pos p V) i) by (rewrite ATX; reflexivity). rewrite E, next_pos_at. fold m. destruct (Nat.ltb_spec i m) as [I|I].
  - assert (Q : forall k, (3 * i <= k < 3 * i + 3)%nat -> nth k (stack (mesh_line V W s)) 0 = nth k (stack V) 0 + s * coords w k).
    { intros k K. rewrite !nth_stack. assert (D : (k / 3 = i)%nat) by (symmetry; apply (Nat.div_unique k 3 i (k - 3 * i)); lia). unfold coords. rewrite D. rewrite at_line. destruct (Nat.ltb_spec i (length V)) as [_|?]; [|lia].
      unfold w, cut_at. destruct (Nat.ltb_spec i m) as [_|?]; [|lia]. unfold v3_get. destruct (k mod 3) as [|[|r]]; unfold v3_line, v3_add, v3_scale; cbn [vx vy vz]; ring. }
    assert (SC : TimeSpec.scheme_ok (pb_scheme p)) by apply OK.
    assert (Z : forall j, (j < 3)%nat -> coords w (3 * i + j) = v3_get (w i) j) by (intros j J; apply coords_at, J).
    pose proof (Z 0%nat ltac:(lia)) as Z0. pose proof (Z 1%nat ltac:(lia)) as Z1. pose proof (Z 2%nat ltac:(lia)) as Z2. rewrite Nat.add_0_r in Z0. cbn [v3_get] in Z0, Z1, Z2.
    unfold by_coordinate, v3_line, v3_add, v3_scale. cbn [vx vy vz]. rewrite !Q by lia. rewrite Z0, Z1, Z2. unfold hw, v3_scale. cbn [vx vy vz].
    assert (IS : forall k a b, TimeModel.integrate_step (pb_scheme p) (time_step p) (node_at p k) (a + s * b) = TimeModel.integrate_step (pb_scheme p) (time_step p) (node_at p k) a + s * (h * b)).
    { intros k a b. rewrite (TimeProofs.integrate_slope _ _ _ (a + s * b) SC), (TimeProofs.integrate_slope _ _ _ a SC). unfold h, dqdv, force_mul. ring. }
    rewrite !IS. reflexivity.
  - rewrite hw_zero by exact I. unfold v3_line, v3_add, v3_scale, v3_0. destruct (at_ (pb_pos p) i) as [a b c]. cbn [vx vy vz]. f_equal; ring.
Qed.
Lemma vel_line s : next_vel p (mesh_line V W s) = mesh_line (pb_vel p) w s.
Proof.
  assert (LW : length (pb_vel p) = n) by apply OK. pose proof le_mn as L0. assert (LL : length (mesh_line V W s) = m) by (rewrite line_length; exact LV).
  apply list_at; [rewrite next_vel_length, line_length; [reflexivity|fold m; lia|exact LL]|]. intros i L. rewrite next_vel_length in L; [|fold m; lia|exact LL].
  rewrite next_vel_at by exact LL. rewrite !at_line. fold m. destruct (Nat.ltb_spec i (length (pb_vel p))) as [_|?]; [|lia].
  assert (E : at_ (pb_vel p) i = at_ (next_vel p V) i) by (rewrite ATV; reflexivity). rewrite E, next_vel_at by exact LV. fold m. destruct (Nat.ltb_spec i m) as [I|I].
  - destruct (Nat.ltb_spec i (length V)) as [_|?]; [|lia]. unfold w, cut_at. destruct (Nat.ltb_spec i m) as [_|?]; [reflexivity|lia].
  - rewrite w_zero by exact I. unfold v3_line, v3_add, v3_scale, v3_0. destruct (at_ (pb_vel p) i) as [a b c]. cbn [vx vy vz]. f_equal; ring.
Qed.
Lemma at_pos_line s : at_ (next_pos p (mesh_line V W s)) = move x hw s.
Proof. rewrite pos_line. apply at_line_move. intros i L. apply hw_zero. pose proof le_mn. fold n in L. lia. Qed.
Lemma at_vel_line s : at_ (next_vel p (mesh_line V W s)) = move v w s.
Proof. rewrite vel_line. apply at_line_move. intros i L. apply w_zero. pose proof le_mn. assert (length (pb_vel p) = n) by apply OK. lia. Qed.
(** The objective along the line. *)
Definition prev_part (s : R) : R := if Rlt_dec 0 (prev_force_mul p) then rdot (pb_prev_force p) (coords (move v w s)) * prev_force_mul p * time_step p else 0.
Definition energy_part (rb : bool) (s : R) : ext :=
  ext_add (ext_add (ext_add (ext_add (ext_add (ext_add (mesh_energy neo_hookean (nh_tets p) h (move x hw s) (move v w s)) (mesh_energy stable_neo_hookean (snh_tets p) h (move x hw s) (move v w s)))
        (Fin (gravity_energy (1 / 4) (pb_gravity p) (nh_masses p) (move x hw s) + gravity_energy (1 / 4) (pb_gravity p) (snh_masses p) (move x hw s))))
        (shell_energy (pb_shell p) h (move x hw s) (move v w s))) (Fin (gravity_energy (1 / 3) (pb_gravity p) (shell_masses p) (move x hw s))))
        (Fin (rsum (map (fun z => volume_penalty z (move x hw s)) (pb_zones p))))) (Fin (rsum (map (fun cg => energy_at (fst cg) rb (mesh_line (pb_pos p) hw s)) (pb_contacts p)))).
Definition inertia_part (s : R) : R :=
  inertia_energy (1 / 4) (nh_masses p) (cur_vel p) (move v w s) + inertia_energy (1 / 4) (snh_masses p) (cur_vel p) (move v w s) + inertia_energy (1 / 3) (shell_masses p) (cur_vel p) (move v w s).
Definition objective_part (rb : bool) (s : R) : ext :=
  let e := ext_add (Fin (prev_part s)) (energy_part rb s) in if is_static p then e else ext_add e (Fin (inertia_part s)).
Lemma objective_line rb s : objective_at p rb (mesh_line V W s) = Some (objective_part rb s).
Proof.
  assert (LL : length (mesh_line V W s) = pb_active p) by (rewrite line_length; exact LV).
  destruct (update_ok p (mesh_line V W s) rb OK LL) as (E & OK' & UC & _). unfold objective_at. rewrite E. set (p' := updated p (mesh_line V W s) rb) in *.
  assert (EX : at_ (pb_pos p') = move x hw s) by apply at_pos_line. assert (EV : at_ (pb_vel p') = move v w s) by apply at_vel_line.
  unfold compute_objective, problem_energy.
  assert (CC : NeighborModel.all_some (map (fun c => contact_constraint (fst c)) (pb_contacts p')) = Some (map (fun cg => energy_at (fst cg) rb (mesh_line (pb_pos p) hw s)) (pb_contacts p))).
  { change (pb_contacts p') with (map (upd (next_pos p (mesh_line V W s)) rb) (pb_contacts p)). rewrite map_map. apply all_some_ok. intros cg Hc.
    assert (RD : contact_ready n m cg) by (apply OK, Hc). pose proof (UC cg Hc) as U. unfold update_contact in U. unfold energy_at. rewrite <- pos_line.
    destruct (update_state (fst cg) (next_pos p (mesh_line V W s)) rb) as [c'|] eqn:E1; [|discriminate]. destruct (update_constraint_gradient (snd cg) c') as [g'|]; [|discriminate]. injection U as U. rewrite <- U. cbn [fst].
    destruct cg as [c g]. destruct RD as (SH & _). destruct (ContactMoveProofs.update_places c _ _ rb c' SH E1) as (SH' & _). destruct (contact_value c' n SH') as [e Ee]. rewrite Ee. reflexivity. }
  rewrite CC. cbn [option_map]. f_equal. unfold objective_part, energy_part, inertia_part, prev_part, problem_inertia. rewrite EX, EV.
  change (nh_tets p') with (nh_tets p). change (snh_tets p') with (snh_tets p). change (dqdv p') with h. change (pb_gravity p') with (pb_gravity p). change (nh_masses p') with (nh_masses p). change (snh_masses p') with (snh_masses p).
  change (shell_masses p') with (shell_masses p). change (pb_shell p') with (pb_shell p). change (pb_zones p') with (pb_zones p). change (is_static p') with (is_static p). change (cur_vel p') with (cur_vel p).
  change (pb_prev_force p') with (pb_prev_force p). change (prev_force_mul p') with (prev_force_mul p). change (time_step p') with (time_step p).
  assert (PR : rsum (map (fun rv => fst rv * snd rv) (combine (pb_prev_force p) (stack (pb_vel p')))) = rdot (pb_prev_force p) (coords (move v w s))).
  { rewrite combine_dot; [apply rdot_ext; intros k _; rewrite nth_stack, EV; reflexivity|]. rewrite stack_length. assert (A : length (pb_vel p') = length (pb_pos p')) by apply OK'. rewrite A. change (pb_pos p') with (next_pos p (mesh_line V W s)). rewrite next_pos_length by exact le_mn. symmetry. apply OK. }
  rewrite PR. reflexivity.
Qed.
(** Its first and second derivative. *)
Hypothesis ZD : zones_defined p.
Hypothesis RG : regular_state p.
Definition grav (share : R) (e : melem) (_ : nat) : v3 := v3_neg (v3_scale (vertex_mass share e) (pb_gravity p)).
Definition mom (share : R) (e : melem) (c : nat) : v3 := v3_scale (vertex_mass share e) (v3_sub (v c) (cur_vel p c)).
Definition force_power (U : nat -> v3) : R :=
  mesh_power neo_hookean (nh_tets p) h x v U + mesh_power stable_neo_hookean (snh_tets p) h x v U
  + elems_power_of (grav (1 / 4)) (nh_masses p) U + elems_power_of (grav (1 / 4)) (snh_masses p) U
  + shell_power (pb_shell p) h x v U + elems_power_of (grav (1 / 3)) (shell_masses p) U
  + rsum (map (fun z => zone_power x z U) (pb_zones p)) + rsum (map (fun cg => contact_power (fst cg) U) (pb_contacts p)).
Definition momentum_power (U : nat -> v3) : R :=
  elems_power_of (mom (1 / 4)) (nh_masses p) U + elems_power_of (mom (1 / 4)) (snh_masses p) U + elems_power_of (mom (1 / 3)) (shell_masses p) U.
Definition prev_power (U : nat -> v3) : R := if Rlt_dec 0 (prev_force_mul p) then rdot (pb_prev_force p) (coords U) * prev_force_mul p * time_step p else 0.
Definition objective_power : R := prev_power w + h * force_power w + (if is_static p then 0 else momentum_power w).
Definition energy_curve : R :=
  h * h * (mesh_curve neo_hookean (nh_tets p) h x v w w + mesh_curve stable_neo_hookean (snh_tets p) h x v w w + shell_curve (pb_shell p) x w w)
  + rsum (map (fun z => zone_curve x z hw) (pb_zones p)) + rsum (map (fun cg => contact_curve (fst cg) hw) (pb_contacts p)).
Definition inertia_matrix : list (nat * nat * R) :=
  combine (inertia_indices (nh_masses p) 0 0) (inertia_values (1 / 4) (nh_masses p) 1) ++ combine (inertia_indices (snh_masses p) 0 0) (inertia_values (1 / 4) (snh_masses p) 1)
  ++ combine (inertia_indices (shell_masses p) 0 0) (inertia_values (1 / 3) (shell_masses p) 1).
Definition objective_curve : R := energy_curve + (if is_static p then 0 else lower_form inertia_matrix (coords w) (coords w)).
Lemma nh_gradients s : In s (nh_tets p) -> exists g, tet_gradient_with_damping neo_hookean s h x v = Some g.
Proof. intros H. apply in_map_iff in H. destruct H as (e & <- & He). destruct RG as (A & _). destruct (A e He) as [g G]. exact (ElasticProps.damped_exists _ _ h x v g G). Qed.
Lemma snh_gradients s : In s (snh_tets p) -> exists g, tet_gradient_with_damping stable_neo_hookean s h x v = Some g.
Proof. intros H. apply in_map_iff in H. destruct H as (e & <- & He). destruct RG as (_ & A & _). destruct (A e He) as [g G]. exact (ElasticProps.damped_exists _ _ h x v g G). Qed.
Lemma sparse_dot_scale L (c : R) u : sparse_dot L (fun k => c * u k) = c * sparse_dot L u.
Proof. unfold sparse_dot. rewrite <- rsum_scale. apply rsum_ext. intros t _. ring. Qed.
Lemma zone_power_scale z : zone_power x z hw = h * zone_power x z w.
Proof.
  unfold zone_power. rewrite <- !VolumeProofs.jacobian_dot, <- sparse_dot_scale. unfold sparse_dot. apply rsum_ext. intros t _. f_equal. apply coords_scale.
Qed.
Lemma power_scale f c (U : nat -> v3) : power f (fun i => v3_scale c (U i)) = c * power f U.
Proof. rewrite <- !rdot_stack. unfold rdot. rewrite <- rsum_scale. apply rsum_ext. intros k _. rewrite coords_scale. ring. Qed.
Lemma contact_power_scale cg : In cg (pb_contacts p) -> contact_power (fst cg) hw = h * contact_power (fst cg) w.
Proof.
  intros H. destruct cg as [c g]. assert (RD : contact_ready n m (c, g)) by (apply OK, H). destruct RD as (SH & _ & _ & FX). cbn [fst].
  destruct (contact_force_on c n (repeat v3_0 n) SH (repeat_length _ _)) as (f & _ & _ & P).
  assert (Q : forall U, (forall i, (m <= i)%nat -> U i = v3_0) -> contact_power c U = power f U).
  { intros U Z. rewrite (P U (ContactHessProps.fixed_respects c m U FX Z)). replace (power (repeat v3_0 n) U) with 0; [ring|]. rewrite power_lsum. symmetry. apply lsum_zero. intros i. unfold v3_dot, v3_0. cbn [vx vy vz]. ring. }
  rewrite (Q hw hw_zero), (Q w w_zero). apply power_scale.
Qed.
Lemma objective_jet rb : exists a, ejet (objective_part rb) a objective_power objective_curve.
Proof.
  destruct OK as (H1 & H2 & H3 & H4 & H5 & H6 & H7 & H8 & H9 & H10). pose proof RG as (_ & _ & SM & CR).
  assert (CJ : exists a, jet (fun s => rsum (map (fun cg => energy_at (fst cg) rb (mesh_line (pb_pos p) hw s)) (pb_contacts p))) a (rsum (map (fun cg => contact_power (fst cg) hw) (pb_contacts p))) (rsum (map (fun cg => contact_curve (fst cg) hw) (pb_contacts p)))).
  { exists (rsum (map (fun cg => energy_at (fst cg) rb (mesh_line (pb_pos p) hw 0)) (pb_contacts p))). apply (jet_rsum (fun cg s => energy_at (fst cg) rb (mesh_line (pb_pos p) hw s))). intros [c g] Hc. destruct (H9 _ Hc) as (SH & PL & _).
    destruct (contact_jet c n (pb_pos p) hw rb SH PL (ATC _ Hc) (CR _ Hc) eq_refl) as [a J]. cbn [fst]. rewrite (jet_value _ _ _ _ J). exact J. }
  destruct CJ as [ca CJ].
  assert (ZJ : jet (fun s => rsum (map (fun z => volume_penalty z (move x hw s)) (pb_zones p))) (rsum (map (fun z => volume_penalty z x) (pb_zones p))) (rsum (map (fun z => zone_power x z hw) (pb_zones p))) (rsum (map (fun z => zone_curve x z hw) (pb_zones p)))).
  { apply (jet_rsum (fun z s => volume_penalty z (move x hw s))). intros z Hz. destruct (ZD z Hz). apply volume_jet; assumption. }
  pose proof (mesh_jet h x v w neo_hookean (nh_tets p) nh_good nh_smooth nh_gradients) as J1.
  pose proof (mesh_jet h x v w stable_neo_hookean (snh_tets p) snh_good snh_smooth snh_gradients) as J2.
  pose proof (shell_jet h x v w (pb_shell p) n H6 H7 SM) as J3.
  pose proof (gravity_jet h x w (1 / 4) (pb_gravity p) (nh_masses p)) as G1. pose proof (gravity_jet h x w (1 / 4) (pb_gravity p) (snh_masses p)) as G2. pose proof (gravity_jet h x w (1 / 3) (pb_gravity p) (shell_masses p)) as G3.
  fold hw in J1, J2, J3, G1, G2, G3.
  pose proof (ejet_add _ _ _ _ _ _ _ _ (ejet_add _ _ _ _ _ _ _ _ (ejet_add _ _ _ _ _ _ _ _ (ejet_add _ _ _ _ _ _ _ _ (ejet_add _ _ _ _ _ _ _ _ (ejet_add _ _ _ _ _ _ _ _ J1 J2)
    (ejet_fin _ _ _ _ (jet_plus _ _ _ _ _ _ _ _ G1 G2))) J3) (ejet_fin _ _ _ _ G3)) (ejet_fin _ _ _ _ ZJ)) (ejet_fin _ _ _ _ CJ)) as EJ.
  assert (PJ : exists a, jet prev_part a (prev_power w) 0).
  { unfold prev_part, prev_power. destruct (Rlt_dec 0 (prev_force_mul p)) as [_|_]; [|exists 0; apply jet_const].
    exists (rdot (pb_prev_force p) (coords v) * prev_force_mul p * time_step p). refine (jet_eq _ _ _ _ _ _ _ (jet_ext _ _ _ _ _ _ (jet_poly (rdot (pb_prev_force p) (coords v) * prev_force_mul p * time_step p) (rdot (pb_prev_force p) (coords w) * prev_force_mul p * time_step p) 0)) _ _ _); [|reflexivity|reflexivity|ring].
    intros s. cbv beta. assert (E : rdot (pb_prev_force p) (coords (move v w s)) = rdot (pb_prev_force p) (coords v) + s * rdot (pb_prev_force p) (coords w)); [|rewrite E; ring].
    unfold rdot. rewrite <- rsum_scale, <- rsum_plus. apply rsum_ext. intros k _. rewrite coords_line. ring. }
  destruct PJ as [pa PJ]. pose proof (ejet_add _ _ _ _ _ _ _ _ (ejet_fin _ _ _ _ PJ) EJ) as OJ.
  assert (ZP : rsum (map (fun z => zone_power x z hw) (pb_zones p)) = h * rsum (map (fun z => zone_power x z w) (pb_zones p))) by (rewrite <- rsum_scale; apply rsum_ext; intros z _; apply zone_power_scale).
  assert (CP : rsum (map (fun cg => contact_power (fst cg) hw) (pb_contacts p)) = h * rsum (map (fun cg => contact_power (fst cg) w) (pb_contacts p))) by (rewrite <- rsum_scale; apply rsum_ext; intros cg Hc; apply contact_power_scale, Hc).
  unfold objective_part, objective_power, objective_curve. destruct (is_static p).
  - eexists. refine (ejet_eq _ _ _ _ _ _ _ OJ eq_refl _ _).
    + rewrite ZP, CP. unfold force_power, grav. ring.
    + unfold energy_curve. ring.
  - pose proof (jet_plus _ _ _ _ _ _ _ _ (jet_plus _ _ _ _ _ _ _ _ (inertia_jet v w (1 / 4) (nh_masses p) (cur_vel p)) (inertia_jet v w (1 / 4) (snh_masses p) (cur_vel p))) (inertia_jet v w (1 / 3) (shell_masses p) (cur_vel p))) as IJ.
    eexists. refine (ejet_eq _ _ _ _ _ _ _ (ejet_add _ _ _ _ _ _ _ _ OJ (ejet_fin _ _ _ _ IJ)) eq_refl _ _).
    + rewrite ZP, CP. unfold force_power, grav, momentum_power, mom. ring.
    + assert (LA : forall a b, lower_form (a ++ b) (coords w) (coords w) = lower_form a (coords w) (coords w) + lower_form b (coords w) (coords w)) by (intros a b; unfold ElasticSpec.lower_form; rewrite map_app, rsum_app; reflexivity).
      unfold energy_curve, inertia_matrix. rewrite !LA. ring.
Qed.
(** * The residual *)
Lemma tet_cells e k : in_range k (fst e) -> forall c, In c (cell (tet_mass e)) -> (c < k)%nat.
Proof. destruct e as [s d]. intros (A & B & C & D) c Hc. cbn in Hc. repeat (destruct Hc as [<-|Hc]; [assumption|]). destruct Hc. Qed.
Lemma nh_cells : cells_in_range n (nh_masses p).
Proof. intros e c He Hc. apply in_map_iff in He. destruct He as (a & <- & Ha). apply (tet_cells a); [|exact Hc]. apply OK. left. exact Ha. Qed.
Lemma snh_cells : cells_in_range n (snh_masses p).
Proof. intros e c He Hc. apply in_map_iff in He. destruct He as (a & <- & Ha). apply (tet_cells a); [|exact Hc]. apply OK. right. exact Ha. Qed.
Lemma shell_cells : cells_in_range n (shell_masses p).
Proof.
  intros e c He Hc. apply in_map_iff in He. destruct He as ([t d] & <- & Ha). apply in_combine_l in Ha. assert (SR : shell_in_range n (pb_shell p)) by apply OK. destruct SR as [SR _]. destruct (SR t Ha) as (A & B & C).
  cbn in Hc. repeat (destruct Hc as [<-|Hc]; [assumption|]). destruct Hc.
Qed.
Lemma elems_stage f es r : cells_in_range n es -> length r = n -> exists r', add_elems es f r = Some r' /\ length r' = n /\ forall U, power r' U = power r U + elems_power_of f es U.
Proof.
  intros C L. destruct (add_elems_some f es n C r L) as (r' & E & L'). exists r'. split; [exact E|]. split; [exact L'|]. intros U. rewrite !power_lsum. destruct (add_elems_lsum (fun i a => v3_dot a (U i)) f es (dot_additive U) r r' E) as [_ Q]. rewrite Q. reflexivity.
Qed.
Lemma mesh_stage M ss r : (forall s, In s ss -> exists g, tet_gradient_with_damping M s h x v = Some g) -> (forall s, In s ss -> in_range n s) -> length r = n ->
  exists r', add_mesh_gradient M ss h x v r = Some r' /\ length r' = n /\ forall U, power r' U = power r U + mesh_power M ss h x v U.
Proof.
  intros G IR L. destruct (mesh_gradient_exists M ss h x v G r) as (r' & E & L'); [rewrite L; exact IR|]. exists r'. split; [exact E|]. split; [congruence|]. intros U. rewrite !power_lsum.
  destruct (mesh_scatter (fun i a => v3_dot a (U i)) M ss h x v (dot_additive U) r r' E) as (_ & Q & _). rewrite Q. reflexivity.
Qed.
Lemma shell_stage r : length r = n -> exists r', add_shell_gradient (pb_shell p) h x v r = Some r' /\ length r' = n /\ forall U, power r' U = power r U + shell_power (pb_shell p) h x v U.
Proof.
  intros L. assert (SR : shell_in_range n (pb_shell p)) by apply OK. destruct SR as [HT HE].
  assert (IR : forall q, In q (shell_forces (pb_shell p) h x v) -> (fst q < n)%nat).
  { intros q Hq. unfold shell_forces in Hq. apply in_app_or in Hq. destruct Hq as [Hq|Hq]; apply in_flat_map in Hq; destruct Hq as (a & Ha & Hq).
    - destruct (HT a Ha) as (A0 & A1 & A2). unfold membrane_forces in Hq. cbv zeta in Hq. cbn [In] in Hq. repeat destruct Hq as [<-|Hq]; cbn [fst]; try assumption. contradiction.
    - unfold bending_forces in Hq. cbv zeta in Hq. apply in_map_iff in Hq. destruct Hq as (i & <- & Hi). cbn [fst]. apply (HE a); [exact Ha|]. unfold edge_vertices. apply in_map. exact Hi. }
  destruct (scatter_some (shell_forces (pb_shell p) h x v) r) as (r' & E & L'); [rewrite L; exact IR|]. exists r'. split; [exact E|]. split; [congruence|]. intros U. rewrite !power_lsum.
  destruct (scatter_lsum (fun i a => v3_dot a (U i)) (shell_forces (pb_shell p) h x v) (dot_additive U) r r' E) as [_ Q]. rewrite Q. reflexivity.
Qed.
Lemma pressure_stage : forall zs, (forall z, In z zs -> tris_in_range n (topo z)) -> forall f, length f = (3 * n)%nat ->
  exists f', subtract_pressure_forces zs x f = Some f' /\ length f' = (3 * n)%nat /\ forall U, rdot f' (coords U) = rdot f (coords U) + rsum (map (fun z => zone_power x z U) zs).
Proof.
  induction zs as [|z zs IH]; intros H f L; cbn [subtract_pressure_forces].
  - exists f. split; [reflexivity|]. split; [exact L|]. intros U. cbn [map]. rewrite rsum_nil. ring.
  - assert (HZ := H z (or_introl eq_refl)). destruct (VolumeProps.pressure_force_adds_gradient z x n f HZ L) as (f1 & E1 & L1 & N1). rewrite E1. cbn [bind].
    destruct (IH (fun z' Hz => H z' (or_intror Hz)) f1 L1) as (f' & E & L' & P). exists f'. split; [exact E|]. split; [exact L'|]. intros U. rewrite P. cbn [map]. rewrite rsum_cons.
    assert (Q : rdot f1 (coords U) = rdot f (coords U) + zone_power x z U); [|rewrite Q; ring].
    unfold zone_power. rewrite <- VolumeProofs.jacobian_dot. set (T := combine _ _) in *.
    assert (CR : forall t, In t T -> (fst t < 3 * n)%nat).
    { intros [c a] Hc. apply in_combine_l in Hc. unfold vol_jacobian_cols in Hc. apply in_flat_map in Hc. destruct Hc as (t & Ht & Hc). apply in_flat_map in Hc. destruct Hc as (vi & Hv & Hc). apply in_map_iff in Hc. destruct Hc as (j & <- & Hj).
      apply in_seq in Hj. destruct (HZ t Ht) as (A & B & C). cbn [fst]. assert (tri_ix t vi < n)%nat by (destruct vi as [|[|vi]]; assumption). lia. }
    unfold rdot. rewrite L1, L. rewrite (rsum_ext _ (fun k => nth k f 0 * coords U k + rsum (map (fun t => if Nat.eqb k (fst t) then snd t * coords U k else 0) T))).
    + rewrite rsum_plus. f_equal. rewrite rsum_swap. unfold sparse_dot. apply rsum_ext. intros t Ht. exact (rsum_seq_single (fun k => snd t * coords U k) (3 * n) (fst t) (CR t Ht)).
    + intros k _. rewrite N1, Rmult_plus_distr_r. f_equal. unfold sparse_dot. rewrite Rmult_comm, <- rsum_scale. apply rsum_ext. intros t _. rewrite (Nat.eqb_sym (fst t) k). destruct (Nat.eqb k (fst t)); ring.
Qed.
Lemma forces_exist : exists f, subtract_forces p = Some f /\ length f = (3 * n)%nat /\ forall U, (forall i, (m <= i)%nat -> U i = v3_0) -> rdot f (coords U) = force_power U.
Proof.
  unfold subtract_forces. fold x v h. change (pb_size p) with n.
  assert (T1 : forall s, In s (nh_tets p) -> in_range n s) by (intros s Hs; apply in_map_iff in Hs; destruct Hs as (e & <- & He); apply OK; left; exact He).
  assert (T2 : forall s, In s (snh_tets p) -> in_range n s) by (intros s Hs; apply in_map_iff in Hs; destruct Hs as (e & <- & He); apply OK; right; exact He).
  destruct (mesh_stage neo_hookean (nh_tets p) (repeat v3_0 n) nh_gradients T1 (repeat_length _ _)) as (r1 & E1 & L1 & P1). rewrite E1. cbn [bind].
  destruct (mesh_stage stable_neo_hookean (snh_tets p) r1 snh_gradients T2 L1) as (r2 & E2 & L2 & P2). rewrite E2. cbn [bind].
  destruct (elems_stage (grav (1 / 4)) (nh_masses p) r2 nh_cells L2) as (r3 & E3 & L3 & P3). unfold add_gravity_gradient. unfold grav in E3. rewrite E3. cbn [bind].
  destruct (elems_stage (grav (1 / 4)) (snh_masses p) r3 snh_cells L3) as (r4 & E4 & L4 & P4). unfold grav in E4. rewrite E4. cbn [bind].
  destruct (shell_stage r4 L4) as (r5 & E5 & L5 & P5). rewrite E5. cbn [bind].
  destruct (elems_stage (grav (1 / 3)) (shell_masses p) r5 shell_cells L5) as (r6 & E6 & L6 & P6). unfold grav in E6. rewrite E6. cbn [bind].
  assert (ZR : forall z, In z (pb_zones p) -> tris_in_range n (topo z)) by apply OK.
  destruct (pressure_stage (pb_zones p) ZR (stack r6)) as (f7 & E7 & L7 & P7); [rewrite stack_length, L6; reflexivity|]. rewrite E7. cbn [bind].
  destruct (stack_unstack n f7 L7) as [SU LU]. assert (CR : forall cg, In cg (pb_contacts p) -> contact_ready n m cg) by apply OK.
  destruct (contact_forces_on (pb_contacts p) n m CR (unstack f7) LU) as (r8 & E8 & L8 & P8). rewrite E8. cbn [option_map].
  exists (stack r8). split; [reflexivity|]. split; [rewrite stack_length, L8; reflexivity|]. intros U Z. rewrite rdot_stack, (P8 U Z), <- (rdot_stack (unstack f7)), SU, P7, rdot_stack, P6, P5, P4, P3, P2, P1.
  replace (power (repeat v3_0 n) U) with 0; [unfold force_power; ring|]. rewrite power_lsum. symmetry. apply lsum_zero. intros i. unfold v3_dot, v3_0. cbn [vx vy vz]. ring.
Qed.
Lemma zip_dot a b d : forall r q u, length q = length r -> rdot (NeighborModel.zip_update (fun c q => (c * a + q * b) * d) r q) u = d * (a * rdot r u + b * rdot q u).
Proof.
  induction r as [|c r IH]; intros [|e q] u L; try discriminate; cbn [NeighborModel.zip_update]; [unfold rdot; cbn [length seq map]; rewrite rsum_nil; ring|]. rewrite !rdot_cons, IH by (cbn in L; lia). ring.
Qed.
Lemma residual_exists : exists r, residual p = Some r /\ length r = (3 * m)%nat /\ rdot r (coords w) = objective_power.
Proof.
  destruct forces_exist as (f & E & L & P). unfold residual, vertex_residual. rewrite E. cbn [bind].
  set (r := if Rlt_dec 0 (prev_force_mul p) then _ else _). assert (LP : length (pb_prev_force p) = (3 * n)%nat) by apply OK.
  assert (LR : length r = (3 * n)%nat) by (unfold r; destruct (Rlt_dec 0 (prev_force_mul p)); [rewrite NeighborProofs.zip_update_length; exact L|rewrite map_length; exact L]).
  assert (PR : rdot r (coords w) = prev_power w + h * force_power w).
  { rewrite <- (P w w_zero). unfold r, prev_power. destruct (Rlt_dec 0 (prev_force_mul p)); [rewrite zip_dot by congruence|rewrite rdot_scale]; unfold h, dqdv; ring. }
  assert (Z : forall k, (3 * m <= k)%nat -> coords w k = 0).
  { intros k K. unfold coords. rewrite w_zero; [unfold v3_get, v3_0; destruct (k mod 3) as [|[|q]]; reflexivity|]. apply Nat.div_le_lower_bound; lia. }
  pose proof le_mn as L0. unfold objective_power. destruct (is_static p).
  - cbn [option_map]. exists (firstn (3 * m) r). split; [reflexivity|]. split; [rewrite firstn_length; lia|]. rewrite rdot_firstn by exact Z. rewrite PR. ring.
  - unfold add_momentum_diff. destruct (stack_unstack n r LR) as [SU LU]. unfold add_inertia_gradient.
    destruct (elems_stage (mom (1 / 4)) (nh_masses p) (unstack r) nh_cells LU) as (r1 & E1 & L1 & P1). unfold mom, v in E1. rewrite E1. cbn [bind].
    destruct (elems_stage (mom (1 / 4)) (snh_masses p) r1 snh_cells L1) as (r2 & E2 & L2 & P2). unfold mom, v in E2. rewrite E2. cbn [bind].
    destruct (elems_stage (mom (1 / 3)) (shell_masses p) r2 shell_cells L2) as (r3 & E3 & L3 & P3). unfold mom, v in E3. rewrite E3. cbn [option_map].
    exists (firstn (3 * m) (stack r3)). split; [reflexivity|]. split; [rewrite firstn_length, stack_length; lia|]. rewrite rdot_firstn by exact Z. rewrite rdot_stack, P3, P2, P1, <- (rdot_stack (unstack r)), SU, PR. unfold momentum_power. ring.
Qed.
End Settled.
