(** Contacts as parts of the problem: updates never fail, forces on top of other forces. *)
From Coq Require Import Reals List Bool Lra Lia Psatz Sorting.Sorted.
From Coquelicot Require Import Coquelicot.
From Verif Require Import Vec3 Mat3 RList Calc KernelModel KernelSpec KernelProofs FieldModel FieldSpec FieldProofs FieldDerivProofs FieldProps
  NeighborModel NeighborSpec NeighborProofs UpdateProps SurfJacModel SurfJacSpec SurfJacProofs SurfJacProps HessModel HessSpec HessProofs HessMixProofs HessProps
  SurfHessModel SurfHessSpec JetProofs SurfHessProofs SurfHessCodeProofs SurfHessProps JointHessProofs ContactModel ContactSpec ContactProofs ContactMapSpec ContactMapProofs AssemblyModel ContactAsmModel ContactAsmSpec ContactAsmProofs ContactAsmProps
  ContactHessModel ContactHessSpec ContactHessProofs ContactRowProofs ContactMoveProofs ContactHessProps ProblemModel ProblemSpec.
From Verif Require MassProofs ElasticModel ElasticSpec ElasticMeshProofs.
Import ListNotations.
Local Open Scope R_scope.

Lemma subset_some (X : list v3) ids : (forall v, In v ids -> (v < length X)%nat) -> exists ys, subset X ids = Some ys.
Proof.
  induction ids as [|i ids IH]; intros H; [exists []; reflexivity|]. destruct IH as [ys E]; [intros v Hv; apply H; right; exact Hv|]. unfold subset in *. cbn [map all_some].
  destruct (nth_error X i) as [x|] eqn:E1; [|apply nth_error_None in E1; specialize (H i (or_introl eq_refl)); lia]. rewrite E. eexists. reflexivity.
Qed.
Lemma same_setup_fixed c c' m : same_setup c c' -> fixed_from c m -> fixed_from c' m.
Proof. intros (_ & _ & _ & _ & _ & _ & _ & _ & T9 & T10 & T11 & T12 & _) F. unfold fixed_from. rewrite T9, T10, T11, T12. exact F. Qed.
Lemma ready_gradient c n m g : contact_ready n m (c, g) -> g = build_distance_gradient (jacobian_rows c) n (constraint_size c).
Proof. intros (SH & _ & EG & _). unfold reset_distance_gradient in EG. rewrite (jacobian_list c n SH) in EG. injection EG as <-. reflexivity. Qed.
Lemma contact_updates cg n m X rb : contact_ready n m cg -> length X = n ->
  exists c' g', update_contact X rb cg = Some (c', g') /\ update_state (fst cg) X rb = Some c' /\ update_constraint_gradient (snd cg) c' = Some g' /\
    contact_ready n m (c', g') /\ placed c' X /\ same_setup (fst cg) c'.
Proof.
  destruct cg as [c g]. intros RD LX. assert (EG := ready_gradient _ _ _ _ RD). destruct RD as (SH & PL & _ & FX). cbn [fst snd].
  assert (RNG : forall v, In v (ct_surface c) \/ In v (ct_collider c) -> (v < n)%nat) by apply SH.
  destruct (subset_some X (ct_surface c)) as [vs EV]; [intros v Hv; rewrite LX; apply RNG; left; exact Hv|]. destruct (subset_some X (ct_collider c)) as [ps EP]; [intros v Hv; rewrite LX; apply RNG; right; exact Hv|].
  destruct (update_state_some c n X vs ps rb SH EV EP) as (c' & E & _). destruct (update_places c n X rb c' SH E) as (SH' & AT & PL' & SS).
  assert (CS : constraint_size c = constraint_size c'). { destruct SS as (T1 & _). unfold constraint_size, num_neighborhoods. rewrite T1. reflexivity. }
  assert (JI := same_jacobian_indices c c' n SH PL SH' PL' SS). set (g' := build_distance_gradient (jacobian_rows c') n (constraint_size c')).
  assert (UG : update_constraint_gradient g c' = Some g') by (unfold update_constraint_gradient; rewrite (jacobian_list c' n SH'), EG, CS; apply distance_gradient_refreshed, JI).
  exists c', g'. split; [unfold update_contact; cbn [fst snd]; rewrite E, UG; reflexivity|]. split; [exact E|]. split; [exact UG|]. split; [|split; [exact AT|exact SS]].
  split; [exact SH'|]. split; [exact PL'|]. split; [|apply (same_setup_fixed c c' m SS FX)]. unfold reset_distance_gradient. rewrite (jacobian_list c' n SH'). reflexivity.
Qed.
Lemma contact_value c n : contact_shape c n -> exists e, contact_constraint c = Some e.
Proof. intros SH. unfold contact_constraint. rewrite (distances c n SH). eexists. reflexivity. Qed.
(** The power of the contact force. *)
Definition contact_power (c : contact) (U : nat -> v3) : R := rsum (map (fun p => ct_kappa c * penalty_db (ct_delta c) (dpot c p) * rate1 c U p) (crows c)).
Definition contact_curve (c : contact) (U : nat -> v3) : R :=
  rsum (map (fun p => ct_kappa c * (penalty_ddb (ct_delta c) (dpot c p) * rate1 c U p * rate1 c U p + penalty_db (ct_delta c) (dpot c p) * rate2 c U p)) (crows c)).
Lemma power_lists (f : list v3) (U : nat -> v3) : power f (map U (seq 0 (length f))) = ElasticSpec.power f U.
Proof.
  rewrite ElasticMeshProofs.power_lsum. generalize 0%nat. induction f as [|a f IH]; intros k; [reflexivity|]. cbn [length seq map]. rewrite power_cons, IH. reflexivity.
Qed.
Lemma contact_force_on c n f : contact_shape c n -> length f = n ->
  exists f', subtract_constraint_force c f = Some f' /\ length f' = n /\ forall U, respects c U -> ElasticSpec.power f' U = ElasticSpec.power f U + contact_power c U.
Proof.
  intros SH LF0. unfold subtract_constraint_force, contact_multipliers. rewrite (distances c n SH), (jacobian_list c n SH). cbn [option_map].
  set (lambda := multipliers (ct_delta c) (ct_kappa c) (map (dpot c) (crows c))).
  assert (LL : length lambda = constraint_size c) by (unfold lambda, multipliers; rewrite !map_length; apply (rows_length c n SH)).
  destruct (subtract_total lambda (jacobian_rows c) f) as (f' & F & LF); [intros e He; rewrite LL, LF0; apply (jacobian_range c n SH e He)|]. rewrite LF0 in LF.
  exists f'. split; [exact F|]. split; [exact LF|]. intros U RE.
  destruct (subtract_force_dot lambda (jacobian_rows c) (map U (seq 0 n)) _ f' F) as [_ P]; [rewrite map_length, seq_length; symmetry; exact LF0|].
  rewrite <- (power_lists f' U), <- (power_lists f U), LF, LF0. refine (eq_trans P _). unfold Rminus. f_equal.
  unfold contact_power. rewrite (rsum_ext (fun p => ct_kappa c * penalty_db (ct_delta c) (dpot c p) * rate1 c U p) (fun p => -1 * (nth (cnum c (fst p)) lambda 0 * rate1 c U p))).
  2: { intros p I. unfold lambda, multipliers. rewrite map_map. destruct (row_num c n SH p I) as (_ & LN & NE). rewrite (nth_error_nth _ (cnum c (fst p)) 0 (x := - ct_kappa c * penalty_db (ct_delta c) (dpot c p))) by (rewrite nth_error_map, NE; reflexivity). ring. }
  rewrite rsum_scale. rewrite (rsum_ext (fun p => nth (cnum c (fst p)) lambda 0 * rate1 c U p) (fun p => nth (cnum c (fst p)) lambda 0 * row_product (jacobian_rows c) U (cnum c (fst p)))) by (intros p I; rewrite (jacobian_rate c n SH U RE p I); reflexivity).
  change (fun p : crow => nth (cnum c (fst p)) lambda 0 * row_product (jacobian_rows c) U (cnum c (fst p))) with (fun p : crow => (fun j => nth j lambda 0 * row_product (jacobian_rows c) U j) ((fun p : crow => cnum c (fst p)) p)). rewrite <- (map_map (fun p : crow => cnum c (fst p)) (fun j => nth j lambda 0 * row_product (jacobian_rows c) U j)), (row_numbers c n SH), (rows_length c n SH).
  rewrite (rsum_ext (fun j => nth j lambda 0 * row_product (jacobian_rows c) U j) (fun j => rsum (map (fun e => if Nat.eqb (fst (fst e)) j then nth j lambda 0 * v3_dot (snd e) (U (snd (fst e))) else 0) (jacobian_rows c))) (seq 0 (constraint_size c))).
  2: { intros j _. unfold row_product. rewrite <- rsum_scale. apply rsum_ext. intros [[r v] b] _. cbn [fst snd]. destruct (Nat.eqb r j); ring. }
  rewrite rsum_swap. rewrite (rsum_ext (fun e => rsum (map (fun j => if Nat.eqb (fst (fst e)) j then nth j lambda 0 * v3_dot (snd e) (U (snd (fst e))) else 0) (seq 0 (constraint_size c)))) (fun b => nth (fst (fst b)) lambda 0 * v3_dot (snd b) (nth (snd (fst b)) (map U (seq 0 n)) v3_0))); [ring|].
  intros e He. destruct (jacobian_range c n SH e He) as [R1 R2]. rewrite (seq_pick (fun j => nth j lambda 0 * v3_dot (snd e) (U (snd (fst e))))) by exact R1. f_equal. f_equal. symmetry. rewrite (nth_indep _ v3_0 (U 0%nat)) by (rewrite map_length, seq_length; exact R2). rewrite (map_nth U), seq_nth by exact R2. reflexivity.
Qed.
Lemma contact_forces_on cs n m : (forall cg, In cg cs -> contact_ready n m cg) -> forall f, length f = n ->
  exists f', subtract_contact_forces cs f = Some f' /\ length f' = n /\ forall U, (forall v, (m <= v)%nat -> U v = v3_0) -> ElasticSpec.power f' U = ElasticSpec.power f U + rsum (map (fun cg => contact_power (fst cg) U) cs).
Proof.
  induction cs as [|[c g] cs IH]; intros H f LF; cbn [subtract_contact_forces].
  - exists f. split; [reflexivity|]. split; [exact LF|]. intros U _. cbn [map]. rewrite rsum_nil. ring.
  - destruct (H _ (or_introl eq_refl)) as (SH & _ & _ & FX). destruct (contact_force_on c n f SH LF) as (f1 & E1 & L1 & P1). destruct (IH (fun cg Hc => H cg (or_intror Hc)) f1 L1) as (f' & E & L & P).
    exists f'. cbn [fst]. rewrite E1. cbn [ElasticModel.bind]. split; [exact E|]. split; [exact L|]. intros U Z. rewrite (P U Z), (P1 U (fixed_respects c m U FX Z)). cbn [map]. rewrite rsum_cons. cbn [fst]. ring.
Qed.
Lemma contact_jet c n X U rb : contact_shape c n -> in_place (cbase c) -> placed c X -> contact_regular c -> length X = n ->
  exists a, jet (fun s => energy_at c rb (mesh_line X U s)) a (contact_power c U) (contact_curve c U).
Proof. intros SH PL AT RG LX. eexists. exact (energy_jet c n X SH PL AT RG U rb). Qed.
(** The matrix of a contact. *)
Lemma contact_matrix c0 g0 X rb c g m : contact_ready (length X) m (c0, g0) -> update_contact X rb (c0, g0) = Some (c, g) ->
  exists dist lambda vals,
    distance_potential c = Some dist /\ contact_multipliers c = Some lambda /\ constraint_hessian_values c g dist lambda m = Some vals /\
    constraint_hessian_indices c0 g0 m = Some (map fst vals) /\ constraint_hessian_indices c g m = Some (map fst vals) /\
    (forall e, In e vals -> (fst (fst e) < 3 * m)%nat /\ (snd (fst e) < 3 * m)%nat) /\
    (contact_regular c -> (forall v, In v (ct_surface c) -> ~ In v (ct_collider c)) ->
      (forall i j, matrix_entry vals i j = matrix_entry vals j i) /\
      (forall U, (forall v, (m <= v)%nat -> U v = v3_0) -> matrix_form (3 * m) vals (coordinate U) = - contact_curve c U)).
Proof.
  intros (SH0 & PL0 & EG & FX) E. unfold update_contact in E. cbn [fst snd] in E. destruct (update_state c0 X rb) as [c1|] eqn:E0; [|discriminate]. destruct (update_constraint_gradient g0 c1) as [g1|] eqn:UG; [|discriminate]. injection E as <- <-.
  destruct (update_places c0 _ X rb c1 SH0 E0) as (SH & AT & PL & SS).
  destruct (hessian_assembled c0 X rb c1 m g0 SH0 PL0 EG E0) as (g' & dist & lambda & vals & E1 & E2 & E3 & E4 & E5 & E6 & E7 & SY & FM). rewrite UG in E1. injection E1 as <-.
  exists dist, lambda, vals. refine (conj E2 (conj E3 (conj E4 (conj E5 (conj E6 (conj E7 _)))))). intros RG DJ. split.
  - apply SY. intros U W. apply (parts_symmetric c1 (length X) (penalty_force c1) U W SH PL RG DJ).
  - intros U V. assert (RE := fixed_respects c1 m U (same_setup_fixed _ _ _ SS FX) V). rewrite (FM U V RE). unfold all_parts. rewrite (parts_form c1 (length X) SH PL RG U RE (penalty_force c1) DJ). unfold product_part, penalty_force, contact_curve.
    rewrite <- rsum_plus. replace (- rsum _) with (-1 * rsum (map (fun p => ct_kappa c1 * (penalty_ddb (ct_delta c1) (dpot c1 p) * rate1 c1 U p * rate1 c1 U p + penalty_db (ct_delta c1) (dpot c1 p) * rate2 c1 U p)) (crows c1))) by ring. rewrite <- rsum_scale. apply rsum_ext. intros p _. ring.
Qed.
