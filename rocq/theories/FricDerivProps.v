(** The Jacobian of the whole problem, with contacts and friction, as derivative of its residual. *)
From Coq Require Import Reals List Arith Bool Lra Lia.
From Coquelicot Require Import Coquelicot.
From Verif Require Import Vec3 Mat3 RList ElasticModel ElasticSpec VolumeModel VolumeSpec NeighborModel SurfJacSpec SurfHessSpec ContactAsmModel ContactDerivSpec BasisJacSpec ContactHessModel ContactHessSpec.
From Verif Require Import FrictionModel FricAsmModel FricForceSpec ProblemModel ProblemSpec ProblemListProofs ProblemProofs ProblemMatrixProofs ProblemDerivSpec FricProblemModel FricProblemSpec FricProblemProofs FricDerivSpec.
From Verif Require TimeModel ProblemProps ProblemDerivProofs ProblemDerivProps FricProblemProps BasisJacProps ContactDerivProps FricAsmProps.
Import ListNotations.
Local Open Scope R_scope.

(** C191: row k of the matrix that Newton's method solves with is the derivative of coordinate k of the residual it solves for, with all contacts
    and their friction; close to the state the residual exists. *)
Theorem whole_jacobian_is_derivative : forall iamax ord q0 V rb q, picks_largest iamax -> lists_the_set ord -> friction_ok iamax ord q0 -> length V = pb_active (fq_base q0) ->
  update_friction_problem iamax q0 V rb = Some q -> (forall f, In (Some f) (fq_parts q) -> smooth_part (fq_base q) f) ->
  zones_defined (fq_base q0) -> zones_exact (fq_base q0) -> contacts_apart (fq_base q0) -> regular_state (fq_base q) ->
  exists ij vals, friction_indices iamax ord q0 true = Some ij /\ friction_values iamax ord q true ij = Some vals /\ length vals = length ij /\
    forall W rb' k, (k < 3 * pb_active (fq_base q0))%nat ->
      locally 0 (fun s => exists r, whole_residual_at iamax q rb' (mesh_line V W s) = Some r /\ length r = (3 * pb_active (fq_base q0))%nat) /\
      is_derive (fun s => whole_coordinate iamax q rb' (mesh_line V W s) k) 0
        (rsum (map (fun j => matrix_entry (combine ij vals) k j * coordinate W j) (seq 0 (3 * pb_active (fq_base q0))))).
Proof.
  intros iamax ord q0 V rb q PK OKO FO LV E SM ZD ZE CA RG. pose proof (FricProblemProps.friction_matrix_is_derivative iamax ord q0 V rb q PK OKO FO LV E SM) as (ij & vals & ij0 & vals0 & I1 & V1 & L1 & I0 & V0 & L0 & DF).
  destruct (friction_update iamax ord OKO q0 V rb FO LV) as (EU & FO'). rewrite EU in E. injection E as <-. set (p0 := fq_base q0) in *. assert (OK : problem_ok p0) by apply FO.
  destruct (update_ok p0 V rb OK LV) as (EP & OK' & _). destruct (ProblemProps.settled p0 V rb _ OK LV EP) as (_ & _ & ATX & ATV & AT).
  destruct (ProblemDerivProps.jacobian_is_residual_derivative p0 V rb (updated p0 V rb) OK LV EP ZD ZE CA RG) as (ij2 & vals2 & I2 & V2 & _ & DR). rewrite I0 in I2. injection I2 as <-. cbn [moved fq_base] in V0. fold p0 in V0. rewrite V0 in V2. injection V2 as <-.
  exists ij, vals. split; [exact I1|]. split; [exact V1|]. split; [exact L1|]. intros W rb' k K. destruct (DR W rb' k K) as [_ D0]. specialize (DF W rb' k K). cbv zeta in DF. cbn [moved fq_base] in DF. fold p0 in DF. change (pb_active (updated p0 V rb)) with (pb_active p0) in DF. change (dqdv (updated p0 V rb)) with (dqdv p0) in DF.
  set (q := moved iamax q0 V rb) in *. assert (LV' : length V = pb_active (updated p0 V rb)) by exact LV.
  pose proof (ProblemDerivProofs.regular_nearby (updated p0 V rb) V W W rb' OK' LV' ATX AT RG) as RN.
  assert (RL : forall s, regular_state (updated (updated p0 V rb) (mesh_line V W s) rb') -> exists r, whole_residual_at iamax q rb' (mesh_line V W s) = Some r /\ length r = (3 * pb_active p0)%nat /\
      nth k r 0 = residual_coordinate (updated p0 V rb) rb' (mesh_line V W s) k - dqdv p0 * friction_at iamax q rb' (mesh_line V W s) k).
  { intros s RS. assert (LL : length (mesh_line V W s) = pb_active (fq_base q)) by (rewrite line_length; exact LV). destruct (friction_update iamax ord OKO q (mesh_line V W s) rb' FO' LL) as (EU' & FO'').
    destruct (FricProblemProps.friction_residual_splits iamax ord (moved iamax q (mesh_line V W s) rb') false FO'' RS) as (r & r0 & E1 & E2 & LR & _ & EQ). exists r. unfold whole_residual_at. rewrite EU'. split; [exact E1|]. split; [exact LR|]. rewrite (EQ k K).
    unfold residual_coordinate, residual_at, friction_at. rewrite EU'. destruct (update_ok (updated p0 V rb) (mesh_line V W s) rb' OK' LL) as (EP' & _). rewrite EP'. change (fq_base (moved iamax q (mesh_line V W s) rb')) with (updated (updated p0 V rb) (mesh_line V W s) rb') in E2. rewrite E2. reflexivity. }
  split; [revert RN; apply filter_imp; intros s RS; destruct (RL s RS) as (r & A & B & _); exists r; split; assumption|].
  apply (is_derive_ext_loc (fun s => residual_coordinate (updated p0 V rb) rb' (mesh_line V W s) k + - (dqdv p0 * friction_at iamax q rb' (mesh_line V W s) k))).
  - revert RN. apply filter_imp. intros s RS. destruct (RL s RS) as (r & A & _ & B). unfold whole_coordinate. rewrite A, B. reflexivity.
  - evar_last; [apply @is_derive_plus; [exact D0|exact DF]|]. refine (eq_trans (eq_sym (rsum_plus _ _ _)) _). apply rsum_ext. intros j _. ring.
Qed.
Example whole_jacobian_is_derivative_ex : exists s, picks_largest BasisJacProps.first_largest /\ lists_the_set FricProblemProps.listed /\ forall lagged, let q0 := FricProblemProps.glide s lagged in
  friction_ok BasisJacProps.first_largest FricProblemProps.listed q0 /\ length FricAsmProps.slide_with = pb_active (fq_base q0) /\ zones_defined (fq_base q0) /\ zones_exact (fq_base q0) /\ contacts_apart (fq_base q0) /\
  exists q, update_friction_problem BasisJacProps.first_largest q0 FricAsmProps.slide_with true = Some q /\ (forall f, In (Some f) (fq_parts q) -> smooth_part (fq_base q) f) /\ regular_state (fq_base q) /\ length (fq_parts q) = 1%nat.
Proof.
  destruct FricAsmProps.slide_state as (s & E & _ & EA & _ & RS). exists s. split; [exact BasisJacProps.first_largest_picks|]. split; [exact ContactDerivProps.sorted_listing|]. intros lagged. cbv zeta. split; [exact (FricProblemProps.glide_ok s lagged E RS)|]. split; [reflexivity|].
  split; [intros z []|]. split; [intros z []|]. split.
  - intros c [<-|[]]. cbn [fst]. destruct (FricProblemProps.glide_distance s E) as [-> _]. intros v Hv Hc. cbn in Hv, Hc. destruct Hc as [<-|[]]. destruct Hv as [Hv|[Hv|[Hv|[Hv|[]]]]]; discriminate.
  - destruct (FricProblemProps.glide_moved s lagged E RS) as (q & EU & RG & SM & LP). exists q. split; [exact EU|]. split; [exact SM|]. split; [exact RG|exact LP].
Qed.
Print Assumptions whole_jacobian_is_derivative.
