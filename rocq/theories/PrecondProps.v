(** Properties of the approximate Jacobi preconditioner. *)
From Coq Require Import Reals List Arith Bool Lra Lia.
From Coquelicot Require Import Coquelicot.
From Verif Require Import Vec3 Mat3 RList ElasticModel ElasticSpec VolumeModel VolumeSpec ShellModel NeighborModel SurfJacSpec ContactModel ContactHessModel ContactHessSpec ContactHessProofs FricAsmModel ProblemModel ProblemSpec ProblemListProofs ProblemProofs ProblemMatrixProofs
  FricProblemModel PrecondModel PrecondProofs ProblemProps.
From Verif Require VolumeProofs TimeModel.
Import ListNotations.
Local Open Scope R_scope.

Lemma scale_spec a : 0 < jacobi_scale a /\ (epsilon * epsilon <= Rabs a -> jacobi_scale a * jacobi_scale a * Rabs a = 1) /\ (Rabs a < epsilon * epsilon -> jacobi_scale a = 1).
Proof.
  assert (EP : 0 < epsilon) by (unfold epsilon; apply Rinv_0_lt_compat; lra). unfold jacobi_scale. cbv zeta.
  assert (SA : sqrt (Rabs a) * sqrt (Rabs a) = Rabs a) by (apply sqrt_sqrt, Rabs_pos). pose proof (sqrt_pos (Rabs a)) as SP. revert SA SP. generalize (sqrt (Rabs a)). intros t SA SP. destruct (Rlt_dec t epsilon) as [T|T].
  - split; [lra|]. split; [|reflexivity]. intros H. exfalso. assert (t * t < epsilon * epsilon) by nra. lra.
  - split; [apply Rdiv_lt_0_compat; lra|]. split; [intros _; rewrite <- SA; field; lra|]. intros H. exfalso. assert (epsilon * epsilon <= t * t) by nra. lra.
Qed.

(** C187: without friction, the approximate diagonal is that of the Jacobian with contacts, without the part of the enclosed volumes; the
    preconditioner scales it to one. *)
Theorem approximate_diagonal_matches : forall p0 V rb p, problem_ok p0 -> contacts_apart p0 -> length V = pb_active p0 -> update_problem p0 V rb = Some p ->
  let q := FrictionProblem p (map (fun _ => None) (pb_contacts p)) in
  exists d r ij vals, physical_diagonal q = Some d /\ length d = (3 * pb_active p0)%nat /\ (forall old, diagonal_preconditioner ApproximateJacobi q old = Some r) /\ length r = length d /\
    jacobian_indices p0 true = Some ij /\ jacobian_values p true ij = Some vals /\
    forall k, (k < 3 * pb_active p0)%nat ->
      nth k d 0 = matrix_entry (combine ij vals) k k - dqdv p * dqdv p * rsum (map (fun z => matrix_entry (combine (vol_hessian_indices z) (vol_hessian_values z (fun i => nth i (pb_pos p) v3_0) 1)) k k) (pb_zones p0)) /\
      0 < nth k r 0 /\ (epsilon * epsilon <= Rabs (nth k d 0) -> nth k r 0 * nth k r 0 * Rabs (nth k d 0) = 1) /\ (Rabs (nth k d 0) < epsilon * epsilon -> nth k r 0 = 1).
Proof.
  intros p0 V rb p OK CA LV E q. destruct (update_ok p0 V rb OK LV) as (E' & OK' & _). rewrite E' in E. injection E as <-.
  assert (CA' : contacts_apart (updated p0 V rb)).
  { intros cg I. change (pb_contacts (updated p0 V rb)) with (map (upd (next_pos p0 V) rb) (pb_contacts p0)) in I. apply in_map_iff in I. destruct I as (cg0 & <- & I0). destruct (update_ok p0 V rb OK LV) as (_ & _ & UC & _). pose proof (UC cg0 I0) as U. unfold update_contact in U.
    destruct (update_state (fst cg0) (next_pos p0 V) rb) as [c'|] eqn:EU; [|discriminate]. assert (SH0 : contact_shape (fst cg0) (length (pb_pos p0))). { destruct OK as (_ & _ & _ & _ & _ & _ & _ & _ & H9 & _). specialize (H9 cg0 I0). destruct cg0. apply H9. }
    destruct (ContactMoveProofs.update_places _ _ _ _ _ SH0 EU) as (_ & _ & _ & SS). destruct (update_constraint_gradient (snd cg0) c') as [g'|]; [|discriminate]. injection U as U. rewrite <- U. cbn [fst]. intros v. destruct SS as (_ & _ & _ & _ & _ & _ & _ & _ & S9 & S10 & _). rewrite S9, S10. apply (CA cg0 I0 v). }
  destruct (physical_ok q OK' CA' ltac:(cbn; rewrite map_length; reflexivity) (fun _ _ => 0)) as (d & ED & LD & D).
  { intros f I. cbn in I. apply in_map_iff in I. destruct I as (? & X & _). discriminate X. }
  destruct (nnz_ok p0 V rb OK LV) as (room & N0 & _ & L). destruct (indices_of p0 V rb OK LV room L) as [I0 _].
  exists d, (map jacobi_scale d), (all_ij p0 V rb), (all_vals p0 V rb). split; [exact ED|]. split; [exact LD|]. split; [intros old; unfold diagonal_preconditioner, physical_preconditioner; rewrite ED; reflexivity|]. split; [apply map_length|].
  split; [unfold jacobian_indices; rewrite N0; exact I0|]. split; [apply values_of; assumption|]. intros k K. split.
  - rewrite (D k K), (all_entries p0 V rb OK LV), !entry_app, !entry_flat. change (fq_base q) with (updated p0 V rb). change (pb_contacts (updated p0 V rb)) with (map (upd (next_pos p0 V) rb) (pb_contacts p0)). change (pb_active (updated p0 V rb)) with (pb_active p0). change (dqdv (updated p0 V rb)) with (dqdv p0).
    rewrite (map_map (upd (next_pos p0 V) rb)).
    rewrite (rsum_ext (fun a => matrix_entry (scaled_entries (dqdv p0 * dqdv p0) (zone_entries (updated p0 V rb) a)) k k) (fun z => dqdv p0 * dqdv p0 * matrix_entry (zone_entries (updated p0 V rb) z) k k)) by (intros z _; apply entry_scale).
    rewrite (rsum_ext (fun a => matrix_entry (scaled_entries (- (dqdv p0 * dqdv p0)) (contact_entries (pb_active p0) (upd (next_pos p0 V) rb a))) k k) (fun cg => - (dqdv p0 * dqdv p0) * matrix_entry (contact_entries (pb_active p0) (upd (next_pos p0 V) rb cg)) k k)) by (intros z _; apply entry_scale).
    rewrite !rsum_scale. unfold zone_entries. change (at_ (pb_pos (updated p0 V rb))) with (fun i => nth i (pb_pos (updated p0 V rb)) v3_0). rewrite (rsum_zero (fun o : option friction_part => match o with None => 0 | Some _ => 0 end)) by (intros [f|] _; reflexivity). ring.
  - rewrite (nth_indep _ 0 (jacobi_scale 0)) by (rewrite map_length, LD; exact K). rewrite map_nth. apply scale_spec.
Qed.
(** Which diagonal is used: none leaves the slice as it is; the incomplete one scales by the diagonal of the Jacobian without constraints. *)
Theorem preconditioner_choice : forall q, problem_ok (fq_base q) -> let p := fq_base q in
  (forall old, diagonal_preconditioner NoPreconditioner q old = Some old) /\
  exists d r, jacobian_diagonal p (repeat 0 (3 * length (pb_pos p))) = Some d /\ (forall old, diagonal_preconditioner IncompleteJacobi q old = Some r) /\ length r = (3 * pb_active p)%nat /\
    forall k, (k < 3 * pb_active p)%nat -> 0 < nth k r 0 /\ (epsilon * epsilon <= Rabs (nth k d 0) -> nth k r 0 * nth k r 0 * Rabs (nth k d 0) = 1) /\ (Rabs (nth k d 0) < epsilon * epsilon -> nth k r 0 = 1).
Proof.
  intros q OK p. split; [reflexivity|]. destruct (diagonal_ok p OK) as (d & E & L & _). exists d, (map jacobi_scale (firstn (3 * pb_active p) d)). split; [exact E|]. split; [intros old; unfold diagonal_preconditioner, incomplete_jacobi_preconditioner; fold p; change (pb_size p) with (length (pb_pos p)); rewrite E; reflexivity|].
  assert (LE : (pb_active p <= length (pb_pos p))%nat) by apply OK. assert (LL : length (firstn (3 * pb_active p) d) = (3 * pb_active p)%nat) by (rewrite firstn_length; lia). split; [rewrite map_length; exact LL|].
  intros k K. rewrite (nth_indep _ 0 (jacobi_scale 0)) by (rewrite map_length, LL; exact K). rewrite map_nth. replace (nth k (firstn (3 * pb_active p) d) 0) with (nth k d 0) by (symmetry; rewrite <- (firstn_skipn (3 * pb_active p) d) at 2; rewrite app_nth1 by (rewrite LL; exact K); reflexivity). apply scale_spec.
Qed.
Example preconditioner_choice_ex : problem_ok (fq_base (FrictionProblem scene [None])) /\ pb_active scene = 6%nat /\ exists r, diagonal_preconditioner IncompleteJacobi (FrictionProblem scene [None]) [] = Some r /\ length r = 18%nat.
Proof. split; [exact scene_ok|]. split; [reflexivity|]. destruct (preconditioner_choice (FrictionProblem scene [None]) scene_ok) as (_ & d & r & _ & E & L & _). exists r. split; [apply E|exact L]. Qed.
Example approximate_diagonal_matches_ex : problem_ok scene /\ contacts_apart scene /\ length scene_vel = pb_active scene /\ exists p, update_problem scene scene_vel true = Some p /\ length (pb_contacts p) = 1%nat /\ length (pb_zones p) = 1%nat.
Proof. split; [exact scene_ok|]. split; [apply scene_zones|]. split; [reflexivity|]. destruct (update_ok scene scene_vel true scene_ok eq_refl) as (E & _). exists (updated scene scene_vel true). split; [exact E|]. split; reflexivity. Qed.

(** C188, refuted: with an enclosed volume the approximate diagonal is not that of the Jacobian: here it is zero. *)
Lemma entry_form L k : matrix_entry L k k = sparse_form L (coords (unit_motion k)) (coords (unit_motion k)).
Proof.
  unfold matrix_entry, sparse_form. rewrite <- (SurfJacProofs.rsum_filter (fun e => andb (Nat.eqb (fst (fst e)) k) (Nat.eqb (snd (fst e)) k)) snd). apply rsum_ext. intros [[r c] a] _. cbn [fst snd]. rewrite <- !coordinate_coords, !unit_coordinate.
  destruct (Nat.eqb r k), (Nat.eqb c k); cbn [andb]; ring.
Qed.
Definition balloon_pos : list v3 := [V3 1 0 0; V3 0 1 0; V3 0 0 1; v3_0].
Definition balloon : problem := Problem [] [] (Shell [] [] (fun _ _ => 0%nat)) [] [Zone (tet_faces (0, 1, 2, 3)%nat) (1 / 6) 1 1 false] [] v3_0 1 TimeModel.SBE (map (fun x => TimeModel.fresh x 0) (stack balloon_pos)) 4 (fun _ => v3_0) (repeat 0 12) balloon_pos (repeat v3_0 4).
Lemma balloon_ok : problem_ok balloon.
Proof.
  unfold problem_ok. cbv zeta. change (length (pb_pos balloon)) with 4%nat. split; [cbn; lia|]. split; [reflexivity|]. split; [reflexivity|]. split; [reflexivity|].
  split. { intros e [[]|[]]. }
  split. { split; [intros t []|intros d c []]. }
  split. { split; [intros t []|intros d []]. }
  split. { intros z [<-|[]] t Ht. cbn in Ht. repeat (destruct Ht as [<-|Ht]; [cbn; lia|]). destruct Ht. }
  split; [|exact Logic.I]. intros c [].
Qed.
Theorem approximate_diagonal_misses_volumes_refuted : exists p0 V p ij vals d, problem_ok p0 /\ contacts_apart p0 /\ length V = pb_active p0 /\ update_problem p0 V true = Some p /\
  jacobian_indices p0 true = Some ij /\ jacobian_values p true ij = Some vals /\ physical_diagonal (FrictionProblem p (map (fun _ => None) (pb_contacts p))) = Some d /\
  nth 0 d 0 = 0 /\ 0 < matrix_entry (combine ij vals) 0 0.
Proof.
  exists balloon, (repeat v3_0 4). destruct (update_ok balloon (repeat v3_0 4) true balloon_ok eq_refl) as (E & _). exists (updated balloon (repeat v3_0 4) true).
  assert (CA : contacts_apart balloon) by (intros c []). destruct (approximate_diagonal_matches balloon (repeat v3_0 4) true _ balloon_ok CA eq_refl E) as (d & r & ij & vals & ED & _ & _ & _ & EI & EV & H). destruct (H 0%nat ltac:(cbn; lia)) as [H0 _].
  exists ij, vals, d. split; [exact balloon_ok|]. split; [exact CA|]. split; [reflexivity|]. split; [exact E|]. split; [exact EI|]. split; [exact EV|]. split; [exact ED|].
  assert (TS : is_static balloon = false /\ time_step balloon = 1) by (unfold time_step, is_static; cbn [balloon pb_time_step]; destruct (Req_EM_T 1 0); [lra|split; reflexivity]). destruct TS as [TS0 TS].
  assert (HD : dqdv balloon = 1) by (unfold dqdv; rewrite TS; unfold force_mul; cbn; lra).
  assert (NP : next_pos balloon (repeat v3_0 4) = balloon_pos).
  { unfold next_pos. rewrite TS. cbn [balloon pb_active pb_pos pb_scheme seq map]. unfold balloon_pos. change (skipn 4 _) with (@nil v3). cbn [app]. repeat (apply f_equal2; [apply FieldProofs.v3_eq; cbn; unfold TimeModel.lerp_step; cbn; field|]). reflexivity. }
  assert (D0 : nth 0 d 0 = 0).
  { destruct (physical_ok (FrictionProblem (updated balloon (repeat v3_0 4) true) []) (proj1 (proj2 (update_ok balloon (repeat v3_0 4) true balloon_ok eq_refl))) (fun c I => match I with end) eq_refl (fun _ _ => 0)) as (d' & ED' & _ & D'); [intros f []|].
    change (map _ (pb_contacts (updated balloon (repeat v3_0 4) true))) with (@nil (option friction_part)) in ED. rewrite ED in ED'. injection ED' as <-. rewrite (D' 0%nat ltac:(cbn; lia)). cbn [fq_base fq_parts map]. change (pb_contacts (updated balloon (repeat v3_0 4) true)) with (@nil (contact * ContactAsmModel.mapped v3)). cbn [map]. rewrite rsum_nil.
    assert (LE : lower_entries (updated balloon (repeat v3_0 4) true) = []). { unfold lower_entries, lower_ij. change (is_static (updated balloon (repeat v3_0 4) true)) with (is_static balloon). rewrite TS0. reflexivity. } rewrite LE. unfold matrix_entry. cbn. rewrite ?rsum_nil. ring. }
  split; [exact D0|]. rewrite D0 in H0. revert H0. generalize (matrix_entry (combine ij vals) 0 0). intros J H0. change (dqdv (updated balloon (repeat v3_0 4) true)) with (dqdv balloon) in H0. rewrite HD in H0. change (pb_pos (updated balloon (repeat v3_0 4) true)) with (next_pos balloon (repeat v3_0 4)) in H0. rewrite NP in H0. cbn [balloon pb_zones map] in H0. rewrite rsum_cons, rsum_nil, entry_form, VolumeProofs.hessian_form in H0 by reflexivity.
  assert (BL : forall z, topo z = tet_faces (0, 1, 2, 3)%nat -> VolumeProofs.bil z (fun i => nth i balloon_pos v3_0) (unit_motion 0) (unit_motion 0) = 0 /\ Rabs (VolumeProofs.lin z (fun i => nth i balloon_pos v3_0) (unit_motion 0)) = 1).
  { intros z Z. unfold VolumeProofs.bil, VolumeProofs.lin. rewrite Z. cbn [tet_faces map]. rewrite !rsum_cons, !rsum_nil. unfold VolumeProofs.tri_bil, VolumeProofs.tri_lin, corner_grad. cbn. unfold unit_motion, v3_dot, v3_cross, v3_add, v3_0. cbn. split; [ring|].
    match goal with |- Rabs ?x = 1 => first [replace x with 1 by ring; apply Rabs_R1|replace x with (-1) by ring; rewrite Rabs_Ropp; apply Rabs_R1] end. }
  destruct (BL (Zone (tet_faces (0, 1, 2, 3)%nat) (1 / 6) 1 1 false) eq_refl) as [B1 B2]. rewrite B1 in H0. set (l := VolumeProofs.lin _ _ _) in *. cbn [compression pressurization rest_volume] in H0.
  assert (L2 : l * l = 1) by (rewrite <- (Rabs_pos_eq (l * l)) by nra; rewrite Rabs_mult, B2; ring). rewrite L2 in H0. assert (PA : 0 < pressure_atm) by (unfold pressure_atm; lra). unfold Rdiv in H0. nra.
Qed.

Print Assumptions approximate_diagonal_matches.
Print Assumptions preconditioner_choice.
Print Assumptions approximate_diagonal_misses_volumes_refuted.
