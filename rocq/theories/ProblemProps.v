(** Properties of the assembled problem: its residual, the Jacobian of the residual, and the preconditioner. *)
From Coq Require Import Reals List Arith Bool Lra Lia.
From Coquelicot Require Import Coquelicot.
From Verif Require Import Vec3 Mat3 RList ElasticModel ElasticSpec MassModel ShellModel ShellSpec VolumeModel VolumeSpec.
From Verif Require Import SurfJacSpec SurfHessSpec JetProofs ContactAsmModel ContactHessModel ContactHessSpec.
From Verif Require Import ProblemModel ProblemSpec ProblemListProofs ProblemEnergyProofs ProblemProofs ProblemMatrixProofs.
From Verif Require ContactRowProofs ElasticProofs ContactRowProofs FieldProofs TimeModel TimeSpec ElasticProofs AngleModel ContactAsmProofs ContactMoveProofs ContactHessProps.
Import ListNotations.
Local Open Scope R_scope.

Lemma real_part e : real_value (Some e) = fin e.
Proof. destruct e; reflexivity. Qed.
(** Everything about a problem after an update. *)
Lemma settled p0 V rb p : problem_ok p0 -> length V = pb_active p0 -> update_problem p0 V rb = Some p ->
  p = updated p0 V rb /\ problem_ok p /\ next_pos p V = pb_pos p /\ next_vel p V = pb_vel p /\ forall cg, In cg (pb_contacts p) -> ContactMoveProofs.placed (fst cg) (pb_pos p).
Proof.
  intros OK LV E. destruct (update_ok p0 V rb OK LV) as (E' & OK' & _ & AT). rewrite E in E'. injection E' as ->. split; [reflexivity|]. split; [exact OK'|]. assert (L : (pb_active p0 <= length (pb_pos p0))%nat) by apply OK. assert (LW : length (pb_vel p0) = length (pb_pos p0)) by apply OK.
  split; [apply next_pos_again; exact L|]. split; [apply next_vel_again; [lia|exact LV|exact LV]|exact AT].
Qed.
Lemma objective_jets p0 V rb p W rb' : problem_ok p0 -> length V = pb_active p0 -> update_problem p0 V rb = Some p -> zones_defined p0 -> regular_state p ->
  locally 0 (fun s => finite_value (objective_at p rb' (mesh_line V W s))) /\
  exists a, jet (fun s => real_value (objective_at p rb' (mesh_line V W s))) a (objective_power p W) (objective_curve p W).
Proof.
  intros OK LV E ZD RG. destruct (settled p0 V rb p OK LV E) as (EP & OK' & ATX & ATV & ATC). assert (LV' : length V = pb_active p) by (rewrite EP; exact LV). assert (ZD' : zones_defined p) by (rewrite EP; exact ZD).
  destruct (objective_jet p W OK' ATC ZD' RG rb') as (a & L & J). assert (EO : forall s, objective_at p rb' (mesh_line V W s) = Some (objective_part p W rb' s)) by (intros s; apply objective_line; assumption).
  split; [revert L; apply filter_imp; intros s [e Ee]; exists e; rewrite EO, Ee; reflexivity|]. exists a. refine (jet_ext _ _ _ _ _ _ J). intros s. rewrite EO. symmetry. apply real_part.
Qed.

(** C159: the residual is the derivative of the objective by the velocities that may change. *)
Theorem residual_is_objective_gradient : forall p0 V rb p W rb', problem_ok p0 -> length V = pb_active p0 -> update_problem p0 V rb = Some p -> zones_defined p0 -> regular_state p ->
  exists r, residual p = Some r /\ length r = (3 * pb_active p0)%nat /\
    locally 0 (fun s => finite_value (objective_at p rb' (mesh_line V W s))) /\
    is_derive (fun s => real_value (objective_at p rb' (mesh_line V W s))) 0 (rsum (map (fun k => nth k r 0 * coordinate W k) (seq 0 (3 * pb_active p0)))).
Proof.
  intros p0 V rb p W rb' OK LV E ZD RG. destruct (settled p0 V rb p OK LV E) as (EP & OK' & _). assert (AC : pb_active p = pb_active p0) by (rewrite EP; reflexivity). assert (LV' : length V = pb_active p) by (rewrite AC; exact LV). destruct (residual_exists p V W OK' LV' RG) as (r & ER & LR & PR).
  exists r. split; [exact ER|]. split; [rewrite <- AC; exact LR|]. destruct (objective_jets p0 V rb p W rb' OK LV E ZD RG) as (L & a & J). split; [exact L|].
  destruct J as (_ & g & D & G0 & _). apply locally_singleton in D. rewrite G0, <- PR in D. replace (rsum _) with (rdot r (coords (cut_at (pb_active p) W))); [exact D|].
  unfold rdot. rewrite LR, AC. apply rsum_ext. intros k K. apply in_seq in K. rewrite coords_cut by lia. reflexivity.
Qed.

(** C160: the Jacobian of the residual is symmetric, and is the second derivative of the objective. *)
Theorem jacobian_is_objective_hessian : forall p0 V rb p W rb', problem_ok p0 -> length V = pb_active p0 -> update_problem p0 V rb = Some p ->
  zones_defined p0 -> zones_exact p0 -> contacts_apart p0 -> regular_state p ->
  exists ij vals, jacobian_indices p0 true = Some ij /\ jacobian_values p true ij = Some vals /\ length vals = length ij /\
    (forall i j, matrix_entry (combine ij vals) i j = matrix_entry (combine ij vals) j i) /\
    second_rate (fun s => real_value (objective_at p rb' (mesh_line V W s))) (matrix_form (3 * pb_active p0) (combine ij vals) (coordinate W)).
Proof.
  intros p0 V rb p W rb' OK LV E ZD ZE CA RG. destruct (settled p0 V rb p OK LV E) as (-> & _). destruct (nnz_ok p0 V rb OK LV) as (room & N0 & _ & L). destruct (indices_of p0 V rb OK LV room L) as [I0 _].
  exists (all_ij p0 V rb), (all_vals p0 V rb). unfold jacobian_indices. rewrite N0. cbn [bind]. split; [exact I0|]. split; [apply values_of; assumption|]. split; [symmetry; apply all_lengths; assumption|].
  split; [intros i j; apply entries_symmetric; assumption|]. rewrite form_of by assumption. destruct (objective_jets p0 V rb _ W rb' OK LV E ZD RG) as (_ & a & J). exact (jet_second _ _ _ _ J).
Qed.

(** C161: updates do not fail, the sparsity of the Jacobian does not change, and nothing is cut off. *)
Theorem jacobian_layout : forall p0 V rb, problem_ok p0 -> length V = pb_active p0 ->
  exists p ij vals nnz, update_problem p0 V rb = Some p /\ problem_ok p /\ jacobian_nnz p0 true = Some nnz /\ jacobian_nnz p true = Some nnz /\
    jacobian_indices p0 true = Some ij /\ jacobian_indices p true = Some ij /\ jacobian_values p true ij = Some vals /\
    length vals = length ij /\ (length ij <= nnz)%nat /\
    (forall q, In q ij -> (fst q < 3 * length (pb_pos p0))%nat /\ (snd q < 3 * length (pb_pos p0))%nat) /\
    (forall z, In z (pb_zones p0) -> incl (vol_hessian_indices z) ij) /\
    (forall c l, In c (pb_contacts p0) -> constraint_hessian_indices (fst c) (snd c) (pb_active p0) = Some l -> incl l ij).
Proof.
  intros p0 V rb OK LV. destruct (update_ok p0 V rb OK LV) as (E & OK' & _). destruct (nnz_ok p0 V rb OK LV) as (room & N0 & N1 & L). destruct (indices_of p0 V rb OK LV room L) as [I0 I1].
  exists (updated p0 V rb), (all_ij p0 V rb), (all_vals p0 V rb), room. split; [exact E|]. split; [exact OK'|]. split; [exact N0|]. split; [exact N1|]. unfold jacobian_indices. rewrite N0, N1. cbn [bind].
  split; [exact I0|]. split; [exact I1|]. split; [apply values_of; assumption|]. split; [symmetry; apply all_lengths; assumption|].
  split; [pose proof (fem_fits _ OK') as F; unfold all_ij, mirrored_ij; rewrite !app_length, map_length; lia|]. split; [intros q; apply all_range; assumption|]. unfold all_ij. split.
  - intros z Hz q Hq. apply in_or_app. right. apply in_or_app. left. apply in_flat_map. exists z. split; assumption.
  - intros c l Hc El q Hq. destruct (contacts_ok p0 V rb OK LV c Hc) as (E1 & _). rewrite E1 in El. injection El as <-. apply in_or_app. right. apply in_or_app. right. apply in_flat_map. exists c. split; assumption.
Qed.

(** C162: the diagonal used for preconditioning is that of the Jacobian without constraints; the preconditioner scales it to one. *)
Theorem jacobian_diagonal_matches : forall p, problem_ok p -> exists d ij vals,
  jacobian_diagonal p (repeat 0 (3 * length (pb_pos p))) = Some d /\ length d = (3 * length (pb_pos p))%nat /\
  jacobian_indices p false = Some ij /\ jacobian_values p false ij = Some vals /\ length vals = length ij /\
  forall k, (k < 3 * length (pb_pos p))%nat -> nth k d 0 = matrix_entry (combine ij vals) k k.
Proof.
  intros p OK. destruct (diagonal_ok p OK) as (d & E & L & D). destruct (without_constraints p OK) as (ij & vals & E1 & E2 & E3 & E4 & _). exists d, ij, vals. repeat (split; [assumption|]). intros k K. rewrite (D k K), E4, entry_app, off_entry. ring.
Qed.
Theorem jacobi_preconditioner_scales : forall p, problem_ok p -> exists d r, jacobian_diagonal p (repeat 0 (3 * length (pb_pos p))) = Some d /\ incomplete_jacobi_preconditioner p = Some r /\ length r = (3 * pb_active p)%nat /\
  forall k, (k < 3 * pb_active p)%nat -> 0 < nth k r 0 /\ (epsilon * epsilon <= Rabs (nth k d 0) -> nth k r 0 * nth k r 0 * Rabs (nth k d 0) = 1) /\ (Rabs (nth k d 0) < epsilon * epsilon -> nth k r 0 = 1).
Proof.
  intros p OK. destruct (diagonal_ok p OK) as (d & E & L & _). exists d, (map jacobi_scale (firstn (3 * pb_active p) d)). split; [exact E|]. unfold incomplete_jacobi_preconditioner. change (pb_size p) with (length (pb_pos p)). rewrite E. split; [reflexivity|].
  assert (LM : (pb_active p <= length (pb_pos p))%nat) by apply OK. assert (LF : length (firstn (3 * pb_active p) d) = (3 * pb_active p)%nat) by (rewrite firstn_length; lia). split; [rewrite map_length; exact LF|]. intros k K.
  rewrite (nth_indep _ 0 (jacobi_scale 0)) by (rewrite map_length; lia). rewrite map_nth, nth_first by exact K. set (a := nth k d 0). assert (EP : 0 < epsilon) by (unfold epsilon; apply Rinv_0_lt_compat; lra). unfold jacobi_scale. cbv zeta.
  assert (SA : sqrt (Rabs a) * sqrt (Rabs a) = Rabs a) by (apply sqrt_sqrt, Rabs_pos). pose proof (sqrt_pos (Rabs a)) as SP. revert SA SP. generalize (sqrt (Rabs a)). intros t SA SP. destruct (Rlt_dec t epsilon) as [T|T].
  - split; [lra|]. split; [|reflexivity]. intros H. exfalso. assert (t * t < epsilon * epsilon) by nra. lra.
  - split; [apply Rdiv_lt_0_compat; lra|]. split; [intros _; rewrite <- SA; field; lra|]. intros H. exfalso. assert (epsilon * epsilon <= t * t) by nra. lra.
Qed.

(** A triangle below, a tetrahedron of each material, an enclosed volume, and a contact of the triangle with a falling vertex; the top vertex is
    held. *)
Definition scene_point : v3 := V3 0 0 1.
Definition scene_tri : shell_tri := ShellTri 0 1 2 (M2 1 0 0 1) (1 / 2) 1 1 (1 / 10).
Definition scene_pos : list v3 := [V3 1 0 0; V3 0 1 0; V3 (-1) (-1) 0; V3 0 0 1; V3 1 0 1; V3 0 1 1; V3 0 0 2].
Definition scene_vel : list v3 := [v3_0; v3_0; v3_0; V3 0 0 (-1); v3_0; v3_0].
Definition scene_nodes : list TimeModel.node := map (fun q => TimeModel.fresh q 0) [1; 0; 0; 0; 1; 0; -1; -1; 0; 0; 0; 1 + 1 / 20; 1; 0; 1; 0; 1; 1].
Definition scene_gradient : mapped v3 := build_distance_gradient (ContactRowProofs.jacobian_rows (ContactHessProps.touch 3 scene_point)) 7 (constraint_size (ContactHessProps.touch 3 scene_point)).
Definition scene : problem := Problem [(SolidTet 4 5 6 3 m3_I (1 / 6) 1 1 (1 / 10), 1000)] [(SolidTet 0 1 2 3 m3_I (1 / 6) 1 1 (1 / 10), 1000)] (Shell [scene_tri] [] (fun _ _ => 0%nat)) [1]
  [Zone (tet_faces (4, 5, 6, 3)%nat) (1 / 6) 2 (1 / 2) false] [(ContactHessProps.touch 3 scene_point, scene_gradient)] (V3 0 0 (-98 / 10)) (1 / 10) TimeModel.STR scene_nodes 6 (fun _ => v3_0) (repeat 1 21) (repeat v3_0 6 ++ [V3 0 0 2]) (repeat v3_0 7).
Lemma scene_reset : reset_distance_gradient (ContactHessProps.touch 3 scene_point) 7 = Some scene_gradient.
Proof. destruct (ContactHessProps.touch_shape 3 scene_point 7 ltac:(lia) ltac:(lia)) as [SH _]. unfold reset_distance_gradient. rewrite (ContactRowProofs.jacobian_list _ 7 SH). reflexivity. Qed.
Lemma scene_ok : problem_ok scene.
Proof.
  unfold problem_ok. cbv zeta. change (length (pb_pos scene)) with 7%nat. split; [cbn; lia|]. split; [reflexivity|]. split; [reflexivity|]. split; [reflexivity|].
  split. { intros e [[<-|[]]|[<-|[]]]; (split; [repeat split; cbn; lia|]); unfold distinct_vertices; cbn; repeat (constructor; [cbn; lia|]); constructor. }
  split. { split; [intros t [<-|[]]; cbn; lia|intros d c []]. }
  split. { split; [intros t [<-|[]]; cbn; repeat constructor; cbn; lia|intros d []]. }
  split. { intros z [<-|[]] t Ht. cbn in Ht. repeat (destruct Ht as [<-|Ht]; [cbn; lia|]). destruct Ht. }
  split; [|exact Logic.I]. intros c [<-|[]]. destruct (ContactHessProps.touch_shape 3 scene_point 7 ltac:(lia) ltac:(lia)) as [SH PL]. split; [exact SH|]. split; [exact PL|]. split; [exact scene_reset|]. split; intros F; discriminate F.
Qed.
Lemma scene_moves : is_static scene = false /\ time_step scene = 1 / 10.
Proof. unfold time_step, is_static. cbn [scene pb_time_step]. destruct (Req_EM_T (1 / 10) 0); [lra|split; reflexivity]. Qed.
Lemma scene_next : next_pos scene scene_vel = scene_pos.
Proof.
  unfold next_pos. rewrite (proj2 scene_moves). cbn [scene pb_active pb_pos pb_scheme seq map]. change (skipn 6 (repeat v3_0 6 ++ [V3 0 0 2])) with [V3 0 0 2]. unfold scene_pos. cbn [app].
  repeat (apply f_equal2; [apply FieldProofs.v3_eq; cbn; unfold TimeModel.lerp_step; cbn; field|]). reflexivity.
Qed.
Lemma scene_regular : exists p, update_problem scene scene_vel true = Some p /\ regular_state p.
Proof.
  destruct (update_ok scene scene_vel true scene_ok eq_refl) as (E & OK' & UC & AT). exists (updated scene scene_vel true). split; [exact E|]. unfold regular_state. cbv zeta. change (pb_pos (updated scene scene_vel true)) with (next_pos scene scene_vel). rewrite scene_next.
  split; [|split; [|split]].
  - intros e [<-|[]]. set (e := elem_of _ _). assert (D : m3_det (deformation_gradient e) = 1). { unfold e, deformation_gradient, elem_of, gather, shape_matrix. cbn [fst c0 c1 c2 c3 s_DX_inv s_vol s_lambda s_mu]. cbn. ElasticProofs.unm. ring. }
    cbn [m_gradient neo_hookean]. unfold nh_gradient. cbv zeta. rewrite D. destruct (Rle_dec 1 0); [lra|eexists; reflexivity].
  - intros e [<-|[]]. eexists. reflexivity.
  - split; [|intros d []]. intros t [<-|[]]. split; [cbv [f_DX_inv scene_tri m2_det m00 m01 m10 m11]; lra|]. intros Z. apply (f_equal vz) in Z. revert Z. cbn. lra.
  - clear AT. intros c Hc. change (pb_contacts (updated scene scene_vel true)) with (map (upd (next_pos scene scene_vel) true) (pb_contacts scene)) in Hc. apply in_map_iff in Hc. destruct Hc as (cg & <- & Hc). pose proof (UC cg Hc) as U. rewrite scene_next in U |- *.
    assert (EC : cg = (ContactHessProps.touch 3 scene_point, scene_gradient)) by (destruct Hc as [Hc|[]]; symmetry; exact Hc). subst cg. revert U. generalize (upd scene_pos true (ContactHessProps.touch 3 scene_point, scene_gradient)). intros c2 U. unfold update_contact in U. cbn [fst snd] in U.
    destruct (update_state (ContactHessProps.touch 3 scene_point) scene_pos true) as [c'|] eqn:EU; [|discriminate]. destruct (update_constraint_gradient scene_gradient c') as [g'|]; [|discriminate]. injection U as U. rewrite <- U. cbn [fst].
    destruct (ContactHessProps.touch_shape 3 scene_point 7 ltac:(lia) ltac:(lia)) as [SH0 _]. destruct (ContactMoveProofs.update_places _ 7 scene_pos true c' SH0 EU) as (SH & _ & PL & SS).
    destruct (ContactHessProps.touch_update 3 scene_point scene_pos true eq_refl eq_refl eq_refl eq_refl) as (c1 & E1 & VV & PP & _). rewrite EU in E1. injection E1 as <-.
    apply (ContactHessProps.touch_regular 3 scene_point c' SS VV PP 7 SH PL). unfold scene_point. intros Z. injection Z. lra.
Qed.
Lemma scene_zones : zones_defined scene /\ zones_exact scene /\ contacts_apart scene.
Proof.
  split; [intros z [<-|[]]; cbn; lra|]. split; [intros z [<-|[]]; reflexivity|]. intros c [<-|[]] v Hv Hw. cbn in Hv, Hw. destruct Hw as [<-|[]]. lia.
Qed.
Example residual_is_objective_gradient_ex : problem_ok scene /\ length scene_vel = pb_active scene /\ zones_defined scene /\ (exists p, update_problem scene scene_vel true = Some p /\ regular_state p) /\ 0 < prev_force_mul scene /\ is_static scene = false.
Proof. split; [exact scene_ok|]. split; [reflexivity|]. split; [apply scene_zones|]. split; [exact scene_regular|]. split; [unfold prev_force_mul; cbn; lra|apply scene_moves]. Qed.
Example jacobian_is_objective_hessian_ex : problem_ok scene /\ zones_defined scene /\ zones_exact scene /\ contacts_apart scene /\ (exists p, update_problem scene scene_vel true = Some p /\ regular_state p).
Proof. split; [exact scene_ok|]. split; [apply scene_zones|]. split; [apply scene_zones|]. split; [apply scene_zones|exact scene_regular]. Qed.
Example jacobian_layout_ex : problem_ok scene /\ length scene_vel = pb_active scene /\ exists l, constraint_hessian_indices (ContactHessProps.touch 3 scene_point) scene_gradient 6 = Some l /\ jacobian_nnz scene false = Some 402%nat.
Proof.
  split; [exact scene_ok|]. split; [reflexivity|]. assert (HC : In (ContactHessProps.touch 3 scene_point, scene_gradient) (pb_contacts scene)) by (left; reflexivity).
  destruct (contacts_ok scene scene_vel true scene_ok eq_refl _ HC) as (E & _). eexists. split; [exact E|]. unfold jacobian_nnz. rewrite (proj1 scene_moves). reflexivity.
Qed.
Example jacobian_diagonal_matches_ex : problem_ok scene /\ (0 < 3 * length (pb_pos scene))%nat. Proof. split; [exact scene_ok|cbn; lia]. Qed.
Example jacobi_preconditioner_scales_ex : problem_ok scene /\ (0 < 3 * pb_active scene)%nat. Proof. split; [exact scene_ok|cbn; lia]. Qed.

Print Assumptions residual_is_objective_gradient.
Print Assumptions jacobian_is_objective_hessian.
Print Assumptions jacobian_layout.
Print Assumptions jacobian_diagonal_matches.
Print Assumptions jacobi_preconditioner_scales.
