(** Static problems: without a time step velocities are displacements, and the residual is the gradient of the energy. *)
From Coq Require Import Reals List Arith Bool Lra Lia.
From Coquelicot Require Import Coquelicot.
From Verif Require Import Vec3 Mat3 RList ElasticModel ElasticSpec MassModel ShellModel ShellSpec VolumeModel VolumeSpec.
From Verif Require Import SurfJacSpec SurfHessSpec JetProofs ContactAsmModel ContactHessModel ContactHessSpec.
From Verif Require Import ProblemModel ProblemSpec ProblemListProofs ProblemEnergyProofs ProblemProofs ProblemMatrixProofs ProblemProps.
From Verif Require FieldProofs TimeModel TimeSpec ContactHessProps ContactRowProofs ContactMoveProofs ElasticProofs.
Import ListNotations.
Local Open Scope R_scope.

(** The energy for displacements [V] of the vertices that may move. *)
Definition energy_at (p : problem) (rebuild : bool) (V : list v3) : option ext :=
  match update_problem p V rebuild with Some p' => problem_energy p' | None => None end.

Lemma static_next p V i : is_static p = true -> pb_scheme p = TimeModel.SBE -> (i < pb_active p)%nat ->
  at_ (next_pos p V) i = v3_add (by_coordinate (fun k => TimeModel.q_cur (node_at p k)) i) (at_ V i).
Proof.
  intros ST SB I. rewrite next_pos_at. destruct (Nat.ltb_spec i (pb_active p)); [|lia]. unfold by_coordinate. rewrite SB. unfold time_step. rewrite ST. cbn [TimeModel.integrate_step].
  assert (Q : forall m r, (r < 3)%nat -> coords (at_ V) (3 * m + r) = v3_get (at_ V m) r) by (intros m r Hr; unfold coords; replace ((3 * m + r) / 3)%nat with m by (apply (Nat.div_unique _ 3 m r); lia); replace ((3 * m + r) mod 3) with r by (apply (Nat.mod_unique _ 3 m r); lia); reflexivity).
  assert (Q0 : coords (at_ V) (3 * i) = vx (at_ V i)) by (replace (3 * i)%nat with (3 * i + 0)%nat by lia; rewrite Q by lia; reflexivity).
  rewrite !nth_stack, Q0, (Q i 1%nat), (Q i 2%nat) by lia. unfold v3_add, v3_get. cbn [vx vy vz]. f_equal; ring.
Qed.

(** C175.  In a static problem the unknowns are displacements of the vertices that may move, the objective is the energy, and the residual
    is its gradient in the positions: where it vanishes forces balance. *)
Theorem static_residual_is_energy_gradient : forall p0 V rb p W rb', problem_ok p0 -> pb_time_step p0 = 0 -> pb_scheme p0 = TimeModel.SBE -> length V = pb_active p0 ->
  update_problem p0 V rb = Some p -> zones_defined p0 -> regular_state p ->
  (forall i, nth i (pb_pos p) v3_0 = if Nat.ltb i (pb_active p0) then v3_add (by_coordinate (fun k => TimeModel.q_cur (node_at p0 k)) i) (nth i V v3_0) else nth i (pb_pos p0) v3_0) /\
  (forall s, exists ps, update_problem p (mesh_line V W s) rb' = Some ps /\ compute_objective ps = problem_energy ps /\
    forall i, nth i (pb_pos ps) v3_0 = if Nat.ltb i (pb_active p0) then v3_add (nth i (pb_pos p) v3_0) (v3_scale s (W i)) else nth i (pb_pos p) v3_0) /\
  exists r, residual p = Some r /\ length r = (3 * pb_active p0)%nat /\
    is_derive (fun s => real_value (energy_at p rb' (mesh_line V W s))) 0 (rsum (map (fun k => nth k r 0 * coordinate W k) (seq 0 (3 * pb_active p0)))).
Proof.
  intros p0 V rb p W rb' OK T0 SB LV E ZD RG. destruct (settled p0 V rb p OK LV E) as (EP & OK' & ATX & _ & _).
  assert (ST : is_static p = true) by (rewrite EP; unfold is_static; cbn [updated pb_time_step]; rewrite T0; destruct (Req_EM_T 0 0); [reflexivity|lra]).
  assert (ST0 : is_static p0 = true) by (unfold is_static; rewrite T0; destruct (Req_EM_T 0 0); [reflexivity|lra]).
  assert (SBp : pb_scheme p = TimeModel.SBE) by (rewrite EP; exact SB). assert (AC : pb_active p = pb_active p0) by (rewrite EP; reflexivity). assert (LV' : length V = pb_active p) by (rewrite AC; exact LV).
  assert (OE : forall ps, is_static ps = true -> pb_scheme ps = TimeModel.SBE -> compute_objective ps = problem_energy ps).
  { intros ps S1 S2. unfold compute_objective, prev_force_mul. rewrite S1, S2. cbn [TimeModel.explicit_factor]. destruct (Rlt_dec 0 0); [lra|]. destruct (problem_energy ps) as [[e|]|]; cbn; [rewrite Rplus_0_l|..]; reflexivity. }
  assert (UP : forall s, update_problem p (mesh_line V W s) rb' = Some (updated p (mesh_line V W s) rb')) by (intros s; apply update_ok; [exact OK'|rewrite line_length; exact LV']).
  assert (US : forall s, is_static (updated p (mesh_line V W s) rb') = true) by (intros s; exact ST).
  split; [|split].
  - intros i. rewrite EP. cbn [updated pb_pos]. change (nth i (next_pos p0 V) v3_0) with (at_ (next_pos p0 V) i). destruct (Nat.ltb_spec i (pb_active p0)) as [I|I]; [apply static_next; assumption|]. rewrite next_pos_at. destruct (Nat.ltb_spec i (pb_active p0)); [lia|reflexivity].
  - intros s. exists (updated p (mesh_line V W s) rb'). split; [apply UP|]. split; [apply OE; [apply US|exact SBp]|]. intros i. cbn [updated pb_pos]. change (nth i (next_pos p (mesh_line V W s)) v3_0) with (at_ (next_pos p (mesh_line V W s)) i). rewrite <- AC.
    destruct (Nat.ltb_spec i (pb_active p)) as [I|I]; [|rewrite next_pos_at; destruct (Nat.ltb_spec i (pb_active p)); [lia|reflexivity]].
    rewrite static_next by assumption. rewrite at_line, LV'. destruct (Nat.ltb_spec i (pb_active p)); [|lia]. rewrite <- ATX. change (nth i (next_pos p V) v3_0) with (at_ (next_pos p V) i). rewrite static_next by assumption.
    generalize (by_coordinate (fun k => TimeModel.q_cur (node_at p k)) i) (at_ V i). intros [a1 a2 a3] [b1 b2 b3]. unfold v3_line, v3_add, v3_scale. cbn [vx vy vz]. f_equal; ring.
  - destruct (residual_is_objective_gradient p0 V rb p W rb' OK LV E ZD RG) as (r & ER & LR & _ & D). exists r. refine (conj ER (conj LR _)). refine (is_derive_ext _ _ _ _ _ D). intros s. unfold objective_at, energy_at. rewrite UP, OE; [reflexivity|apply US|exact SBp].
Qed.

(** The scene of ProblemProps without a time step. *)
Definition still_displacement : list v3 := [v3_0; v3_0; v3_0; V3 0 0 (- (1 / 20)); v3_0; v3_0].
Definition still : problem := Problem [(SolidTet 4 5 6 3 m3_I (1 / 6) 1 1 (1 / 10), 1000)] [(SolidTet 0 1 2 3 m3_I (1 / 6) 1 1 (1 / 10), 1000)] (Shell [scene_tri] [] (fun _ _ => 0%nat)) [1]
  [Zone (tet_faces (4, 5, 6, 3)%nat) (1 / 6) 2 (1 / 2) false] [(ContactHessProps.touch 3 scene_point, scene_gradient)] (V3 0 0 (-98 / 10)) 0 TimeModel.SBE scene_nodes 6 (fun _ => v3_0) (repeat 1 21) (repeat v3_0 6 ++ [V3 0 0 2]) (repeat v3_0 7).
Lemma still_static : is_static still = true /\ time_step still = 1.
Proof. unfold time_step, is_static. cbn [still pb_time_step]. destruct (Req_EM_T 0 0); [split; reflexivity|lra]. Qed.
Lemma still_ok : problem_ok still.
Proof.
  unfold problem_ok. cbv zeta. change (length (pb_pos still)) with 7%nat. split; [cbn; lia|]. split; [reflexivity|]. split; [reflexivity|]. split; [reflexivity|].
  split. { intros e [[<-|[]]|[<-|[]]]; (split; [repeat split; cbn; lia|]); unfold distinct_vertices; cbn; repeat (constructor; [cbn; lia|]); constructor. }
  split. { split; [intros t [<-|[]]; cbn; lia|intros d c []]. }
  split. { split; [intros t [<-|[]]; cbn; repeat constructor; cbn; lia|intros d []]. }
  split. { intros z [<-|[]] t Ht. cbn in Ht. repeat (destruct Ht as [<-|Ht]; [cbn; lia|]). destruct Ht. }
  split; [|exact Logic.I]. intros c [<-|[]]. destruct (ContactHessProps.touch_shape 3 scene_point 7 ltac:(lia) ltac:(lia)) as [SH PL]. split; [exact SH|]. split; [exact PL|]. split; [exact scene_reset|]. split; intros F; discriminate F.
Qed.
Lemma still_next : next_pos still still_displacement = scene_pos.
Proof.
  unfold next_pos. rewrite (proj2 still_static). cbn [still pb_active pb_pos pb_scheme seq map]. change (skipn 6 (repeat v3_0 6 ++ [V3 0 0 2])) with [V3 0 0 2]. unfold scene_pos. cbn [app].
  repeat (apply f_equal2; [apply FieldProofs.v3_eq; cbn; unfold TimeModel.lerp_step; cbn; field|]). reflexivity.
Qed.
Lemma still_regular : exists p, update_problem still still_displacement true = Some p /\ regular_state p.
Proof.
  destruct (update_ok still still_displacement true still_ok eq_refl) as (E & OK' & UC & AT). exists (updated still still_displacement true). split; [exact E|]. unfold regular_state. cbv zeta. change (pb_pos (updated still still_displacement true)) with (next_pos still still_displacement). rewrite still_next.
  split; [|split; [|split]].
  - intros e [<-|[]]. set (e := elem_of _ _). assert (D : m3_det (deformation_gradient e) = 1). { unfold e, deformation_gradient, elem_of, gather, shape_matrix. cbn [fst c0 c1 c2 c3 s_DX_inv s_vol s_lambda s_mu]. cbn. ElasticProofs.unm. ring. }
    cbn [m_gradient neo_hookean]. unfold nh_gradient. cbv zeta. rewrite D. destruct (Rle_dec 1 0); [lra|eexists; reflexivity].
  - intros e [<-|[]]. eexists. reflexivity.
  - split; [|intros d []]. intros t [<-|[]]. split; [cbv [f_DX_inv scene_tri m2_det m00 m01 m10 m11]; lra|]. intros Z. apply (f_equal vz) in Z. revert Z. cbn. lra.
  - clear AT. intros c Hc. change (pb_contacts (updated still still_displacement true)) with (map (upd (next_pos still still_displacement) true) (pb_contacts still)) in Hc. apply in_map_iff in Hc. destruct Hc as (cg & <- & Hc). pose proof (UC cg Hc) as U. rewrite still_next in U |- *.
    assert (EC : cg = (ContactHessProps.touch 3 scene_point, scene_gradient)) by (destruct Hc as [Hc|[]]; symmetry; exact Hc). subst cg. revert U. generalize (upd scene_pos true (ContactHessProps.touch 3 scene_point, scene_gradient)). intros c2 U. unfold update_contact in U. cbn [fst snd] in U.
    destruct (update_state (ContactHessProps.touch 3 scene_point) scene_pos true) as [c'|] eqn:EU; [|discriminate]. destruct (update_constraint_gradient scene_gradient c') as [g'|]; [|discriminate]. injection U as U. rewrite <- U. cbn [fst].
    destruct (ContactHessProps.touch_shape 3 scene_point 7 ltac:(lia) ltac:(lia)) as [SH0 _]. destruct (ContactMoveProofs.update_places _ 7 scene_pos true c' SH0 EU) as (SH & _ & PL & SS).
    destruct (ContactHessProps.touch_update 3 scene_point scene_pos true eq_refl eq_refl eq_refl eq_refl) as (c1 & E1 & VV & PP & _). rewrite EU in E1. injection E1 as <-.
    apply (ContactHessProps.touch_regular 3 scene_point c' SS VV PP 7 SH PL). unfold scene_point. intros Z. injection Z. lra.
Qed.
Lemma still_zones : zones_defined still /\ zones_exact still /\ contacts_apart still.
Proof.
  split; [intros z [<-|[]]; cbn; lra|]. split; [intros z [<-|[]]; reflexivity|]. intros c [<-|[]] v Hv Hw. cbn in Hv, Hw. destruct Hw as [<-|[]]. lia.
Qed.
Example static_residual_is_energy_gradient_ex : problem_ok still /\ pb_time_step still = 0 /\ pb_scheme still = TimeModel.SBE /\ length still_displacement = pb_active still /\ zones_defined still /\
  (exists p, update_problem still still_displacement true = Some p /\ regular_state p) /\ next_pos still still_displacement = scene_pos.
Proof. split; [exact still_ok|]. split; [reflexivity|]. split; [reflexivity|]. split; [reflexivity|]. split; [apply still_zones|]. split; [exact still_regular|exact still_next]. Qed.

Print Assumptions static_residual_is_energy_gradient.
