(** A falling tetrahedron without stiffness: the linear system of a Newton step is that of its masses. *)
From Coq Require Import Reals List Arith Bool Lra Lia.
From Coquelicot Require Import Coquelicot.
From Verif Require Import Vec3 Mat3 RList ElasticModel ElasticSpec MassModel ShellModel VolumeModel VolumeSpec NeighborModel SurfJacSpec SurfHessSpec ContactAsmModel ContactDerivSpec BasisJacSpec ContactHessModel ContactHessSpec.
From Verif Require Import FrictionModel FricAsmModel FricForceSpec ProblemModel ProblemSpec ProblemListProofs ProblemProofs ProblemDerivSpec FricProblemModel FricProblemSpec FricProblemProofs FricDerivSpec ProductModel ProductProofs DescentModel DescentProofs.
From Verif Require TimeModel FieldProofs.
Import ListNotations.
Local Open Scope R_scope.

Definition dust_tet : solid_tet := SolidTet 0 1 2 3 m3_I (1 / 6) 0 0 0.
Definition dust_base : problem := Problem [(dust_tet, 1000)] [] (Shell [] [] (fun _ _ => 0%nat)) [] [] [] (V3 0 0 (-98 / 10)) (1 / 10) TimeModel.SBE
  [TimeModel.fresh 1 0; TimeModel.fresh 0 0; TimeModel.fresh 0 0] 1 (fun _ => v3_0) (repeat 0 12) [V3 1 0 0; V3 0 1 0; V3 0 0 1; v3_0] (repeat v3_0 4).
Definition dust : friction_problem := FrictionProblem dust_base [].
Definition dust_after (rb : bool) : friction_problem := FrictionProblem (updated dust_base [v3_0] rb) [].
Lemma dust_updates iamax rb : update_friction_problem iamax dust [v3_0] rb = Some (dust_after rb).
Proof. reflexivity. Qed.
Lemma dust_ok iamax ord : friction_ok iamax ord dust.
Proof.
  split; [|split; [reflexivity|intros e []]]. unfold problem_ok. cbv zeta. cbn [dust fq_base dust_base pb_pos length pb_active pb_vel pb_prev_force repeat pb_shell_density pb_shell sh_tris sh_dihedrals pb_nh pb_snh pb_zones pb_contacts pb_scheme].
  split; [lia|]. split; [reflexivity|]. split; [reflexivity|]. split; [reflexivity|]. split; [intros e [[<-|[]]|[]]; (split; [repeat split; cbn; lia|]); unfold distinct_vertices; cbn; repeat (constructor; [cbn; lia|]); constructor|]. split; [split; [intros t []|intros t c []]|]. split; [split; intros t []|]. split; [intros z []|]. split; [intros c []|exact Logic.I].
Qed.
Lemma dust_step p : pb_time_step p = 1 / 10 -> is_static p = false /\ time_step p = 1 / 10.
Proof. intros E. unfold time_step, is_static. rewrite E. destruct (Req_EM_T (1 / 10) 0); [lra|split; reflexivity]. Qed.
Lemma dust_next U : next_pos dust_base [U] = [V3 (1 + vx U / 10) (vy U / 10) (vz U / 10); V3 0 1 0; V3 0 0 1; v3_0].
Proof. unfold next_pos. rewrite (proj2 (dust_step dust_base eq_refl)). cbn. f_equal. apply FieldProofs.v3_eq; cbn; field. Qed.
Lemma dust_force h x v : 0 < m3_det (deformation_gradient (elem_of dust_tet (gather dust_tet x))) -> tet_gradient_with_damping neo_hookean dust_tet h x v = Some (Tet v3_0 v3_0 v3_0 v3_0).
Proof.
  intros D. unfold tet_gradient_with_damping. cbv zeta. set (dH := m_product _ _ _). clearbody dH. cbn [neo_hookean m_gradient]. unfold nh_gradient. cbv zeta. destruct (Rle_dec _ 0); [lra|]. set (F := deformation_gradient _). set (Fi := m3_inv_transpose F). clearbody Fi. clearbody F.
  f_equal. unfold tet_add. f_equal; apply FieldProofs.v3_eq; cbn; unfold v3_dot; cbn; field.
Qed.
Definition dust_mass : R := 1000 / 24.
Lemma dust_residual iamax rb rb' U : 0 < 1 + vx U / 10 -> whole_residual_at iamax (dust_after rb) rb' [U] = Some [dust_mass * vx U; dust_mass * vy U; dust_mass * (vz U + 98 / 100)].
Proof.
  intros D. unfold whole_residual_at. assert (E : update_friction_problem iamax (dust_after rb) [U] rb' = Some (FrictionProblem (updated (updated dust_base [v3_0] rb) [U] rb') [])) by reflexivity. rewrite E.
  set (p := updated (updated dust_base [v3_0] rb) [U] rb'). destruct (dust_step p eq_refl) as [ST TS]. assert (PX : pb_pos p = [V3 (1 + vx U / 10) (vy U / 10) (vz U / 10); V3 0 1 0; V3 0 0 1; v3_0]).
  { change (pb_pos p) with (next_pos (updated dust_base [v3_0] rb) [U]). rewrite <- dust_next. unfold next_pos at 1. change (pb_pos (updated dust_base [v3_0] rb)) with (next_pos dust_base [v3_0]). rewrite dust_next. unfold next_pos. rewrite (proj2 (dust_step dust_base eq_refl)), (proj2 (dust_step (updated dust_base [v3_0] rb) eq_refl)). reflexivity. }
  assert (PV : pb_vel p = [U; v3_0; v3_0; v3_0]) by reflexivity.
  unfold friction_residual, friction_vertex_residual. cbv zeta. cbn [fq_base fq_parts]. rewrite ST.
  assert (SF : subtract_forces p = Some (stack (repeat (V3 0 0 (dust_mass * (98 / 10))) 4))).
  { unfold subtract_forces. cbv zeta. change (nh_tets p) with [dust_tet]. cbn [add_mesh_gradient]. rewrite dust_force; [|rewrite PX; unfold m3_det, deformation_gradient, m3_mul, v3_cross; cbn; unfold v3_dot; cbn; unfold v3_dot; cbn; match goal with |- 0 < ?a => replace a with (1 + vx U / 10) by field end; exact D]. unfold pb_size. rewrite PX. cbn [length]. cbn -[v3_add v3_neg v3_scale vertex_mass stack unstack]. cbn [stack unstack flat_map app]. unfold vertex_mass, dust_mass. cbn. repeat (f_equal; try field). }
  rewrite SF. cbn [bind subtract_friction_forces option_map]. destruct (Rlt_dec 0 (prev_force_mul p)) as [B|_]; [exfalso; revert B; change (prev_force_mul p) with (TimeModel.explicit_factor TimeModel.SBE); cbn; lra|].
  assert (H : dqdv p = 1 / 10) by (unfold dqdv; rewrite TS; cbn; ring). rewrite H. unfold add_momentum_diff. cbv zeta. rewrite PV. cbn -[v3_add v3_neg v3_scale v3_sub vertex_mass]. unfold vertex_mass, dust_mass. cbn. repeat (f_equal; try field).
Qed.
Lemma dust_regular rb : regular_state (fq_base (dust_after rb)).
Proof.
  unfold regular_state. cbv zeta. cbn [dust_after fq_base]. change (pb_pos (updated dust_base [v3_0] rb)) with (next_pos dust_base [v3_0]). rewrite dust_next. split; [|split; [intros e []|split; [split; intros t []|intros c []]]].
  intros e [<-|[]]. cbn [fst neo_hookean m_gradient]. unfold nh_gradient. cbv zeta. destruct (Rle_dec _ 0) as [B|]; [|eexists; reflexivity]. exfalso. revert B. unfold m3_det, deformation_gradient, m3_mul, v3_cross. cbn. unfold v3_dot. cbn. unfold v3_dot. cbn. lra.
Qed.
