(** Properties of the approximate Jacobi preconditioner with friction. *)
From Coq Require Import Reals List Arith Bool Lra Lia.
From Coquelicot Require Import Coquelicot.
From Verif Require Import Vec3 Mat3 RList KernelModel KernelSpec FieldModel FieldSpec FieldProofs NeighborModel NeighborSpec NeighborProofs UpdateProps SurfJacModel SurfJacSpec SurfJacProofs SurfJacProps HessModel HessSpec SurfHessSpec ContactModel ContactJacModel ContactJacSpec ContactMapModel ContactMapSpec ContactMapProofs AssemblyModel ContactAsmModel ContactAsmSpec ContactDerivModel ContactDerivSpec ContactDerivProps BasisJacModel BasisJacSpec BasisJacProps ContactHessModel ContactHessSpec ContactHessProofs ContactRowProofs ContactMoveProofs FrictionModel FrictionSpec FricAsmModel FricAsmSpec FricForceSpec FricStateProofs FricActProofs FricFormProofs FricMoveProofs FricJacProofs FricTotalProofs FricEnergyProofs FricAsmProps ElasticModel ContactJacProofs FricEnergyProps ProblemModel ProblemSpec ProblemListProofs ProblemProofs ProblemMatrixProofs FricProblemModel FricProblemSpec FricProblemProofs FricProblemProps PrecondModel PrecondProofs PrecondFricProofs.
From Verif Require TimeModel ShellModel PrecondProps ContactAsmProofs FricExistsProofs ContactDerivProps BasisJacProps SurfJacProps.
Import ListNotations.
Local Open Scope R_scope.

(** Friction with the contacts, normal forces and bases held as they are now. *)
Definition held (f : friction_part) : friction_part := let o := pt_options f in
  FrictionPart (FrictionOptions (fo_profile o) (fo_params o) true (fo_incomplete o)) (pt_cur f) (pt_cur f).
Definition held_entry (iamax : v3 -> nat) (ord : list nat -> list nat) (p : problem) (k : nat) (f : friction_part) : R :=
  match part_jacobian iamax ord p (dqdv p) (Some (held f)) with Some J => matrix_entry J k k | None => 0 end.

Lemma held_sum iamax ord q f : lists_the_set ord -> friction_ok iamax ord q -> contacts_apart (fq_base q) -> In (Some f) (fq_parts q) -> fp_viscous (fo_params (pt_options f)) = 0 -> let p := fq_base q in
  (exists J, part_jacobian iamax ord p (dqdv p) (Some (held f)) = Some J) /\
  exists T, friction_terms p f = Some T /\ (forall t, In t T -> (fst t < 3 * pb_active p)%nat) /\ forall k, (k < 3 * pb_active p)%nat -> term_sum T k = dqdv p * dqdv p * held_entry iamax ord p k f.
Proof.
  intros OKO (OK & LP & FT) CA I NV p. fold p in OK, LP, FT, CA. destruct (part_of _ _ _ LP I) as ([c g] & I'). destruct (FT _ I' f eq_refl) as (_ & RC & EC). cbn [fst] in EC. assert (LV : length (pb_vel p) = length (pb_pos p)) by apply OK. assert (MN : (pb_active p <= length (pb_pos p))%nat) by apply OK.
  destruct (state_matrices iamax ord _ (pt_cur f) OKO RC) as (L & EL).
  assert (AP : forall v, In v (ct_surface (fs_contact (pt_cur f))) -> ~ In v (ct_collider (fs_contact (pt_cur f)))). { intros v. assert (IC : In (c, g) (pb_contacts p)) by exact (in_combine_l _ _ _ _ I'). specialize (CA _ IC v). injection EC as -> ->. exact CA. }
  destruct (FricExistsProofs.jacobian_exists iamax ord (length (pb_pos p)) (pt_options (held f)) (pt_cur f) (pt_cur f) (pb_vel p) (dqdv p) (pb_active p) OKO RC LV) as (J & EJ).
  split; [exists J; exact EJ|]. destruct (terms_total iamax ord OKO _ f p RC L EL LV NV AP) as (T & ET & RT & ST). exists T. split; [exact ET|]. split; [exact RT|]. intros k K. rewrite (ST k K). f_equal. unfold held_entry. cbn [part_jacobian held pt_options pt_prev pt_cur] in EJ |- *. rewrite EJ. symmetry.
  exact (lagged_diagonal iamax ord OKO _ f p RC L EL LV (dqdv p) (pt_options (held f)) (pt_cur f) J k MN eq_refl eq_refl eq_refl EJ K).
Qed.

(** C189: without viscosity, friction adds to the approximate diagonal the square of [dqdv] times the diagonal of the friction Jacobian with
    the contacts held as they are. *)
Theorem approximate_diagonal_with_friction : forall iamax ord q, lists_the_set ord -> friction_ok iamax ord q -> contacts_apart (fq_base q) ->
  (forall f, In (Some f) (fq_parts q) -> fp_viscous (fo_params (pt_options f)) = 0) -> let p := fq_base q in
  exists d d0, physical_diagonal q = Some d /\ physical_diagonal (FrictionProblem p (map (fun _ => None) (pb_contacts p))) = Some d0 /\ length d = (3 * pb_active p)%nat /\ length d0 = length d /\
    (forall f, In (Some f) (fq_parts q) -> exists J, part_jacobian iamax ord p (dqdv p) (Some (held f)) = Some J) /\
    forall k, (k < 3 * pb_active p)%nat -> nth k d 0 = nth k d0 0 + dqdv p * dqdv p * rsum (map (fun o => match o with None => 0 | Some f => held_entry iamax ord p k f end) (fq_parts q)).
Proof.
  intros iamax ord q OKO FO CA NV p. assert (OK : problem_ok p) by apply FO. assert (LP : length (fq_parts q) = length (pb_contacts p)) by apply FO.
  destruct (physical_ok q OK CA LP (fun f k => dqdv p * dqdv p * held_entry iamax ord p k f)) as (d & ED & LD & D); [intros f I; exact (proj2 (held_sum iamax ord q f OKO FO CA I (NV f I)))|].
  destruct (physical_ok (FrictionProblem p (map (fun _ => None) (pb_contacts p))) OK CA ltac:(cbn; rewrite map_length; reflexivity) (fun _ _ => 0)) as (d0 & ED0 & LD0 & D0). { intros f I. cbn in I. apply in_map_iff in I. destruct I as (? & X & _). discriminate X. }
  exists d, d0. split; [exact ED|]. split; [exact ED0|]. split; [exact LD|]. split; [rewrite LD; exact LD0|]. split; [intros f I; exact (proj1 (held_sum iamax ord q f OKO FO CA I (NV f I)))|].
  intros k K. rewrite (D k K), (D0 k K). cbn [fq_base fq_parts]. fold p. rewrite (rsum_zero (fun o : option friction_part => match o with None => 0 | Some _ => 0 end)) by (intros [f|] _; reflexivity).
  rewrite (rsum_ext (fun o => match o with None => 0 | Some f => dqdv p * dqdv p * held_entry iamax ord p k f end) (fun o => dqdv p * dqdv p * match o with None => 0 | Some f => held_entry iamax ord p k f end)) by (intros [f|] _; ring). rewrite (rsum_scale (dqdv p * dqdv p) (fun o => match o with None => 0 | Some f => held_entry iamax ord p k f end)). ring.
Qed.
Example approximate_diagonal_with_friction_ex : exists s, lists_the_set listed /\ forall lagged, friction_ok BasisJacProps.first_largest listed (glide s lagged) /\ contacts_apart (fq_base (glide s lagged)) /\
  (forall f, In (Some f) (fq_parts (glide s lagged)) -> fp_viscous (fo_params (pt_options f)) = 0) /\ length (fq_parts (glide s lagged)) = 1%nat.
Proof.
  destruct slide_state as (s & E & EC & EA & _ & RS). exists s. split; [exact ContactDerivProps.sorted_listing|]. intros lagged. split; [exact (glide_ok s lagged E RS)|]. split.
  - intros c [<-|[]]. cbn [fst]. rewrite EC. apply slide_sides.
  - split; [|reflexivity]. intros f [H|[]]. injection H as <-. reflexivity.
Qed.

(** ** A point at rest above two triangles *)
Definition rest_nodes : list TimeModel.node := map (fun q => TimeModel.fresh q 0) [0; 0; 0; 1; 0; 0; 0; 1; 0; 1; 1; 0; 1 / 4; 1 / 4; 1 / 2].
Definition rest_base (cg : contact * mapped v3) : problem := Problem [] [(SolidTet 0 1 2 4 m3_I (1 / 6) 1 1 (1 / 10), 1000)] (ShellModel.Shell [] [] (fun _ _ => 0%nat)) []
  [] [cg] (V3 0 0 (-98 / 10)) (1 / 10) TimeModel.SBE rest_nodes 5 (fun _ => v3_0) (repeat 0 15) (repeat v3_0 5) (repeat v3_0 5).
Definition at_rest (s : friction_state) : friction_problem := FrictionProblem (rest_base (fs_contact s, fs_distance s)) [Some (FrictionPart (rub true false) s s)].
Definition standing : list v3 := repeat v3_0 5.
Lemma rest_step cg : is_static (rest_base cg) = false /\ time_step (rest_base cg) = 1 / 10.
Proof. unfold time_step, is_static. cbn [rest_base pb_time_step]. destruct (Req_EM_T (1 / 10) 0); [lra|split; reflexivity]. Qed.
Lemma rest_next cg : next_pos (rest_base cg) standing = slide_at.
Proof.
  unfold next_pos. destruct (rest_step cg) as [_ ->]. cbn [rest_base pb_active pb_pos pb_scheme seq map]. change (skipn 5 (repeat v3_0 5)) with (@nil v3). unfold slide_at. cbn [app].
  repeat (apply f_equal2; [apply FieldProofs.v3_eq; cbn; unfold SurfJacProps.above; cbn; field|]). reflexivity.
Qed.
Lemma rest_ok s : precompute_friction BasisJacProps.first_largest listed slide 5 = Some s -> reached BasisJacProps.first_largest listed 5 s -> friction_ok BasisJacProps.first_largest listed (at_rest s).
Proof.
  intros E RS. destruct (glide_distance s E) as [EC ED]. unfold friction_ok. cbv zeta. cbn [at_rest fq_base fq_parts]. split; [|split; [reflexivity|]].
  - unfold problem_ok. cbv zeta. change (length (pb_pos (rest_base (fs_contact s, fs_distance s)))) with 5%nat. split; [cbn; lia|]. split; [reflexivity|]. split; [reflexivity|]. split; [reflexivity|].
    split. { intros e [[]|[<-|[]]]; (split; [repeat split; cbn; lia|]); unfold ElasticSpec.distinct_vertices; cbn; repeat (constructor; [cbn; lia|]); constructor. }
    split. { split; [intros t []|intros d c []]. } split. { split; [intros t []|intros d []]. } split. { intros z []. }
    split; [|exact Logic.I]. intros c [<-|[]]. rewrite EC. destruct (slide_shape 5 (le_n 5)) as [SH PL]. split; [exact SH|]. split; [exact PL|]. split; [exact ED|]. split; intros F; discriminate F.
  - intros e [<-|[]] f Ef. cbn [snd] in Ef. injection Ef as <-. cbn [pt_prev pt_cur fst]. split; [exact RS|]. split; [exact RS|reflexivity].
Qed.
Lemma pull_zero L : pull_form slide L (at3 standing) 0 = v3_0.
Proof.
  unfold pull_form. assert (Q : forall v, at3 standing v = v3_0) by (intros v; unfold at3, standing; destruct v as [|[|[|[|[|[|v]]]]]]; reflexivity). rewrite Q.
  assert (Z : block_product L (fun v => at3 standing (sv slide v)) (nth 0 (filled (ct_topo slide)) 0%nat) = v3_0).
  { unfold block_product. apply ContactAsmProofs.vsum_zero. intros [[r cl] B] _. rewrite Q. destruct (Nat.eqb r _); [|reflexivity]. apply v3_eq; unfold m3_mulv, v3_dot, v3_0; cbn [vx vy vz]; ring. }
  rewrite Z. apply v3_eq; unfold v3_sub, v3_0; cbn; ring.
Qed.
Lemma pull_axis L : pull_form slide L (unit_motion 12) 0 = V3 (-1) 0 0.
Proof.
  unfold pull_form. change (nth 0 (filled (ct_topo slide)) 0%nat) with 0%nat.
  assert (Z : block_product L (fun v => unit_motion 12 (sv slide v)) 0 = v3_0).
  { unfold block_product. apply ContactAsmProofs.vsum_zero. intros [[r cl] B] _. assert (Q : unit_motion 12 (sv slide cl) = v3_0) by (unfold sv; destruct cl as [|[|[|[|[|cl]]]]]; reflexivity). rewrite Q. destruct (Nat.eqb r 0); [|reflexivity]. apply v3_eq; unfold m3_mulv, v3_dot, v3_0; cbn [vx vy vz]; ring. }
  rewrite Z. apply v3_eq; unfold v3_sub, v3_0; cbn; ring.
Qed.
Lemma rest_tangent : let w := to_tangent_space (contact_frame BasisJacProps.first_largest (V3 0 0 1)) (V3 (-1) 0 0) in v2_dot w w = 1.
Proof.
  destruct slide_normal as [OR EN]. pose proof (ContactJacProofs.frame_isometry (contact_frame BasisJacProps.first_largest (V3 0 0 1)) (V3 (-1) 0 0) (V3 (-1) 0 0) OR) as H.
  assert (Z : vx (to_contact_coordinates (contact_frame BasisJacProps.first_largest (V3 0 0 1)) (V3 (-1) 0 0)) = 0) by (unfold to_contact_coordinates, contact_basis_matrix, m3_mulv; cbn [vx r0]; rewrite EN; unfold v3_dot; cbn [vx vy vz]; ring).
  cbv zeta. unfold to_tangent_space. cbv zeta. destruct (to_contact_coordinates _ _) as [x y z]. cbn [vx] in Z. subst x. unfold v3_dot in H. cbn [vx vy vz] in H. unfold v2_dot. cbn [vx vy vz v2x v2y]. lra.
Qed.
Lemma rest_entry L : let fr := frame_at BasisJacProps.first_largest slide 0 in
  v2_dot (to_tangent_space fr (pull_form slide L (unit_motion 12) 0)) (friction_jacobian_mul Stabilized (to_tangent_space fr (pull_form slide L (at3 standing) 0)) (lam_at slide 0) rubber (to_tangent_space fr (pull_form slide L (unit_motion 12) 0))) = 1125.
Proof.
  cbv zeta. rewrite pull_zero, pull_axis. assert (EF : frame_at BasisJacProps.first_largest slide 0 = contact_frame BasisJacProps.first_largest (V3 0 0 1)) by (unfold frame_at, grad_at; change (row_at slide 0) with (0%nat, (SurfJacProps.above, [0; 1]%nat)); rewrite slide_gradient; reflexivity). rewrite EF.
  assert (EL' : lam_at slide 0 = 9 / 4). { unfold lam_at. change (row_at slide 0) with (0%nat, (SurfJacProps.above, [0; 1]%nat)). assert (ED : dpot slide (0%nat, (SurfJacProps.above, [0; 1]%nat)) = 1 / 2) by (pose proof slide_potential; lra). rewrite ED. cbn [slide ct_delta ct_kappa]. unfold penalty_db. destruct (Rlt_dec 0 (1 - 1 / 2)); [|lra]. field. } rewrite EL'.
  pose proof rest_tangent as T. cbv zeta in T. set (w := to_tangent_space _ (V3 (-1) 0 0)) in *. clearbody w.
  assert (W0 : to_tangent_space (contact_frame BasisJacProps.first_largest (V3 0 0 1)) v3_0 = V2 0 0). { unfold to_tangent_space, to_contact_coordinates. cbv zeta. rewrite mulv_zero. reflexivity. } rewrite W0.
  assert (N0 : v2_norm (V2 0 0) = 0) by (unfold v2_norm, v2_dot; cbn [v2x v2y]; replace (0 * 0 + 0 * 0) with 0 by ring; apply sqrt_0). unfold friction_jacobian_mul. cbv zeta. rewrite N0. destruct (Rlt_dec 0 0) as [C|_]; [lra|].
  unfold rubber, sliding_profile. cbn [fp_dynamic fp_static fp_viscous fp_stribeck fp_epsilon]. set (h := falloff 0 1). clearbody h.
  match goal with |- v2_dot w (v2_scale ?a w) = _ => replace (v2_dot w (v2_scale a w)) with (a * v2_dot w w) by (unfold v2_dot, v2_scale; cbn [v2x v2y]; ring) end. rewrite T. field.
Qed.

(** C190, refuted: with friction the approximate diagonal is not that of the Jacobian, not even for lagged friction when nothing moved
    since the previous step and no volumes are enclosed: the friction part has [dqdv] once too often. *)
Theorem approximate_diagonal_friction_scale_refuted : exists iamax ord q0 V q ij vals d k, lists_the_set ord /\ friction_ok iamax ord q0 /\ contacts_apart (fq_base q0) /\ length V = pb_active (fq_base q0) /\ pb_zones (fq_base q0) = [] /\
  update_friction_problem iamax q0 V true = Some q /\ (forall f, In (Some f) (fq_parts q) -> fo_lagged (pt_options f) = true /\ fs_contact (pt_prev f) = fs_contact (pt_cur f) /\ fp_viscous (fo_params (pt_options f)) = 0) /\
  friction_indices iamax ord q0 true = Some ij /\ friction_values iamax ord q true ij = Some vals /\ physical_diagonal q = Some d /\ (k < 3 * pb_active (fq_base q0))%nat /\
  nth k d 0 = matrix_entry (combine ij vals) k k - 405 / 4.
Proof.
  destruct slide_state as (s & E & EC & EA & _ & RS). set (ia := BasisJacProps.first_largest) in *. pose proof (rest_ok s E RS) as FO. assert (OKO := ContactDerivProps.sorted_listing : lists_the_set listed). assert (LV : length standing = pb_active (fq_base (at_rest s))) by reflexivity.
  assert (OK : problem_ok (fq_base (at_rest s))) by apply FO. assert (CA : contacts_apart (fq_base (at_rest s))) by (intros c [<-|[]]; cbn [fst]; rewrite EC; apply slide_sides).
  destruct (friction_update ia listed OKO (at_rest s) standing true FO LV) as (EU & FO'). set (q := moved ia (at_rest s) standing true) in *. set (p := updated (fq_base (at_rest s)) standing true).
  destruct (nnz_friction ia listed OKO (at_rest s) standing true FO LV) as (room & N0 & _ & RM). destruct (indices_friction ia listed OKO (at_rest s) standing true FO LV room RM) as (I0 & _). pose proof (values_friction ia listed OKO (at_rest s) standing true FO LV) as EV. fold q in EV.
  assert (UP : update_state (fs_contact s) (next_pos (fq_base (at_rest s)) standing) true = Some slide) by (cbn [at_rest fq_base]; rewrite rest_next, EC; reflexivity).
  assert (LX : length (next_pos (fq_base (at_rest s)) standing) = 5%nat) by (cbn [at_rest fq_base]; rewrite rest_next; reflexivity).
  destruct (state_moves ia listed OKO 5 s _ true _ RS LX UP) as (_ & EC' & _ & RS' & _). set (s' := next_state ia (next_pos (fq_base (at_rest s)) standing) true s) in *.
  set (f := FrictionPart (rub true false) s s'). assert (EQ : fq_parts q = [Some f]) by reflexivity. assert (EB : fq_base q = p) by reflexivity.
  assert (CA' : contacts_apart (fq_base q)).
  { intros c Ic. destruct FO' as (_ & _ & FT). rewrite EQ in FT. assert (IC : In (c, Some f) (combine (pb_contacts (fq_base q)) [Some f])) by (destruct Ic as [Ic|[]]; left; rewrite Ic; reflexivity). destruct (FT _ IC f eq_refl) as (_ & _ & EC2). cbn [fst f pt_cur] in EC2. rewrite EC2. cbn [fst]. rewrite EC'. apply slide_sides. }
  destruct (approximate_diagonal_with_friction ia listed q OKO FO' CA') as (d & d0 & ED & ED0 & _ & _ & _ & D). { rewrite EQ. intros x [X|[]]. injection X as <-. reflexivity. }
  assert (HD : dqdv p = 1 / 10). { change (dqdv p) with (dqdv (fq_base (at_rest s))). unfold dqdv. cbn [at_rest fq_base]. destruct (rest_step (fs_contact s, fs_distance s)) as [_ ->]. unfold force_mul. cbn. lra. }
  exists ia, listed, (at_rest s), standing, q. do 2 eexists. exists d, 12%nat. split; [exact OKO|]. split; [exact FO|]. split; [exact CA|]. split; [exact LV|]. split; [reflexivity|]. split; [exact EU|].
  split. { rewrite EQ. intros x [X|[]]. injection X as <-. split; [reflexivity|]. split; [cbn [f pt_prev pt_cur]; congruence|reflexivity]. }
  split; [unfold friction_indices; rewrite N0; exact I0|]. split; [exact EV|]. split; [exact ED|]. split; [cbn; lia|].
  rewrite (friction_entries ia listed OKO (at_rest s) standing true FO LV). fold p. fold q. rewrite EQ. cbn [map]. rewrite rsum_cons, rsum_nil, (D 12%nat ltac:(cbn; lia)), EQ. cbn [map]. rewrite rsum_cons, rsum_nil, EB, HD.
  assert (VV : pb_vel p = standing) by reflexivity.
  assert (H1 : held_entry ia listed p 12 f = 1125).
  { destruct (state_matrices ia listed 5 s' OKO RS') as (L & EL). destruct (FricExistsProofs.jacobian_exists ia listed 5 (pt_options (held f)) s' s' (pb_vel p) (dqdv p) 5 OKO RS' eq_refl) as (J & EJ).
    pose proof (lagged_diagonal ia listed OKO 5 f p RS' L EL eq_refl (dqdv p) (pt_options (held f)) s' J 12 (le_n 5) eq_refl eq_refl eq_refl EJ ltac:(cbn; lia)) as H. unfold held_entry. cbn [part_jacobian held pt_options pt_prev pt_cur f] in EJ |- *. change (pb_active p) with 5%nat. rewrite EJ, H. cbn [f pt_cur pt_options rub fo_profile fo_params]. rewrite EC', VV. change (length (filled (ct_topo slide))) with 1%nat. cbn [seq map]. rewrite rsum_cons, rsum_nil. change (nth 0 (filled (ct_topo slide)) 0%nat) with 0%nat. pose proof (rest_entry L) as RE. cbv zeta in RE. fold ia in RE. rewrite RE. ring. }
  assert (H2 : matrix_entry (pj ia listed p (1 / 10) (Some f)) 12 12 = 1125).
  { destruct (state_matrices ia listed 5 s OKO RS) as (L & EL). destruct (FricExistsProofs.jacobian_exists ia listed 5 (rub true false) s s' (pb_vel p) (1 / 10) 5 OKO RS' eq_refl) as (J & EJ).
    pose proof (lagged_diagonal ia listed OKO 5 (FrictionPart (rub true false) s s) p RS L EL eq_refl (1 / 10) (rub true false) s' J 12 (le_n 5) eq_refl eq_refl eq_refl EJ ltac:(cbn; lia)) as H. unfold pj. cbn [part_jacobian pt_options pt_prev pt_cur f]. change (pb_active p) with 5%nat. rewrite EJ, H. cbn [pt_cur pt_options rub fo_profile fo_params]. rewrite EC, VV. change (length (filled (ct_topo slide))) with 1%nat. cbn [seq map]. rewrite rsum_cons, rsum_nil. change (nth 0 (filled (ct_topo slide)) 0%nat) with 0%nat. pose proof (rest_entry L) as RE. cbv zeta in RE. fold ia in RE. rewrite RE. ring. }
  rewrite H1, H2.
  assert (H3 : nth 12 d0 0 = matrix_entry (combine (all_ij (fq_base (at_rest s)) standing true) (all_vals (fq_base (at_rest s)) standing true)) 12 12).
  { destruct (PrecondProps.approximate_diagonal_matches (fq_base (at_rest s)) standing true p OK CA LV (proj1 (update_ok _ standing true OK LV))) as (d' & r & ij & vals & ED' & _ & _ & _ & EI & EVV & H). rewrite EB in ED0. rewrite ED0 in ED'. injection ED' as <-. destruct (H 12%nat ltac:(cbn; lia)) as [H0 _]. rewrite H0. cbn [at_rest fq_base rest_base pb_zones map]. rewrite rsum_nil.
    destruct (nnz_ok (fq_base (at_rest s)) standing true OK LV) as (room0 & M0 & _ & L0). destruct (indices_of (fq_base (at_rest s)) standing true OK LV room0 L0) as [J0 _]. unfold jacobian_indices in EI. rewrite M0 in EI. cbn [bind] in EI. rewrite J0 in EI. injection EI as <-. pose proof (values_of (fq_base (at_rest s)) standing true OK LV) as VO. fold p in VO. assert (VE : Some vals = Some (all_vals (fq_base (at_rest s)) standing true)) by exact (eq_trans (eq_sym EVV) VO). injection VE as ->. cbn [at_rest fq_base]. ring. }
  rewrite H3. lra.
Qed.

Print Assumptions approximate_diagonal_with_friction.
Print Assumptions approximate_diagonal_friction_scale_refuted.
