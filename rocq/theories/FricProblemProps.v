(** Properties of the problem with frictional contacts: its residual, the layout of its Jacobian, and what friction adds to the Jacobian. *)
From Coq Require Import Reals List Arith Bool Lra Lia.
From Coquelicot Require Import Coquelicot.
From Verif Require Import Vec3 Mat3 RList ElasticModel ElasticSpec MassModel ShellModel ShellSpec VolumeModel VolumeSpec NeighborModel SurfJacSpec SurfHessSpec ContactAsmModel ContactDerivSpec BasisJacSpec ContactHessModel ContactHessSpec.
From Verif Require Import FrictionModel FricAsmModel FricForceSpec ProblemModel ProblemSpec ProblemListProofs ProblemProofs ProblemMatrixProofs FricProblemModel FricProblemSpec FricProblemProofs.
From Verif Require TimeModel FieldProofs FieldSpec NeighborSpec SurfJacProps BasisJacProps ContactDerivProps FricTotalProofs ContactHessProofs FricExistsProofs FricAsmProps FricLayoutProps ProblemProps ContactMoveProofs.
Import ListNotations.
Local Open Scope R_scope.

(** C176: friction takes the impulse of all friction forces together away from the residual, and nothing else; [symmetric] takes the contacts
    and bases of the previous step. *)
Theorem friction_residual_splits : forall iamax ord q symmetric, friction_ok iamax ord q -> regular_state (fq_base q) -> let p := fq_base q in
  exists r r0, friction_residual q symmetric = Some r /\ residual p = Some r0 /\ length r = (3 * pb_active p)%nat /\ length r0 = (3 * pb_active p)%nat /\
    forall k, (k < 3 * pb_active p)%nat -> nth k r 0 = nth k r0 0 - dqdv p * total_friction q symmetric k.
Proof. intros iamax ord q symmetric FO RG p. apply (friction_components q (repeat v3_0 (pb_active p)) symmetric); [apply FO|apply repeat_length|exact RG]. Qed.

(** C177: updates do not fail, the sparsity of the Jacobian does not change, and nothing is cut off. *)
Theorem friction_problem_layout : forall iamax ord q0 V rb, lists_the_set ord -> friction_ok iamax ord q0 -> length V = pb_active (fq_base q0) -> let n := length (pb_pos (fq_base q0)) in
  exists q ij vals nnz, update_friction_problem iamax q0 V rb = Some q /\ friction_ok iamax ord q /\ friction_nnz iamax ord q0 true = Some nnz /\ friction_nnz iamax ord q true = Some nnz /\
    friction_indices iamax ord q0 true = Some ij /\ friction_indices iamax ord q true = Some ij /\ friction_values iamax ord q true ij = Some vals /\
    length vals = length ij /\ (length ij <= nnz)%nat /\ (forall e, In e ij -> (fst e < 3 * n)%nat /\ (snd e < 3 * n)%nat) /\
    (exists ij0, jacobian_indices (fq_base q0) true = Some ij0 /\ firstn (length ij0) ij = ij0) /\
    (forall f, In (Some f) (fq_parts q0) -> exists J, friction_jacobian iamax ord (pt_options f) (pt_prev f) (pt_cur f) (pb_vel (fq_base q0)) (dqdv (fq_base q0)) (pb_active (fq_base q0)) = Some J /\ incl (map fst J) ij).
Proof.
  intros iamax ord q0 V rb OKO FO LV n. set (p0 := fq_base q0) in *. destruct (friction_update iamax ord OKO q0 V rb FO LV) as (EU & FO'). assert (OK : problem_ok p0) by apply FO.
  destruct (nnz_friction iamax ord OKO q0 V rb FO LV) as (room & N0 & N1 & L). destruct (indices_friction iamax ord OKO q0 V rb FO LV room L) as (I0 & I1). pose proof (values_friction iamax ord OKO q0 V rb FO LV) as EV.
  pose proof (base_length iamax ord OKO q0 V rb FO LV) as B. pose proof (extra_lengths iamax ord OKO q0 V rb FO LV) as XL. destruct (nnz_ok p0 V rb OK LV) as (room0 & M0 & _ & L0). destruct (indices_of p0 V rb OK LV room0 L0) as [J0 _].
  exists (moved iamax q0 V rb), (all_ij p0 V rb ++ extra_ij iamax ord q0), (all_vals p0 V rb ++ extra_vals iamax ord q0 V rb), room.
  unfold friction_indices. rewrite N0, N1. cbn [bind]. refine (conj EU (conj FO' (conj eq_refl (conj eq_refl (conj I0 (conj I1 (conj EV (conj _ (conj _ (conj _ (conj _ _))))))))))).
  - rewrite !app_length, XL, (all_lengths p0 V rb OK LV). reflexivity.
  - rewrite app_length. fold p0 in L, B. lia.
  - intros e I. apply in_app_or in I. destruct I as [I|I]; [exact (all_range p0 V rb OK LV e I)|]. unfold extra_ij in I. apply in_flat_map in I. destruct I as (o & Io & I). destruct o as [f|]; [|destruct I]. unfold pj in I. cbn [part_jacobian] in I. unfold friction_jacobian in I.
    destruct (friction_jacobian_blocks _ _ _ _ _ _ _ _) as [bs|] eqn:EB; cbn [option_map] in I; [|destruct I]. pose proof (FricTotalProofs.blocks_within _ _ _ _ _ _ _ _ _ EB) as BW. apply in_map_iff in I. destruct I as (a & <- & I). apply in_flat_map in I. destruct I as (h & Hh & I). destruct (BW h Hh) as [B1 B2].
    assert (LM : (pb_active p0 <= n)%nat) by apply OK. fold p0 in B1, B2. apply (ContactHessProofs.scalar_range n h a); [lia|lia|exact I].
  - exists (all_ij p0 V rb). unfold jacobian_indices. rewrite M0. cbn [bind]. split; [exact J0|]. rewrite firstn_app, Nat.sub_diag, firstn_all. cbn [firstn]. apply app_nil_r.
  - intros f I. pose proof (parts_jacobians iamax ord OKO q0 (dqdv p0) FO) as PJ. fold p0 in PJ.
    assert (E : exists J, friction_jacobian iamax ord (pt_options f) (pt_prev f) (pt_cur f) (pb_vel p0) (dqdv p0) (pb_active p0) = Some J).
    { destruct (parts_moved iamax ord OKO q0 V rb f FO LV I) as (_ & RC & _). fold p0 in RC. apply (FricExistsProofs.jacobian_exists iamax ord (length (pb_pos p0)) _ _ _ _ _ _ OKO RC). apply OK. }
    assert (E' : exists J, friction_jacobian iamax ord (pt_options f) (pt_prev f) (pt_cur f) (pb_vel p0) (time_step p0) (pb_active p0) = Some J).
    { destruct (parts_moved iamax ord OKO q0 V rb f FO LV I) as (_ & RC & _). fold p0 in RC. apply (FricExistsProofs.jacobian_exists iamax ord (length (pb_pos p0)) _ _ _ _ _ _ OKO RC). apply OK. }
    destruct E as (J & E). destruct E' as (J' & E'). exists J. split; [exact E|]. destruct (parts_moved iamax ord OKO q0 V rb f FO LV I) as (RP & RC & _). fold p0 in RC, RP.
    assert (EQ : map fst J' = map fst J). { refine (FricLayoutProps.friction_jacobian_layout iamax ord (length (pb_pos p0)) (if fo_lagged (pt_options f) then pt_prev f else pt_cur f) _ _ _ _ _ _ _ _ _ _ _ _ _ _ OKO _ (later_now _ _ _) eq_refl eq_refl eq_refl eq_refl _ _ E E'); [destruct (fo_lagged (pt_options f)); assumption|apply OK|apply OK]. }
    intros e He. apply in_or_app. right. unfold extra_ij. apply in_flat_map. exists (Some f). split; [exact I|]. unfold pj. cbn [part_jacobian]. fold p0. rewrite E', EQ. exact He.
Qed.

(** C178: what friction adds to the Jacobian is the derivative of what it adds to the residual, when every contact is lagged or has the full
    Jacobian without viscosity and fixed vertices. *)
Theorem friction_matrix_is_derivative : forall iamax ord q0 V rb q, picks_largest iamax -> lists_the_set ord -> friction_ok iamax ord q0 -> length V = pb_active (fq_base q0) ->
  update_friction_problem iamax q0 V rb = Some q -> (forall f, In (Some f) (fq_parts q) -> smooth_part (fq_base q) f) -> let p := fq_base q in
  exists ij vals ij0 vals0, friction_indices iamax ord q0 true = Some ij /\ friction_values iamax ord q true ij = Some vals /\ length vals = length ij /\
    jacobian_indices (fq_base q0) true = Some ij0 /\ jacobian_values p true ij0 = Some vals0 /\ length vals0 = length ij0 /\
    forall W rb' k, (k < 3 * pb_active p)%nat ->
      is_derive (fun s => - (dqdv p * friction_at iamax q rb' (mesh_line V W s) k)) 0
        (rsum (map (fun j => (matrix_entry (combine ij vals) k j - matrix_entry (combine ij0 vals0) k j) * coordinate W j) (seq 0 (3 * pb_active p)))).
Proof.
  intros iamax ord q0 V rb q PK OKO FO LV E SM p. destruct (friction_update iamax ord OKO q0 V rb FO LV) as (EU & FO'). rewrite EU in E. injection E as <-. set (p0 := fq_base q0) in *. assert (OK : problem_ok p0) by apply FO.
  destruct (nnz_friction iamax ord OKO q0 V rb FO LV) as (room & N0 & N1 & L). destruct (indices_friction iamax ord OKO q0 V rb FO LV room L) as (I0 & _). destruct (nnz_ok p0 V rb OK LV) as (room0 & M0 & _ & L0). destruct (indices_of p0 V rb OK LV room0 L0) as [J0 _].
  exists (all_ij p0 V rb ++ extra_ij iamax ord q0), (all_vals p0 V rb ++ extra_vals iamax ord q0 V rb), (all_ij p0 V rb), (all_vals p0 V rb).
  split; [unfold friction_indices; rewrite N0; exact I0|]. split; [exact (values_friction iamax ord OKO q0 V rb FO LV)|]. split; [rewrite !app_length, (extra_lengths iamax ord OKO q0 V rb FO LV); fold p0; rewrite (all_lengths p0 V rb OK LV); reflexivity|].
  split; [unfold jacobian_indices; rewrite M0; exact J0|]. split; [apply (values_of p0 V rb OK LV)|]. split; [symmetry; apply all_lengths; assumption|]. intros W rb' k K.
  destruct (update_ok p0 V rb OK LV) as (EP & _). destruct (ProblemProps.settled p0 V rb _ OK LV EP) as (_ & OK' & ATX & ATV & ATC).
  pose proof (friction_derivative iamax ord OKO PK (moved iamax q0 V rb) V FO' LV ATX ATV ATC SM W rb' k K) as D. fold p in D. apply (is_derive_scal _ 0 (- dqdv p)) in D.
  eapply is_derive_ext; [|eapply (eq_ind _ (fun d => is_derive _ 0 d) D)]; [intros s; cbv beta; change (@eq R (- dqdv p * friction_at iamax (moved iamax q0 V rb) rb' (mesh_line V W s) k) (- (dqdv p * friction_at iamax (moved iamax q0 V rb) rb' (mesh_line V W s) k))); ring|].
  match goal with |- @eq _ (- dqdv p * - ?a) ?b => assert (E : dqdv p * a = b); [|change (@eq R (- dqdv p * - a) b); rewrite <- E; ring] end.
  rewrite <- rsum_scale. apply rsum_ext. intros j _. pose proof (friction_entries iamax ord OKO q0 V rb FO LV k j) as FE. fold p0 in FE. change (updated p0 V rb) with p in FE. rewrite FE. ring.
Qed.

(** ** A point that slides over two triangles, held by a tetrahedron *)
Definition glide_nodes : list TimeModel.node := map (fun q => TimeModel.fresh q 0) [0; 0; 0; 1; 0; 0; 0; 1; 0; 1; 1; - (1 / 10); 1 / 4 - 1 / 10; 1 / 4 - 2 / 10; 1 / 2].
Definition glide_base (cg : contact * mapped v3) : problem := Problem [] [(SolidTet 0 1 2 4 m3_I (1 / 6) 1 1 (1 / 10), 1000)] (Shell [] [] (fun _ _ => 0%nat)) []
  [] [cg] (V3 0 0 (-98 / 10)) (1 / 10) TimeModel.SBE glide_nodes 5 (fun _ => v3_0) (repeat 0 15) (repeat v3_0 5) (repeat v3_0 5).
Definition glide (s : friction_state) (lagged : bool) : friction_problem := FrictionProblem (glide_base (fs_contact s, fs_distance s)) [Some (FrictionPart (FricAsmProps.rub lagged false) s s)].
Definition listed := nodup Nat.eq_dec.
Lemma glide_next cg : next_pos (glide_base cg) FricAsmProps.slide_with = FricAsmProps.slide_at.
Proof.
  unfold next_pos, time_step, is_static. cbn [glide_base pb_time_step]. destruct (Req_EM_T (1 / 10) 0); [lra|]. cbn [glide_base pb_active pb_pos pb_scheme seq map]. change (skipn 5 (repeat v3_0 5)) with (@nil v3). unfold FricAsmProps.slide_at. cbn [app].
  repeat (apply f_equal2; [apply FieldProofs.v3_eq; cbn; unfold SurfJacProps.above; cbn; field|]). reflexivity.
Qed.
Lemma built_distance iamax ord c n s : precompute_friction iamax ord c n = Some s -> fs_contact s = c /\ reset_distance_gradient c n = Some (fs_distance s).
Proof.
  intros E. unfold precompute_friction in E. cbv zeta in E. destruct (reverse_map _ _); [|discriminate]. destruct (build_jacobian _ _ _); [|discriminate]. destruct (build_gradient _ _ _ _ _ _); [|discriminate]. destruct (jac_jacobian_triplets _ _ _ _ _); [|discriminate]. destruct (jac_gradient_triplets _ _ _ _); [|discriminate].
  destruct (distance_potential _); [|discriminate]. destruct (contact_multipliers _); [|discriminate]. destruct (reset_distance_gradient _ _); [|discriminate]. destruct (contact_frames _ _ _); [|discriminate]. injection E as <-. split; reflexivity.
Qed.
Lemma glide_distance s : precompute_friction BasisJacProps.first_largest listed FricAsmProps.slide 5 = Some s -> fs_contact s = FricAsmProps.slide /\ reset_distance_gradient FricAsmProps.slide 5 = Some (fs_distance s).
Proof. apply built_distance. Qed.
Lemma glide_ok s lagged : precompute_friction BasisJacProps.first_largest listed FricAsmProps.slide 5 = Some s -> reached BasisJacProps.first_largest listed 5 s -> friction_ok BasisJacProps.first_largest listed (glide s lagged).
Proof.
  intros E RS. destruct (glide_distance s E) as [EC ED]. unfold friction_ok. cbv zeta. cbn [glide fq_base fq_parts]. split; [|split; [reflexivity|]].
  - unfold problem_ok. cbv zeta. change (length (pb_pos (glide_base (fs_contact s, fs_distance s)))) with 5%nat. split; [cbn; lia|]. split; [reflexivity|]. split; [reflexivity|]. split; [reflexivity|].
    split. { intros e [[]|[<-|[]]]; (split; [repeat split; cbn; lia|]); unfold distinct_vertices; cbn; repeat (constructor; [cbn; lia|]); constructor. }
    split. { split; [intros t []|intros d c []]. } split. { split; [intros t []|intros d []]. } split. { intros z []. }
    split; [|exact Logic.I]. intros c [<-|[]]. rewrite EC. destruct (FricAsmProps.slide_shape 5 (le_n 5)) as [SH PL]. split; [exact SH|]. split; [exact PL|]. split; [exact ED|]. split; intros F; discriminate F.
  - intros e [<-|[]] f Ef. cbn [snd] in Ef. injection Ef as <-. cbn [pt_prev pt_cur fst]. split; [exact RS|]. split; [exact RS|reflexivity].
Qed.
Lemma slide_regular : contact_regular FricAsmProps.slide.
Proof.
  intros i Li _. cbn [length FricAsmProps.slide ct_points] in Li. assert (i = 0%nat) by lia. subst i. exists 0%nat. cbv zeta. cbn [FricAsmProps.slide ct_points ct_topo nth]. rewrite SurfJacProps.flat_kernel.
  split; [exact (SurfJacProps.flat_nearest SFace)|]. split; [exact (SurfJacProps.flat_regular SFace)|]. split; [exact (SurfJacProps.flat_background SFace 0)|].
  left. discriminate.
Qed.
Lemma glide_moved s lagged : precompute_friction BasisJacProps.first_largest listed FricAsmProps.slide 5 = Some s -> reached BasisJacProps.first_largest listed 5 s ->
  exists q, update_friction_problem BasisJacProps.first_largest (glide s lagged) FricAsmProps.slide_with true = Some q /\ regular_state (fq_base q) /\ (forall f, In (Some f) (fq_parts q) -> smooth_part (fq_base q) f) /\ length (fq_parts q) = 1%nat.
Proof.
  intros E RS. destruct (glide_distance s E) as [EC ED]. pose proof (glide_ok s lagged E RS) as FO. pose proof (friction_update _ _ ContactDerivProps.sorted_listing (glide s lagged) FricAsmProps.slide_with true FO eq_refl) as (EU & FO'). exists (moved BasisJacProps.first_largest (glide s lagged) FricAsmProps.slide_with true). split; [exact EU|].
  assert (UP : update_state (fs_contact s) (next_pos (fq_base (glide s lagged)) FricAsmProps.slide_with) true = Some FricAsmProps.slide) by (cbn [glide fq_base]; rewrite glide_next, EC; reflexivity).
  split; [|split].
  - destruct FO as [OK _]. destruct (update_ok _ FricAsmProps.slide_with true OK eq_refl) as (_ & _ & UC & _). unfold regular_state. cbv zeta. unfold moved. cbn [fq_base]. split; [intros e []|]. split; [intros e [<-|[]]; eexists; reflexivity|]. split; [split; [intros t []|intros d []]|].
    intros c Hc. change (pb_contacts (updated (fq_base (glide s lagged)) FricAsmProps.slide_with true)) with (map (upd (next_pos (fq_base (glide s lagged)) FricAsmProps.slide_with) true) (pb_contacts (fq_base (glide s lagged)))) in Hc. apply in_map_iff in Hc. destruct Hc as (cg & <- & Hc). pose proof (UC cg Hc) as U.
    assert (CG : cg = (fs_contact s, fs_distance s)) by (destruct Hc as [Hc|[]]; symmetry; exact Hc). subst cg. revert U. generalize (upd (next_pos (fq_base (glide s lagged)) FricAsmProps.slide_with) true (fs_contact s, fs_distance s)). intros c2 U. unfold update_contact in U. cbn [fst snd] in U. rewrite UP in U. destruct (update_constraint_gradient _ _) as [g'|]; [|discriminate]. injection U as U. rewrite <- U. cbn [fst]. exact slide_regular.
  - intros f [Hf|[]]. cbn [move_part] in Hf. injection Hf as <-. assert (LX : length (next_pos (fq_base (glide s lagged)) FricAsmProps.slide_with) = 5%nat) by (cbn [glide fq_base]; rewrite glide_next; reflexivity). destruct (state_moves _ _ ContactDerivProps.sorted_listing 5 s _ true _ RS LX UP) as (_ & EC' & _). set (s' := next_state _ _ _ s) in *.
    assert (ECU : fs_contact (used_state false (FrictionPart (FricAsmProps.rub lagged false) s s')) = FricAsmProps.slide) by (unfold used_state; cbn; destruct lagged; assumption).
    unfold smooth_part. cbv zeta. cbn [pt_options]. rewrite ECU. split; [apply FricAsmProps.rubber_valid|]. split; [exact FricAsmProps.slide_sides|]. split; [intros p _; apply FricAsmProps.rubber_smooth|]. destruct lagged; [left; reflexivity|right]. split; [reflexivity|]. split; [reflexivity|]. split; [reflexivity|]. split; [exact FricAsmProps.slide_points|exact FricAsmProps.slide_steady].
  - reflexivity.
Qed.
Example friction_residual_splits_ex : exists s, fs_active s = [0%nat] /\ forall lagged, friction_ok BasisJacProps.first_largest listed (glide s lagged) /\ exists q, update_friction_problem BasisJacProps.first_largest (glide s lagged) FricAsmProps.slide_with true = Some q /\ friction_ok BasisJacProps.first_largest listed q /\ regular_state (fq_base q).
Proof.
  destruct FricAsmProps.slide_state as (s & E & _ & EA & _ & RS). exists s. split; [exact EA|]. intros lagged. pose proof (glide_ok s lagged E RS) as FO. split; [exact FO|]. destruct (glide_moved s lagged E RS) as (q & EU & RG & _). exists q. split; [exact EU|]. split; [|exact RG].
  pose proof (friction_update _ _ ContactDerivProps.sorted_listing (glide s lagged) FricAsmProps.slide_with true FO eq_refl) as (EU' & FO'). rewrite EU in EU'. injection EU' as ->. exact FO'.
Qed.
Example friction_problem_layout_ex : exists s, lists_the_set listed /\ friction_ok BasisJacProps.first_largest listed (glide s false) /\ friction_ok BasisJacProps.first_largest listed (glide s true) /\ length FricAsmProps.slide_with = pb_active (fq_base (glide s false)).
Proof. destruct FricAsmProps.slide_state as (s & E & _ & EA & _ & RS). exists s. split; [exact ContactDerivProps.sorted_listing|]. split; [exact (glide_ok s false E RS)|]. split; [exact (glide_ok s true E RS)|reflexivity]. Qed.
Example friction_matrix_is_derivative_ex : exists s, picks_largest BasisJacProps.first_largest /\ lists_the_set listed /\ forall lagged, friction_ok BasisJacProps.first_largest listed (glide s lagged) /\
  exists q, update_friction_problem BasisJacProps.first_largest (glide s lagged) FricAsmProps.slide_with true = Some q /\ (forall f, In (Some f) (fq_parts q) -> smooth_part (fq_base q) f) /\ length (fq_parts q) = 1%nat.
Proof.
  destruct FricAsmProps.slide_state as (s & E & _ & EA & _ & RS). exists s. split; [exact BasisJacProps.first_largest_picks|]. split; [exact ContactDerivProps.sorted_listing|]. intros lagged. split; [exact (glide_ok s lagged E RS)|]. destruct (glide_moved s lagged E RS) as (q & EU & _ & SM & LP). exists q. split; [exact EU|]. split; [exact SM|exact LP].
Qed.

Print Assumptions friction_residual_splits.
Print Assumptions friction_problem_layout.
Print Assumptions friction_matrix_is_derivative.
