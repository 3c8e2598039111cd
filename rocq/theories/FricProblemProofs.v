(** Proofs about the problem with frictional contacts: updates, residual and matrix. *)
From Coq Require Import Reals List Arith Bool Lra Lia.
From Coquelicot Require Import Coquelicot.
From Verif Require Import Vec3 Mat3 RList ElasticModel ElasticSpec MassModel ShellModel ShellSpec VolumeModel VolumeSpec NeighborModel SurfJacSpec SurfHessSpec ContactAsmModel ContactDerivSpec BasisJacSpec ContactHessModel ContactHessSpec.
From Verif Require Import FrictionModel FricAsmModel FricForceSpec ProblemModel ProblemSpec ProblemListProofs ProblemProofs ProblemMatrixProofs FricProblemModel FricProblemSpec.
From Verif Require RList FricAsmProps ContactDerivProofs ContactHessProps MassProofs FieldProofs NeighborProofs ContactMoveProofs FricStateProofs FricTotalProofs FricLayoutProofs FricLayoutProps FricExistsProofs.
Import ListNotations.
Local Open Scope R_scope.

Section Friction.
Variables (iamax : v3 -> nat) (ord : list nat -> list nat).
Hypothesis OKO : lists_the_set ord.

(** ** Updates *)
Definition next_state (X : list v3) (rb : bool) (s : friction_state) : friction_state :=
  match update_state (fs_contact s) X rb with Some c => match refresh_friction iamax s c (length X) with Some s' => s' | None => s end | None => s end.
Definition move_part (X : list v3) (rb : bool) (o : option friction_part) : option friction_part :=
  match o with None => None | Some f => Some (FrictionPart (pt_options f) (pt_prev f) (next_state X rb (pt_cur f))) end.
Definition moved (q : friction_problem) (V : list v3) (rb : bool) : friction_problem :=
  FrictionProblem (updated (fq_base q) V rb) (map (move_part (next_pos (fq_base q) V) rb) (fq_parts q)).
Lemma state_moves n s X rb c : reached iamax ord n s -> length X = n -> update_state (fs_contact s) X rb = Some c ->
  refresh_friction iamax s c n = Some (next_state X rb s) /\ fs_contact (next_state X rb s) = c /\ update_constraint_gradient (fs_distance s) c = Some (fs_distance (next_state X rb s)) /\
  reached iamax ord n (next_state X rb s) /\ later iamax n s (next_state X rb s).
Proof.
  intros RS LX EU. destruct (FricTotalProofs.reached_facts iamax ord n s OKO RS) as (SH & PL & D). destruct (ContactMoveProofs.update_places _ n X rb c SH EU) as (SH' & _ & PL' & SS).
  destruct (FricStateProofs.refresh_described iamax ord (fs_contact s) c n s SH PL SH' PL' SS D) as (s' & ER & _). unfold next_state. rewrite EU, LX, ER. split; [reflexivity|].
  assert (Q : fs_contact s' = c /\ update_constraint_gradient (fs_distance s) c = Some (fs_distance s')).
  { unfold refresh_friction in ER. destruct (update_jacobian _ _ _ _); [|discriminate]. destruct (update_gradient _ _ _ _ _ _ _ _); [|discriminate]. destruct (update_constraint_gradient _ _); [|discriminate]. destruct (distance_potential c); [|discriminate]. destruct (contact_multipliers c); [|discriminate].
    destruct (contact_frames iamax c _); [|discriminate]. injection ER as <-. split; reflexivity. }
  split; [apply Q|]. split; [apply Q|]. split; [exact (reached_updated iamax ord n s X rb c s' RS EU ER)|exact (later_updated iamax n s s X rb c s' (later_now _ _ _) EU ER)].
Qed.
Lemma combine_map_l {A B C} (f : A -> B) (l : list A) (r : list C) : combine (map f l) r = map (fun e => (f (fst e), snd e)) (combine l r).
Proof. revert r. induction l as [|a l IH]; intros [|c r]; try reflexivity. cbn [map combine fst snd]. rewrite IH. reflexivity. Qed.
Lemma combine_map_both {A B C E} (f : A -> B) (g : C -> E) (l : list A) (r : list C) : combine (map f l) (map g r) = map (fun e => (f (fst e), g (snd e))) (combine l r).
Proof. revert r. induction l as [|a l IH]; intros [|c r]; try reflexivity. cbn [map combine fst snd]. rewrite IH. reflexivity. Qed.
Lemma snd_combine {A B} (l : list A) (r : list B) : length r = length l -> map snd (combine l r) = r.
Proof. revert r. induction l as [|a l IH]; intros [|b r] L; try discriminate; [reflexivity|]. cbn [combine map snd]. rewrite IH by (cbn in L; lia). reflexivity. Qed.
Lemma part_of {A B} (l : list A) (r : list B) b : length r = length l -> In b r -> exists a, In (a, b) (combine l r).
Proof. intros L I. rewrite <- (snd_combine l r L) in I. apply in_map_iff in I. destruct I as ([a b'] & <- & I). exists a. exact I. Qed.

Lemma friction_update q V rb : friction_ok iamax ord q -> length V = pb_active (fq_base q) ->
  update_friction_problem iamax q V rb = Some (moved q V rb) /\ friction_ok iamax ord (moved q V rb).
Proof.
  intros (OK & LP & FT) LV. set (p := fq_base q) in *. destruct (update_ok p V rb OK LV) as (EU & OK' & UC & _). assert (LX : length (next_pos p V) = length (pb_pos p)) by (apply next_pos_length, OK).
  assert (M : forall e f, In e (combine (pb_contacts p) (fq_parts q)) -> snd e = Some f ->
    update_state (fs_contact (pt_cur f)) (next_pos p V) rb = Some (fst (upd (next_pos p V) rb (fst e))) /\ update_constraint_gradient (fs_distance (pt_cur f)) (fst (upd (next_pos p V) rb (fst e))) = Some (snd (upd (next_pos p V) rb (fst e)))).
  { intros [cg o] f I E. cbn [snd fst] in *. destruct (FT (cg, o) I f E) as (_ & _ & EC). cbn [fst] in EC. pose proof (UC cg (in_combine_l _ _ _ _ I)) as U. unfold update_contact in U. rewrite EC in U |- *. cbn [fst snd] in U. destruct (update_state (fs_contact (pt_cur f)) (next_pos p V) rb) as [c'|]; [|discriminate].
    destruct (update_constraint_gradient (fs_distance (pt_cur f)) c') as [g'|] eqn:EG; [|discriminate]. cbn [option_map] in U. assert (U' : (c', g') = upd (next_pos p V) rb (fs_contact (pt_cur f), fs_distance (pt_cur f))) by congruence. rewrite <- U'. cbn [fst snd]. split; [reflexivity|exact EG]. }
  split.
  - unfold update_friction_problem. fold p. rewrite EU. cbn [bind]. change (pb_contacts (updated p V rb)) with (map (upd (next_pos p V) rb) (pb_contacts p)). rewrite combine_map_l, map_map.
    rewrite (all_some_ok _ (fun e => move_part (next_pos p V) rb (snd e))).
    + cbn [option_map]. unfold moved. fold p. rewrite <- (map_map snd (move_part (next_pos p V) rb)), snd_combine by exact LP. reflexivity.
    + intros [cg o] I. unfold update_part. cbn [snd fst]. destruct o as [f|]; [|reflexivity]. destruct (M (cg, Some f) f I eq_refl) as [M1 _]. cbn [fst] in M1. destruct (FT _ I f eq_refl) as (_ & RC & _).
      unfold pb_size. change (pb_pos (updated p V rb)) with (next_pos p V). rewrite LX. destruct (state_moves _ (pt_cur f) (next_pos p V) rb _ RC LX M1) as (-> & _). reflexivity.
  - unfold friction_ok, moved. cbn [fq_base fq_parts]. fold p. split; [exact OK'|]. split; [rewrite map_length; change (pb_contacts (updated p V rb)) with (map (upd (next_pos p V) rb) (pb_contacts p)); rewrite map_length; exact LP|].
    change (pb_contacts (updated p V rb)) with (map (upd (next_pos p V) rb) (pb_contacts p)). change (pb_pos (updated p V rb)) with (next_pos p V). rewrite LX, combine_map_both. intros e I. apply in_map_iff in I. destruct I as ([cg o] & <- & I). cbn [fst snd]. intros f E. destruct o as [f0|]; [|discriminate]. cbn [move_part snd] in E. injection E as <-. cbn [pt_prev pt_cur fst].
    destruct (FT _ I f0 eq_refl) as (RP & RC & _). destruct (M _ f0 I eq_refl) as [M1 M2]. cbn [fst] in M1, M2. destruct (state_moves _ (pt_cur f0) (next_pos p V) rb _ RC LX M1) as (_ & E1 & E2 & R' & _). split; [exact RP|]. split; [exact R'|]. rewrite E1. rewrite M2 in E2. injection E2 as <-. apply surjective_pairing.
Qed.
(** Every part after an update. *)
Lemma parts_moved q V rb f : friction_ok iamax ord q -> length V = pb_active (fq_base q) -> In (Some f) (fq_parts q) -> let n := length (pb_pos (fq_base q)) in
  reached iamax ord n (pt_prev f) /\ reached iamax ord n (pt_cur f) /\ later iamax n (pt_cur f) (next_state (next_pos (fq_base q) V) rb (pt_cur f)) /\ reached iamax ord n (next_state (next_pos (fq_base q) V) rb (pt_cur f)) /\
  exists c, update_state (fs_contact (pt_cur f)) (next_pos (fq_base q) V) rb = Some c /\ refresh_friction iamax (pt_cur f) c n = Some (next_state (next_pos (fq_base q) V) rb (pt_cur f)).
Proof.
  intros (OK & LP & FT) LV I n. destruct (part_of _ _ _ LP I) as (cg & I'). destruct (FT _ I' f eq_refl) as (RP & RC & EC). cbn [fst] in EC. split; [exact RP|]. split; [exact RC|]. set (p := fq_base q) in *. destruct (update_ok p V rb OK LV) as (_ & _ & UC & _). assert (LX : length (next_pos p V) = length (pb_pos p)) by (apply next_pos_length, OK).
  pose proof (UC cg (in_combine_l _ _ _ _ I')) as U. unfold update_contact in U. rewrite EC in U. cbn [fst snd] in U. destruct (update_state (fs_contact (pt_cur f)) (next_pos p V) rb) as [c'|] eqn:E; [|discriminate].
  destruct (state_moves _ (pt_cur f) (next_pos p V) rb _ RC LX E) as (R & _ & _ & R' & LL). split; [exact LL|]. split; [exact R'|]. exists c'. split; [reflexivity|exact R].
Qed.

(** ** The residual *)
Definition part_force (p : problem) (symmetric : bool) (o : option friction_part) (i : nat) : v3 :=
  match o with None => v3_0 | Some f => nth i (compute_friction_force (pt_options f) (used_state symmetric f) (pb_vel p)) v3_0 end.
Lemma subtracted v symmetric : forall fs r, length r = length v -> exists r', subtract_friction_forces fs v symmetric r = Some r' /\ length r' = length v /\
  forall k, coords (at_ r') k = coords (at_ r) k - rsum (map (fun o => match o with None => 0 | Some f => coords (fun i => nth i (compute_friction_force (pt_options f) (used_state symmetric f) v) v3_0) k end) fs).
Proof.
  induction fs as [|[f|] fs IH]; intros r L; cbn [subtract_friction_forces].
  - exists r. split; [reflexivity|]. split; [exact L|]. intros k. cbn [map]. rewrite rsum_nil. ring.
  - unfold subtract_friction_force. rewrite L, Nat.eqb_refl. cbn [bind]. fold (used_state symmetric f). set (g := compute_friction_force _ _ _). assert (LG : length g = length v) by apply FricExistsProofs.force_length.
    set (r1 := map _ (combine r g)). assert (L1 : length r1 = length v) by (unfold r1; rewrite map_length, combine_length; lia). destruct (IH r1 L1) as (r' & E & L' & C). exists r'. split; [exact E|]. split; [exact L'|]. intros k. cbn [map]. rewrite rsum_cons, C.
    assert (E1 : coords (at_ r1) k = coords (at_ r) k - coords (fun i => nth i g v3_0) k); [|rewrite E1; cbv beta iota; fold g; ring].
    assert (A : at_ r1 (k / 3) = v3_sub (at_ r (k / 3)) (nth (k / 3) g v3_0)).
    { unfold at_, r1. destruct (Nat.lt_ge_cases (k / 3) (length v)) as [H|H].
      - rewrite (nth_indep _ v3_0 (v3_sub v3_0 v3_0)) by (fold r1; lia). change (v3_sub v3_0 v3_0) with ((fun p : v3 * v3 => v3_sub (fst p) (snd p)) (v3_0, v3_0)). rewrite map_nth, combine_nth by congruence. reflexivity.
      - rewrite !nth_overflow by (fold r1; lia). apply FieldProofs.v3_eq; unfold v3_sub, v3_0; cbn; ring. }
    unfold coords. rewrite A. destruct (k mod 3) as [|[|m]]; reflexivity.
  - destruct (IH r L) as (r' & E & L' & C). exists r'. split; [exact E|]. split; [exact L'|]. intros k. cbn [map]. rewrite rsum_cons, C. ring.
Qed.
Lemma rdot_coords l u : rdot (stack l) u = rsum (map (fun k => coords (at_ l) k * u k) (seq 0 (3 * length l))).
Proof. unfold rdot. rewrite stack_length. apply rsum_ext. intros k _. rewrite nth_stack. reflexivity. Qed.
Lemma friction_residual_exists q (V : list v3) symmetric W : problem_ok (fq_base q) -> length V = pb_active (fq_base q) -> regular_state (fq_base q) -> let p := fq_base q in let w := cut_at (pb_active p) W in
  exists r, friction_residual q symmetric = Some r /\ length r = (3 * pb_active p)%nat /\
    rdot r (coords w) = objective_power p W - dqdv p * rsum (map (fun k => total_friction q symmetric k * coords w k) (seq 0 (3 * length (pb_pos p)))).
Proof.
  intros OK LV RG p w. destruct (forces_exist p V OK LV RG) as (f & E & L & P). unfold friction_residual, friction_vertex_residual. fold p. cbv zeta. rewrite E. cbn [bind].
  assert (LW : length (pb_vel p) = length (pb_pos p)) by apply OK. destruct (stack_unstack (length (pb_pos p)) f L) as [SU LU]. destruct (subtracted (pb_vel p) symmetric (fq_parts q) (unstack f)) as (g & EG & LG & CG); [congruence|]. rewrite EG. cbn [option_map bind].
  assert (CF : rdot (stack g) (coords w) = force_power p w - rsum (map (fun k => total_friction q symmetric k * coords w k) (seq 0 (3 * length (pb_pos p))))).
  { rewrite rdot_coords, LG, LW. rewrite (rsum_ext _ (fun k => coords (at_ (unstack f)) k * coords w k + (-1) * (total_friction q symmetric k * coords w k))).
    - rewrite rsum_plus, rsum_scale. rewrite <- (P w) by (intros i; apply cut_zero). replace (rdot f (coords w)) with (rdot (stack (unstack f)) (coords w)) by (rewrite SU; reflexivity). rewrite rdot_coords, LU. ring.
    - intros k _. rewrite CG. unfold total_friction. fold p. match goal with |- (_ - ?a) * _ = _ + -1 * (?b * _) => replace b with a; [ring|] end. apply rsum_ext. intros [x|] _; [symmetry; apply coordinate_coords|reflexivity]. }
  set (fr := rsum _) in CF |- *. clearbody fr.
  set (r := if Rlt_dec 0 (prev_force_mul p) then _ else _). assert (LPF : length (pb_prev_force p) = (3 * length (pb_pos p))%nat) by apply OK.
  assert (LR : length r = (3 * length (pb_pos p))%nat) by (unfold r; destruct (Rlt_dec 0 (prev_force_mul p)); [rewrite NeighborProofs.zip_update_length|rewrite map_length]; rewrite stack_length; congruence).
  assert (PR : rdot r (coords w) = prev_power p w + dqdv p * (force_power p w - fr)).
  { rewrite <- CF. unfold r, prev_power. destruct (Rlt_dec 0 (prev_force_mul p)); [rewrite (zip_dot p V) by first [assumption|rewrite stack_length; congruence]|rewrite rdot_scale]; unfold dqdv; ring. }
  assert (Z : forall k, (3 * pb_active p <= k)%nat -> coords w k = 0).
  { intros k K. unfold coords, w. rewrite cut_zero; [unfold v3_get, v3_0; destruct (k mod 3) as [|[|x]]; reflexivity|]. apply Nat.div_le_lower_bound; lia. }
  assert (L0 : (pb_active p <= length (pb_pos p))%nat) by apply OK. unfold objective_power. fold w. destruct (is_static p).
  - cbn [option_map]. exists (firstn (3 * pb_active p) r). split; [reflexivity|]. split; [rewrite firstn_length; lia|]. rewrite rdot_firstn by exact Z. rewrite PR. ring.
  - unfold add_momentum_diff. destruct (stack_unstack (length (pb_pos p)) r LR) as [SU' LU']. unfold add_inertia_gradient.
    destruct (elems_stage p (mom p (1 / 4)) (nh_masses p) (unstack r) (nh_cells p OK) LU') as (r1 & E1 & L1 & P1). unfold mom in E1. rewrite E1. cbn [bind].
    destruct (elems_stage p (mom p (1 / 4)) (snh_masses p) r1 (snh_cells p OK) L1) as (r2 & E2 & L2 & P2). unfold mom in E2. rewrite E2. cbn [bind].
    destruct (elems_stage p (mom p (1 / 3)) (shell_masses p) r2 (shell_cells p OK) L2) as (r3 & E3 & L3 & P3). unfold mom in E3. rewrite E3. cbn [option_map].
    exists (firstn (3 * pb_active p) (stack r3)). split; [reflexivity|]. split; [rewrite firstn_length, stack_length; lia|]. rewrite rdot_firstn by exact Z. rewrite rdot_stack, P3, P2, P1, <- (rdot_stack (unstack r)), SU', PR. unfold momentum_power. ring.
Qed.
Lemma coords_cut_at m W k : coords (cut_at m W) k = if Nat.ltb k (3 * m) then coords W k else 0.
Proof.
  unfold coords, cut_at. destruct (Nat.ltb_spec (k / 3) m) as [H|H]; destruct (Nat.ltb_spec k (3 * m)) as [H'|H']; try reflexivity.
  - exfalso. assert (k < m * 3)%nat by (pose proof (Nat.mod_upper_bound k 3 ltac:(lia)); pose proof (Nat.div_mod k 3 ltac:(lia)); lia). lia.
  - exfalso. assert (k / 3 < m)%nat by (apply Nat.div_lt_upper_bound; lia). lia.
  - unfold v3_get, v3_0. destruct (k mod 3) as [|[|x]]; reflexivity.
Qed.
Lemma rdot_unit r k : (k < length r)%nat -> rdot r (unit_at k) = nth k r 0.
Proof.
  intros K. unfold rdot. rewrite (rsum_ext _ (fun j => if Nat.eqb j k then nth j r 0 else 0)) by (intros j _; unfold unit_at; destruct (Nat.eqb j k); ring). exact (RList.rsum_seq_single (fun j => nth j r 0) (length r) k K).
Qed.
Lemma friction_components q (V : list v3) symmetric : problem_ok (fq_base q) -> length V = pb_active (fq_base q) -> regular_state (fq_base q) -> let p := fq_base q in
  exists r r0, friction_residual q symmetric = Some r /\ residual p = Some r0 /\ length r = (3 * pb_active p)%nat /\ length r0 = (3 * pb_active p)%nat /\
    forall k, (k < 3 * pb_active p)%nat -> nth k r 0 = nth k r0 0 - dqdv p * total_friction q symmetric k.
Proof.
  intros OK LV RG p. destruct (friction_residual_exists q V symmetric (fun _ => v3_0) OK LV RG) as (r & E & L & _). destruct (residual_exists p V (fun _ => v3_0) OK LV RG) as (r0 & E0 & L0 & _). exists r, r0. split; [exact E|]. split; [exact E0|]. split; [exact L|]. split; [exact L0|]. intros k K.
  destruct (unit_coords k) as (U & HU). destruct (friction_residual_exists q V symmetric U OK LV RG) as (r' & E' & _ & P'). destruct (residual_exists p V U OK LV RG) as (r0' & E0' & _ & P0'). assert (r' = r) by congruence. assert (r0' = r0) by congruence. subst r' r0'. fold p in P'. cbv zeta in P'.
  assert (CU : forall j, coords (cut_at (pb_active p) U) j = unit_at k j). { intros j. rewrite coords_cut_at, <- HU. unfold unit_at. destruct (Nat.ltb_spec j (3 * pb_active p)); [reflexivity|]. destruct (Nat.eqb_spec j k); [lia|reflexivity]. }
  rewrite (rdot_ext r _ (unit_at k)) in P' by (intros j _; apply CU). rewrite (rdot_ext r0 _ (unit_at k)) in P0' by (intros j _; apply CU). rewrite rdot_unit in P' by (rewrite L; exact K). rewrite rdot_unit in P0' by (rewrite L0; exact K). rewrite P', P0'. f_equal. f_equal.
  assert (L1 : (pb_active p <= length (pb_pos p))%nat) by apply OK.
  rewrite (rsum_ext _ (fun j => if Nat.eqb j k then total_friction q symmetric j else 0)) by (intros j _; rewrite CU; unfold unit_at; destruct (Nat.eqb j k); ring). apply (RList.rsum_seq_single (fun j => total_friction q symmetric j)). lia.
Qed.

(** ** The matrix *)
Definition pj (p : problem) (dq : R) (o : option friction_part) : list (nat * nat * R) := match part_jacobian iamax ord p dq o with Some J => J | None => [] end.
Lemma parts_jacobians q dq : friction_ok iamax ord q -> all_some (map (part_jacobian iamax ord (fq_base q) dq) (fq_parts q)) = Some (map (pj (fq_base q) dq) (fq_parts q)).
Proof.
  intros (OK & LP & FT). apply all_some_ok. intros o I. unfold pj. destruct (part_jacobian iamax ord (fq_base q) dq o) as [J|] eqn:E; [reflexivity|]. exfalso. destruct o as [f|]; [|discriminate]. cbn [part_jacobian] in E.
  destruct (part_of _ _ _ LP I) as (cg & I'). destruct (FT _ I' f eq_refl) as (_ & RC & _). destruct (FricExistsProofs.jacobian_exists iamax ord (length (pb_pos (fq_base q))) (pt_options f) (pt_prev f) (pt_cur f) (pb_vel (fq_base q)) dq (pb_active (fq_base q)) OKO RC) as (J & EJ); [apply OK|]. congruence.
Qed.
Lemma jacobian_places q V rb dq dq' o : friction_ok iamax ord q -> length V = pb_active (fq_base q) -> In o (fq_parts q) ->
  map fst (pj (updated (fq_base q) V rb) dq' (move_part (next_pos (fq_base q) V) rb o)) = map fst (pj (fq_base q) dq o).
Proof.
  intros FO LV I. destruct o as [f|]; [|reflexivity]. destruct (parts_moved q V rb f FO LV I) as (RP & RC & LT & RC' & _). destruct (friction_update q V rb FO LV) as (_ & FO'). set (p := fq_base q) in *. set (s' := next_state (next_pos p V) rb (pt_cur f)) in *. assert (OK : problem_ok p) by apply FO. assert (OK' : problem_ok (updated p V rb)) by apply FO'.
  unfold pj. cbn [move_part part_jacobian pt_options pt_prev pt_cur]. fold s'. change (pb_active (updated p V rb)) with (pb_active p). assert (LX : length (next_pos p V) = length (pb_pos p)) by (apply next_pos_length, OK).
  assert (LV1 : length (pb_vel p) = length (pb_pos p)) by apply OK. assert (LV2 : length (pb_vel (updated p V rb)) = length (pb_pos p)) by (rewrite <- LX; apply OK').
  destruct (FricExistsProofs.jacobian_exists iamax ord (length (pb_pos p)) (pt_options f) (pt_prev f) (pt_cur f) (pb_vel p) dq (pb_active p) OKO RC LV1) as (J & E). destruct (FricExistsProofs.jacobian_exists iamax ord (length (pb_pos p)) (pt_options f) (pt_prev f) s' (pb_vel (updated p V rb)) dq' (pb_active p) OKO RC' LV2) as (J' & E'). rewrite E, E'.
  refine (FricLayoutProps.friction_jacobian_layout iamax ord (length (pb_pos p)) (if fo_lagged (pt_options f) then pt_prev f else pt_cur f) (if fo_lagged (pt_options f) then pt_prev f else s') _ _ _ _ _ _ _ _ _ _ _ J J' OKO _ _ eq_refl eq_refl eq_refl eq_refl LV1 LV2 E E'); destruct (fo_lagged (pt_options f)); try assumption. apply later_now.
Qed.
Section Matrix.
Variables (q0 : friction_problem) (V : list v3) (rb : bool).
Hypothesis FO : friction_ok iamax ord q0.
Hypothesis LV : length V = pb_active (fq_base q0).
Let p0 := fq_base q0.
Let q := moved q0 V rb.
Let p := updated p0 V rb.
Let OK : problem_ok p0 := proj1 FO.
Let FO' : friction_ok iamax ord q := proj2 (friction_update q0 V rb FO LV).
(** Places and values of the entries of friction. *)
Definition extra_ij : list (nat * nat) := flat_map (fun o => map fst (pj p0 (time_step p0) o)) (fq_parts q0).
Definition extra_vals : list R := flat_map (fun o => map (fun e => dqdv p * 1 * snd e) (pj p (dqdv p) o)) (fq_parts q).
Lemma places_again dq : map (map fst) (map (pj p dq) (fq_parts q)) = map (fun o => map fst (pj p0 (time_step p0) o)) (fq_parts q0).
Proof. rewrite map_map. unfold q, moved. cbn [fq_parts]. rewrite map_map. apply map_ext_in. intros o I. apply jacobian_places; assumption. Qed.
Lemma nnz_friction : exists room, friction_nnz iamax ord q0 true = Some room /\ friction_nnz iamax ord q true = Some room /\
  (fem_room p + length (flat_map vol_hessian_indices (pb_zones p0)) + length (flat_map (fun cg => map fst (contact_entries (pb_active p0) (upd (next_pos p0 V) rb cg))) (pb_contacts p0)) + length extra_ij <= room)%nat.
Proof.
  destruct (nnz_ok p0 V rb OK LV) as (room & N0 & N1 & L). exists (room + length extra_ij)%nat. unfold friction_nnz. cbv zeta. change (fq_base q0) with p0. change (fq_base q) with p. rewrite N0. fold p in N1. rewrite N1. cbn [bind].
  assert (LE : forall dq, list_sum (map (@length _) (map (pj p dq) (fq_parts q))) = length extra_ij).
  { intros dq. pose proof (places_again dq) as P. unfold extra_ij. rewrite flat_length. apply (f_equal (map (@length _))) in P. rewrite !map_map in P. rewrite map_map. f_equal. rewrite <- P. apply map_ext. intros o. rewrite map_length. reflexivity. }
  rewrite (parts_jacobians q0 _ FO : all_some (map (part_jacobian iamax ord p0 _) _) = _). rewrite (parts_jacobians q _ FO' : all_some (map (part_jacobian iamax ord p _) _) = _). cbn [option_map]. change (fq_base q) with p. rewrite LE. split; [|split; [reflexivity|fold p in L; lia]].
  f_equal. f_equal. unfold extra_ij. rewrite flat_length, map_map. f_equal. apply map_ext. intros o. rewrite map_length. reflexivity.
Qed.
Lemma base_length : (length (all_ij p0 V rb) <= fem_room p + length (flat_map vol_hessian_indices (pb_zones p0)) + length (flat_map (fun cg => map fst (contact_entries (pb_active p0) (upd (next_pos p0 V) rb cg))) (pb_contacts p0)))%nat.
Proof. pose proof (fem_fits _ (proj1 FO')) as F. change (fq_base q) with p in F. unfold all_ij, mirrored_ij. fold p. rewrite !app_length, map_length. lia. Qed.
Lemma indices_friction room : (fem_room p + length (flat_map vol_hessian_indices (pb_zones p0)) + length (flat_map (fun cg => map fst (contact_entries (pb_active p0) (upd (next_pos p0 V) rb cg))) (pb_contacts p0)) + length extra_ij <= room)%nat ->
  compute_friction_indices iamax ord q0 true room = Some (all_ij p0 V rb ++ extra_ij) /\ compute_friction_indices iamax ord q true room = Some (all_ij p0 V rb ++ extra_ij).
Proof.
  intros L. pose proof base_length as B. destruct (indices_of p0 V rb OK LV room) as [I0 I1]; [fold p; lia|]. unfold compute_friction_indices. cbv zeta. change (fq_base q0) with p0. change (fq_base q) with p. rewrite I0. fold p in I1. rewrite I1. cbn [bind].
  rewrite (parts_jacobians q0 _ FO : all_some (map (part_jacobian iamax ord p0 _) _) = _). rewrite (parts_jacobians q _ FO' : all_some (map (part_jacobian iamax ord p _) _) = _). cbn [option_map]. change (fq_base q) with p. rewrite places_again. change (fq_base q0) with p0. rewrite map_map.
  rewrite !zip_all_enough by (rewrite <- flat_map_concat_map; fold extra_ij; lia). rewrite <- flat_map_concat_map. split; reflexivity.
Qed.
Lemma extra_lengths : length extra_ij = length extra_vals.
Proof.
  pose proof (places_again (dqdv p)) as P. apply (f_equal (map (@length _))) in P. rewrite !map_map in P. unfold extra_ij, extra_vals. rewrite !flat_length, <- P. f_equal. apply map_ext. intros o. rewrite !map_length. reflexivity.
Qed.
Lemma values_friction : friction_values iamax ord q true (all_ij p0 V rb ++ extra_ij) = Some (all_vals p0 V rb ++ extra_vals).
Proof.
  unfold friction_values. cbv zeta. change (fq_base q) with p. unfold p at 1. rewrite (values_with p0 V rb OK LV). cbn [bind]. rewrite (parts_jacobians q _ FO' : all_some (map (part_jacobian iamax ord p _) _) = _). cbn [option_map]. change (fq_base q) with p. rewrite map_map.
  rewrite zip_all_enough; [rewrite <- flat_map_concat_map; reflexivity|]. rewrite <- flat_map_concat_map. fold extra_vals. rewrite app_length, (all_lengths p0 V rb OK LV), extra_lengths. apply Nat.le_refl.
Qed.
Lemma friction_entries i j : matrix_entry (combine (all_ij p0 V rb ++ extra_ij) (all_vals p0 V rb ++ extra_vals)) i j =
  matrix_entry (combine (all_ij p0 V rb) (all_vals p0 V rb)) i j + dqdv p * rsum (map (fun o => matrix_entry (pj p (dqdv p) o) i j) (fq_parts q)).
Proof.
  rewrite combine_app_eq by (apply all_lengths; assumption). rewrite entry_app. f_equal.
  assert (E : combine extra_ij extra_vals = flat_map (fun o => scaled_entries (dqdv p) (pj p (dqdv p) o)) (fq_parts q)).
  { assert (E1 : extra_ij = flat_map (fun o => map fst (pj p (dqdv p) o)) (fq_parts q)) by (unfold extra_ij; rewrite !flat_map_concat_map; f_equal; rewrite <- (places_again (dqdv p)), map_map; reflexivity).
    rewrite E1. unfold extra_vals. destruct (combine_flat (fun o => map fst (pj p (dqdv p) o)) (fun o => map (fun e => dqdv p * 1 * snd e) (pj p (dqdv p) o)) (fq_parts q)) as [-> _]; [intros o _; rewrite !map_length; reflexivity|].
    apply flat_map_ext. intros o. rewrite combine_fst_snd. unfold scaled_entries. apply map_ext. intros e. f_equal. ring. }
  rewrite E, entry_flat, <- rsum_scale. apply rsum_ext. intros o _. apply entry_scale.
Qed.
End Matrix.
(** ** The derivative *)
Section Derivative.
Hypothesis PK : picks_largest iamax.
Variables (q : friction_problem) (V : list v3).
Hypothesis FO : friction_ok iamax ord q.
Hypothesis LV : length V = pb_active (fq_base q).
Let p := fq_base q.
Hypothesis ATX : next_pos p V = pb_pos p.
Hypothesis ATV : next_vel p V = pb_vel p.
Hypothesis ATC : forall cg, In cg (pb_contacts p) -> ContactMoveProofs.placed (fst cg) (pb_pos p).
Hypothesis SM : forall f, In (Some f) (fq_parts q) -> smooth_part p f.
Variables (W : nat -> v3) (rb : bool) (k : nat).
Hypothesis HK : (k < 3 * pb_active p)%nat.
Let w := cut_at (pb_active p) W.
Let line s := mesh_line V W s.
Definition line_force (s : R) (o : option friction_part) : R :=
  match o with
  | None => 0
  | Some f => coordinate (fun i => nth i (compute_friction_force (pt_options f) (if fo_lagged (pt_options f) then pt_prev f else next_state (next_pos p (line s)) rb (pt_cur f)) (mesh_line (pb_vel p) w s)) v3_0) k
  end.
Lemma friction_line s : friction_at iamax q rb (line s) k = rsum (map (line_force s) (fq_parts q)).
Proof.
  assert (OK : problem_ok p) by apply FO. assert (LL : length (line s) = pb_active (fq_base q)) by (unfold line; rewrite line_length; exact LV). destruct (friction_update q (line s) rb FO LL) as (E & _). unfold friction_at. rewrite E. unfold total_friction, moved. cbn [fq_base fq_parts]. rewrite map_map. apply rsum_ext. intros o _. destruct o as [f|]; [|reflexivity].
  cbn [move_part line_force]. unfold used_state. cbn [pt_options pt_prev pt_cur orb]. change (pb_vel (updated (fq_base q) (line s) rb)) with (next_vel p (line s)). unfold line at 2. rewrite (vel_line p V W OK LV ATV). reflexivity.
Qed.
Lemma part_derivative o : In o (fq_parts q) -> is_derive (fun s => line_force s o) 0 (- matrix_times (3 * pb_active p) (pj p (dqdv p) o) (coordinate w) k).
Proof.
  intros I. assert (OK : problem_ok p) by apply FO. assert (LVE : length (pb_vel p) = length (pb_pos p)) by apply OK. assert (LM : (pb_active p <= length (pb_pos p))%nat) by apply OK. destruct o as [f|].
  2: { unfold pj, matrix_times. cbn [part_jacobian line_force]. eapply (eq_ind _ (fun d => is_derive _ 0 d)); [apply is_derive_const|]. rewrite (RList.rsum_zero (fun j => matrix_entry [] k j * coordinate w j)); [change (@eq R 0 (- 0)); ring|]. intros j _. unfold matrix_entry. cbn [filter map]. rewrite rsum_nil. ring. }
  destruct (SM f I) as (VP & SEP & SV & MODE). destruct (parts_moved q V false f FO LV I) as (RP & RC & _). fold p in RP, RC. unfold line_force, pj. cbn [part_jacobian]. unfold used_state in *. cbn [orb] in *.
  destruct (fo_lagged (pt_options f)) eqn:OL.
  - destruct (FricAsmProps.lagged_friction_jacobian_is_derivative iamax ord (pt_prev f) (pt_cur f) (pt_options f) (length (pb_pos p)) (pb_vel p) (dqdv p) (pb_active p) OKO RP LVE LM SEP OL VP SV) as (J & EJ & _ & D). rewrite EJ. apply D; [intros i Li; apply cut_zero, Li|exact HK].
  - destruct MODE as [?|(OI & EM & VI & SC & SB)]; [discriminate|]. destruct FO as (_ & LP & FT). destruct (part_of _ _ _ LP I) as (cg & I'). destruct (FT _ I' f eq_refl) as (_ & _ & EC). cbn [fst] in EC. assert (IC : In cg (pb_contacts p)) by exact (in_combine_l _ _ _ _ I').
    assert (AT : at_positions (fs_contact (pt_cur f)) (pb_pos p)) by (pose proof (ATC cg IC) as A; rewrite EC in A; exact A).
    destruct (FricAsmProps.friction_jacobian_is_derivative iamax ord (pt_cur f) (pt_prev f) (pt_options f) (pb_pos p) (pb_vel p) (dqdv p) PK OKO RC AT LVE SEP SC SB OL OI VP VI SV) as (J & EJ & _ & D). rewrite <- EM in EJ, D. rewrite EJ.
    assert (RD : contact_ready (length (pb_pos p)) (pb_active p) cg) by (apply OK, IC). rewrite EC in RD. destruct RD as (_ & _ & _ & FX).
    pose proof (D w rb k (ContactHessProps.fixed_respects _ _ w FX (fun i Li => cut_zero _ _ i Li)) HK) as D'. eapply is_derive_ext; [|exact D']. intros s. cbv beta.
    assert (LL : length (line s) = pb_active (fq_base q)) by (unfold line; rewrite line_length; exact LV). destruct (parts_moved q (line s) rb f FO LL I) as (_ & _ & _ & _ & c & E1 & E2). fold p in E1, E2.
    assert (PL : next_pos p (line s) = mesh_line (pb_pos p) (fun v => v3_scale (dqdv p) (w v)) s) by exact (pos_line p V W OK LV ATX s). unfold force_at. rewrite <- PL, E1, (next_pos_length p (line s) LM), E2. reflexivity.
Qed.
Lemma friction_derivative : is_derive (fun s => friction_at iamax q rb (mesh_line V W s) k) 0
  (- rsum (map (fun j => rsum (map (fun o => matrix_entry (pj p (dqdv p) o) k j) (fq_parts q)) * coordinate W j) (seq 0 (3 * pb_active p)))).
Proof.
  eapply is_derive_ext; [intros s; symmetry; apply friction_line|]. pose proof (ContactDerivProofs.rsum_derive line_force _ (fq_parts q) part_derivative) as D. eapply (eq_ind _ (fun d => is_derive _ 0 d) D).
  rewrite (rsum_ext _ (fun o => -1 * matrix_times (3 * pb_active p) (pj p (dqdv p) o) (coordinate w) k)) by (intros; ring). rewrite rsum_scale. unfold matrix_times.
  rewrite (RList.rsum_swap (fun o j => matrix_entry (pj p (dqdv p) o) k j * coordinate w j)). 
  match goal with |- @eq _ (-1 * ?a) (- ?b) => assert (E : a = b); [|rewrite E; change (@eq R (-1 * b) (- b)); ring] end.
  apply rsum_ext. intros j Hj. apply in_seq in Hj. assert (CW : coordinate w j = coordinate W j). { rewrite !coordinate_coords. unfold w. rewrite coords_cut_at. destruct (Nat.ltb_spec j (3 * pb_active p)); [reflexivity|lia]. }
  rewrite CW, Rmult_comm, <- rsum_scale. apply rsum_ext. intros. ring.
Qed.
End Derivative.
End Friction.
