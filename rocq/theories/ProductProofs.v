(** Proofs about products with the Jacobian. *)
From Coq Require Import Reals List Arith Bool Lra Lia.
From Coquelicot Require Import Coquelicot.
From Verif Require Import Vec3 Mat3 RList ElasticModel ElasticSpec VolumeModel VolumeSpec NeighborModel SurfJacSpec SurfHessSpec ContactAsmModel ContactDerivSpec BasisJacSpec ContactHessModel ContactHessSpec.
From Verif Require Import FrictionModel FricAsmModel FricForceSpec ProblemModel ProblemSpec ProblemListProofs ProblemEnergyProofs ProblemContactProofs ProblemProofs ProblemMatrixProofs ProblemDerivSpec FricProblemModel FricProblemSpec FricProblemProofs FricDerivSpec ProductModel.
From Verif Require Import ElasticMeshProofs.
From Verif Require AssemblyModel AssemblySpec AssemblyProofs FieldProofs ProblemProps ProblemDerivProofs ProblemDerivProps FricProblemProps FricDerivProps.
Import ListNotations.
Local Open Scope R_scope.
Local Notation power := ElasticSpec.power.

(** ** The stored matrix *)
Lemma stored_as_entry r c : forall pattern store, length store = length pattern -> AssemblySpec.stored_entry pattern store r c = matrix_entry (combine pattern store) r c.
Proof.
  induction pattern as [|[a b] pattern IH]; intros [|x store] L; try discriminate; [reflexivity|]. unfold AssemblySpec.stored_entry. cbn [length seq map combine]. rewrite rsum_cons, entry_cons. cbn [nth fst snd]. f_equal.
  rewrite <- IH by (cbn in L; lia). unfold AssemblySpec.stored_entry. rewrite <- seq_shift, map_map. reflexivity.
Qed.
Lemma triplets_as_entry r c : forall (ij : list (nat * nat)) vals, length vals = length ij -> AssemblySpec.triplet_entry (map fst ij) (map snd ij) vals r c = matrix_entry (combine ij vals) r c.
Proof.
  induction ij as [|[a b] ij IH]; intros [|x vals] L; try discriminate; [reflexivity|]. unfold AssemblySpec.triplet_entry. cbn [length seq map combine fst snd]. rewrite rsum_cons, entry_cons. cbn [nth fst snd]. f_equal.
  rewrite <- IH by (cbn in L; lia). unfold AssemblySpec.triplet_entry. rewrite <- seq_shift, map_map. reflexivity.
Qed.
Lemma stored_row_form w P k : stored_row w P k = sparse_form (combine (ws_pattern w) (ws_store w)) (unit_at k) (fun j => nth j P 0).
Proof.
  unfold stored_row, sparse_form. induction (combine (ws_pattern w) (ws_store w)) as [|[[r c] a] L IH]; [reflexivity|]. cbn [filter map fst snd]. unfold unit_at at 1. destruct (Nat.eqb r k); cbn [map fst snd]; rewrite ?rsum_cons, IH; ring.
Qed.
Lemma row_of_cache m fem vals P w k : let (pattern, mapping) := AssemblyModel.sparse_matrix_and_mapping (map fst fem) (map snd fem) (3 * m) false in
  ws_pattern w = pattern -> ws_store w = AssemblyModel.redistribute (length pattern) mapping vals -> length vals = length fem -> length P = (3 * m)%nat -> (k < 3 * m)%nat ->
  stored_row w P k = rsum (map (fun j => matrix_entry (combine fem vals) k j * nth j P 0) (seq 0 (3 * m))).
Proof.
  pose proof (fun r c (H : (r < 3 * m)%nat) (H' : (c < 3 * m)%nat) (L : length vals = length (map fst fem)) => AssemblyProofs.stored_entry_is_triplet_entry (map fst fem) (map snd fem) vals (3 * m) r c L H H') as SE.
  destruct (AssemblyModel.sparse_matrix_and_mapping _ _ _ _) as [pattern mapping]. intros EP ES LV LP K. rewrite stored_row_form, <- (ProblemDerivProofs.row_of_form (3 * m)) by (intros j J; apply nth_overflow; lia).
  apply rsum_ext. intros j J. apply in_seq in J. f_equal. rewrite EP, ES, <- stored_as_entry by apply AssemblyProofs.redistribute_length. rewrite SE by (rewrite ?map_length; lia). apply triplets_as_entry, LV.
Qed.

(** ** Seeds *)
Definition aim (P : list R) : nat -> v3 := by_coordinate (fun k => nth k P 0).
Lemma aim_coordinate P j : coordinate (aim P) j = nth j P 0.
Proof.
  unfold coordinate, aim, by_coordinate. pose proof (Nat.div_mod j 3 ltac:(lia)) as D. pose proof (Nat.mod_upper_bound j 3 ltac:(lia)) as B. destruct (j mod 3) as [|[|[|x]]]; cbn [vx vy vz]; f_equal; lia.
Qed.
Lemma seeded_line V P s : seeded V P s = mesh_line V (aim P) s. Proof. reflexivity. Qed.

(** ** The problem without its constraints *)
Definition bare (p : problem) : problem := Problem (pb_nh p) (pb_snh p) (pb_shell p) (pb_shell_density p) [] [] (pb_gravity p) (pb_time_step p) (pb_scheme p) (pb_nodes p) (pb_active p) (pb_fixed_vel p) (pb_prev_force p) (pb_pos p) (pb_vel p).
Lemma bare_ok p : problem_ok p -> problem_ok (bare p).
Proof. intros (H1 & H2 & H3 & H4 & H5 & H6 & H7 & H8 & _ & H10). refine (conj H1 (conj H2 (conj H3 (conj H4 (conj H5 (conj H6 (conj H7 (conj _ (conj _ H10))))))))); intros c []. Qed.
Lemma bare_regular p : regular_state p -> regular_state (bare p).
Proof. intros (R1 & R2 & R3 & _). refine (conj R1 (conj R2 (conj R3 _))). intros c []. Qed.
Lemma bare_updated p V rb : updated (bare p) V rb = bare (updated p V rb). Proof. reflexivity. Qed.
Lemma bare_indices p : jacobian_indices (bare p) true = jacobian_indices p false.
Proof.
  unfold jacobian_indices, jacobian_nnz. cbn [bare pb_contacts pb_zones map all_some option_map list_sum fold_right bind]. cbv zeta. rewrite !Nat.add_0_r. unfold compute_jacobian_indices. change (fem_indices (bare p)) with (fem_indices p).
  change (is_static (bare p)) with (is_static p). cbn [bare pb_nh pb_snh pb_shell]. destruct (fem_indices p _) as [fem|]; reflexivity.
Qed.
Lemma bare_values p ij : jacobian_values (bare p) true ij = jacobian_values p false ij.
Proof.
  unfold jacobian_values. cbv zeta. cbn [bare pb_contacts pb_zones map all_some option_map bind fill_all zip_fill_all fold_left]. change (nh_tets (bare p)) with (nh_tets p). change (snh_tets (bare p)) with (snh_tets p). change (nh_masses (bare p)) with (nh_masses p). change (snh_masses (bare p)) with (snh_masses p).
  change (shell_masses (bare p)) with (shell_masses p). change (dqdv (bare p)) with (dqdv p). change (is_static (bare p)) with (is_static p). cbn [bare pb_shell pb_pos pb_vel]. destruct (fill_all _ _ _); reflexivity.
Qed.
(** The residual is that of the bare problem and that of the constraints together. *)
Lemma zero_power n U : power (repeat v3_0 n) U = 0.
Proof. rewrite power_lsum. apply lsum_zero. intros i. unfold v3_dot, v3_0. cbn [vx vy vz]. ring. Qed.
Lemma zeros_stack n : repeat 0 (3 * n) = stack (repeat v3_0 n).
Proof. induction n as [|n IH]; [reflexivity|]. replace (3 * S n)%nat with (S (S (S (3 * n)))) by lia. cbn [repeat stack flat_map app]. rewrite IH. reflexivity. Qed.
Lemma residual_parts q : problem_ok (fq_base q) -> regular_state (fq_base q) -> let p := fq_base q in
  exists r b c, friction_residual q false = Some r /\ residual (bare p) = Some b /\ constraint_residual q = Some c /\ length c = (3 * pb_active p)%nat /\ length r = (3 * pb_active p)%nat /\
    forall k, (k < 3 * pb_active p)%nat -> nth k r 0 = nth k b 0 + nth k c 0.
Proof.
  intros OK RG p. set (V := repeat v3_0 (pb_active p)). assert (LV : length V = pb_active p) by apply repeat_length. assert (LV' : length V = pb_active (bare p)) by exact LV.
  destruct (friction_components q V false OK LV RG) as (r & r0 & E1 & E2 & L1 & L2 & S). fold p in E2, L1, L2, S.
  destruct (residual_exists (bare p) V (fun _ => v3_0) (bare_ok p OK) LV' (bare_regular p RG)) as (b & E3 & L3 & _).
  assert (ZR : forall z, In z (pb_zones p) -> tris_in_range (length (pb_pos p)) (topo z)) by apply OK. assert (CR : forall cg, In cg (pb_contacts p) -> contact_ready (length (pb_pos p)) (pb_active p) cg) by apply OK.
  destruct (pressure_stage p V LV (pb_zones p) ZR (repeat 0 (3 * length (pb_pos p))) (repeat_length _ _)) as (f & E4 & L4 & P4). destruct (stack_unstack (length (pb_pos p)) f L4) as [SU LU].
  destruct (contact_forces_on (pb_contacts p) (length (pb_pos p)) (pb_active p) CR (unstack f) LU) as (f5 & E5 & L5 & P5).
  assert (LW : length (pb_vel p) = length (pb_pos p)) by apply OK. destruct (subtracted (pb_vel p) false (fq_parts q) f5) as (g & EG & LG & CG); [congruence|].
  assert (LE : (pb_active p <= length (pb_pos p))%nat) by apply OK. set (c := firstn (3 * pb_active p) (map (fun a => a * (force_mul p * time_step p)) (stack g))).
  assert (LC : length c = (3 * pb_active p)%nat) by (unfold c; rewrite firstn_length, map_length, stack_length, LG, LW; lia).
  exists r, b, c. split; [exact E1|]. split; [exact E3|]. split; [unfold constraint_residual; cbv zeta; fold p; change (pb_size p) with (length (pb_pos p)); rewrite E4; cbn [bind]; rewrite E5; cbn [bind]; rewrite EG; reflexivity|]. split; [exact LC|]. split; [exact L1|].
  intros k K. rewrite (S k K). destruct (unit_coords k) as (U & HU).
  assert (CU : forall j, coords (cut_at (pb_active p) U) j = unit_at k j). { intros j. rewrite coords_cut_at, <- HU. unfold unit_at. destruct (Nat.ltb_spec j (3 * pb_active p)); [reflexivity|]. destruct (Nat.eqb_spec j k); [lia|reflexivity]. }
  set (u := cut_at (pb_active p) U) in *. assert (Zu : forall i, (pb_active p <= i)%nat -> u i = v3_0) by apply cut_zero.
  destruct (residual_exists p V U OK LV RG) as (r0' & E2' & _ & P2). assert (r0' = r0) by congruence. subst r0'. destruct (residual_exists (bare p) V U (bare_ok p OK) LV' (bare_regular p RG)) as (b' & E3' & _ & P3). assert (b' = b) by congruence. subst b'.
  change (pb_active (bare p)) with (pb_active p) in P3. fold u in P2, P3. rewrite (rdot_ext r0 _ (unit_at k)) in P2 by (intros j _; apply CU). rewrite (rdot_ext b _ (unit_at k)) in P3 by (intros j _; apply CU). rewrite rdot_unit in P2 by lia. rewrite rdot_unit in P3 by (rewrite L3; exact K). rewrite P2, P3.
  assert (NC : nth k c 0 = dqdv p * (rsum (map (fun z => zone_power (at_ (pb_pos p)) z u) (pb_zones p)) + rsum (map (fun cg => contact_power (fst cg) u) (pb_contacts p))) - dqdv p * total_friction q false k).
  { unfold c. replace (nth k (firstn (3 * pb_active p) (map (fun a => a * (force_mul p * time_step p)) (stack g))) 0) with (nth k (map (fun a => a * (force_mul p * time_step p)) (stack g)) 0).
    2: { rewrite <- (firstn_skipn (3 * pb_active p) (map (fun a => a * (force_mul p * time_step p)) (stack g))) at 1. rewrite app_nth1; [reflexivity|]. fold c. lia. }
    rewrite (nth_indep _ 0 (0 * (force_mul p * time_step p))) by (rewrite map_length, stack_length; lia). rewrite (map_nth (fun a => a * (force_mul p * time_step p))). rewrite nth_stack, CG.
    assert (CF : coords (at_ f5) k = rsum (map (fun z => zone_power (at_ (pb_pos p)) z u) (pb_zones p)) + rsum (map (fun cg => contact_power (fst cg) u) (pb_contacts p))).
    { rewrite <- nth_stack, <- (rdot_unit (stack f5) k) by (rewrite stack_length, L5; lia). rewrite <- (rdot_ext (stack f5) (coords u) (unit_at k)) by (intros j _; apply CU). rewrite rdot_stack, (P5 u Zu), <- (rdot_stack (unstack f)), SU, P4.
      rewrite zeros_stack, rdot_stack, zero_power. ring. }
    rewrite CF. unfold total_friction. fold p. unfold dqdv. match goal with |- (_ - ?a) * _ = _ - _ * ?b => replace b with a; [ring|] end. apply rsum_ext. intros [x|] _; [symmetry; apply coordinate_coords|reflexivity]. }
  rewrite NC. unfold objective_power. cbv zeta. change (pb_active (bare p)) with (pb_active p). fold u. change (is_static (bare p)) with (is_static p). change (prev_power (bare p) u) with (prev_power p u). change (dqdv (bare p)) with (dqdv p). change (momentum_power (bare p) u) with (momentum_power p u).
  assert (FP : force_power p u = force_power (bare p) u + (rsum (map (fun z => zone_power (at_ (pb_pos p)) z u) (pb_zones p)) + rsum (map (fun cg => contact_power (fst cg) u) (pb_contacts p)))).
  { unfold force_power. cbv zeta. change (nh_tets (bare p)) with (nh_tets p). change (snh_tets (bare p)) with (snh_tets p). change (nh_masses (bare p)) with (nh_masses p). change (snh_masses (bare p)) with (snh_masses p). change (shell_masses (bare p)) with (shell_masses p). change (dqdv (bare p)) with (dqdv p). change (grav (bare p)) with (grav p).
    cbn [bare pb_shell pb_pos pb_vel pb_zones pb_contacts map]. rewrite !rsum_nil. ring. }
  rewrite FP. ring.
Qed.

(** ** One product, and many *)
Section Products.
Variables (iamax : v3 -> nat) (ord : list nat -> list nat) (q0 : friction_problem) (V : list v3) (rb : bool).
Let p0 := fq_base q0.
Let m := pb_active p0.
Let q := moved iamax q0 V rb.
Hypothesis PK : picks_largest iamax.
Hypothesis OKO : lists_the_set ord.
Hypothesis FO : friction_ok iamax ord q0.
Hypothesis LV : length V = pb_active p0.
Hypothesis SM : forall f, In (Some f) (fq_parts q) -> smooth_part (fq_base q) f.
Hypothesis ZD : zones_defined p0.
Hypothesis ZE : zones_exact p0.
Hypothesis CA : contacts_apart p0.
Hypothesis RG : regular_state (fq_base q).
Variables (ij : list (nat * nat)) (vals : list R).
Hypothesis EI : friction_indices iamax ord q0 true = Some ij.
Hypothesis EV : friction_values iamax ord q true ij = Some vals.
Lemma fem_known : exists fem fv, jacobian_indices p0 false = Some fem /\ jacobian_values (updated p0 V rb) false fem = Some fv /\ length fv = length fem /\
  forall W rb' k, (k < 3 * m)%nat -> is_derive (fun s => residual_coordinate (bare (updated p0 V rb)) rb' (mesh_line V W s) k) 0 (rsum (map (fun j => matrix_entry (combine fem fv) k j * coordinate W j) (seq 0 (3 * m)))).
Proof.
  assert (OK : problem_ok p0) by apply FO. destruct (update_ok (bare p0) V rb (bare_ok p0 OK) LV) as (EP & _).
  destruct (ProblemDerivProps.jacobian_is_residual_derivative (bare p0) V rb _ (bare_ok p0 OK) LV EP) as (fem & fv & I & E & L & D); [intros z []|intros z []|intros c []|exact (bare_regular _ RG)|].
  exists fem, fv. rewrite <- bare_indices, <- bare_values. split; [exact I|]. split; [exact E|]. split; [exact L|]. intros W rb' k K. exact (proj2 (D W rb' k K)).
Qed.
Lemma constraints_derive fem fv : jacobian_indices p0 false = Some fem -> jacobian_values (updated p0 V rb) false fem = Some fv -> forall P k, (k < 3 * m)%nat ->
  (exists r, constraint_residual_at iamax q (seeded V P 0) = Some r) /\
  dual_part iamax q V P k = rsum (map (fun j => (matrix_entry (combine ij vals) k j - matrix_entry (combine fem fv) k j) * nth j P 0) (seq 0 (3 * m))).
Proof.
  intros EF EFV P k K. destruct fem_known as (fem' & fv' & A1 & A2 & _ & DB). rewrite EF in A1. injection A1 as <-. rewrite EFV in A2. injection A2 as <-. specialize (DB (aim P) false k K).
  destruct (friction_update iamax ord OKO q0 V rb FO LV) as (EU & FO'). assert (OK : problem_ok p0) by apply FO.
  destruct (FricDerivProps.whole_jacobian_is_derivative iamax ord q0 V rb q PK OKO FO LV EU SM ZD ZE CA RG) as (ij' & vals' & B1 & B2 & _ & DW). rewrite EI in B1. injection B1 as <-. rewrite EV in B2. injection B2 as <-. destruct (DW (aim P) false k K) as [_ D]. clear DW.
  destruct (update_ok p0 V rb OK LV) as (EP & OK' & _). destruct (ProblemProps.settled p0 V rb _ OK LV EP) as (_ & _ & ATX & ATV & AT).
  pose proof (ProblemDerivProofs.regular_nearby (updated p0 V rb) V (aim P) (aim P) false OK' LV ATX AT RG) as RN.
  assert (RL : forall s, regular_state (updated (updated p0 V rb) (mesh_line V (aim P) s) false) -> exists c, constraint_residual_at iamax q (seeded V P s) = Some c /\
     nth k c 0 = whole_coordinate iamax q false (mesh_line V (aim P) s) k - residual_coordinate (bare (updated p0 V rb)) false (mesh_line V (aim P) s) k).
  { intros s RS. assert (LL : length (mesh_line V (aim P) s) = pb_active (fq_base q)) by (rewrite line_length; exact LV). destruct (friction_update iamax ord OKO q (mesh_line V (aim P) s) false FO' LL) as (EU' & FO'').
    destruct (residual_parts (moved iamax q (mesh_line V (aim P) s) false) (proj1 FO'') RS) as (r & b & c & E1 & E2 & E3 & _ & _ & S). exists c. unfold constraint_residual_at. rewrite seeded_line, EU'. split; [exact E3|].
    unfold whole_coordinate, whole_residual_at. rewrite EU', E1. unfold residual_coordinate, residual_at. destruct (update_ok (bare (updated p0 V rb)) (mesh_line V (aim P) s) false (bare_ok _ OK') LL) as (EP' & _). rewrite EP'. change (updated (bare (updated p0 V rb)) (mesh_line V (aim P) s) false) with (bare (updated (updated p0 V rb) (mesh_line V (aim P) s) false)).
    change (fq_base (moved iamax q (mesh_line V (aim P) s) false)) with (updated (updated p0 V rb) (mesh_line V (aim P) s) false) in E2, S. rewrite E2. rewrite (S k K). ring. }
  split; [destruct (RL 0 (locally_singleton _ _ RN)) as (c & E & _); exists c; exact E|].
  unfold dual_part. apply is_derive_unique. apply (is_derive_ext_loc (fun s => whole_coordinate iamax q false (mesh_line V (aim P) s) k - residual_coordinate (bare (updated p0 V rb)) false (mesh_line V (aim P) s) k)).
  - revert RN. apply filter_imp. intros s RS. destruct (RL s RS) as (c & E & N). rewrite E. symmetry. exact N.
  - evar_last; [apply @is_derive_minus; [exact D|exact DB]|]. match goal with |- @eq _ (minus (rsum (map ?f ?l)) (rsum (map ?g _))) _ => change (@eq R (rsum (map f l) - rsum (map g l)) (rsum (map (fun j => (matrix_entry (combine ij vals) k j - matrix_entry (combine fem fv) k j) * nth j P 0) l))); assert (E : rsum (map f l) = rsum (map (fun j => (matrix_entry (combine ij vals) k j - matrix_entry (combine fem fv) k j) * nth j P 0) l) + rsum (map g l)) end.
    { rewrite <- rsum_plus. apply rsum_ext. intros j _. rewrite aim_coordinate. ring. } rewrite E. ring.
Qed.
(** Workspaces with the places of the problem, with values of any other state and stale, or with those of this state. *)
Definition holds (fem : list (nat * nat)) (fv : list R) (w : workspace) : Prop :=
  let (pattern, mapping) := AssemblyModel.sparse_matrix_and_mapping (map fst fem) (map snd fem) (3 * m) false in
  ws_ij w = fem /\ ws_pattern w = pattern /\ ws_mapping w = mapping /\ (ws_stale w = true \/ ws_store w = AssemblyModel.redistribute (length pattern) mapping fv).
Lemma one_product fem fv w P : jacobian_indices p0 false = Some fem -> jacobian_values (updated p0 V rb) false fem = Some fv -> length fv = length fem -> holds fem fv w -> length P = (3 * m)%nat -> (0 < m)%nat ->
  exists w' jp, jacobian_product iamax q w V P = Some (w', jp) /\ holds fem fv w' /\ length jp = (3 * m)%nat /\
    forall k, (k < 3 * m)%nat -> nth k jp 0 = rsum (map (fun j => matrix_entry (combine ij vals) k j * nth j P 0) (seq 0 (3 * m))).
Proof.
  intros EF EFV LF HW LP M0. unfold holds in *. pose proof (fun w => row_of_cache m fem fv P w) as RC. destruct (AssemblyModel.sparse_matrix_and_mapping _ _ _ _) as [pattern mapping]. destruct HW as (W1 & W2 & W3 & W4).
  set (w' := Workspace fem pattern mapping (AssemblyModel.redistribute (length pattern) mapping fv) false).
  assert (EW : refresh_workspace (fq_base q) w = Some (if ws_stale w then w' else w)).
  { unfold refresh_workspace. destruct (ws_stale w); [|reflexivity]. rewrite W1, W2, W3. change (fq_base q) with (updated p0 V rb). rewrite EFV. reflexivity. }
  set (w2 := if ws_stale w then w' else w) in *. assert (S2 : ws_ij w2 = fem /\ ws_pattern w2 = pattern /\ ws_mapping w2 = mapping /\ ws_store w2 = AssemblyModel.redistribute (length pattern) mapping fv).
  { unfold w2. destruct (ws_stale w); [repeat split|]. destruct W4 as [W4|W4]; [discriminate|]. repeat split; assumption. } destruct S2 as (Q1 & Q2 & Q3 & Q4).
  assert (K0 : (0 < 3 * m)%nat) by lia. destruct (constraints_derive fem fv EF EFV P 0%nat K0) as [[c EC] _].
  exists w2, (map (fun k => dual_part iamax q V P k + stored_row w2 P k) (seq 0 (3 * m))). split; [unfold jacobian_product; rewrite EW; cbn [bind]; rewrite EC; reflexivity|]. split; [repeat split; try assumption; right; exact Q4|]. split; [rewrite map_length, seq_length; reflexivity|].
  intros k K. rewrite (nth_indep _ 0 (dual_part iamax q V P 0 + stored_row w2 P 0)) by (rewrite map_length, seq_length; exact K). rewrite (map_nth (fun k => dual_part iamax q V P k + stored_row w2 P k)), seq_nth by exact K. rewrite Nat.add_0_l.
  rewrite (RC w2 k Q2 Q4 LF LP K), (proj2 (constraints_derive fem fv EF EFV P k K)), <- rsum_plus. apply rsum_ext. intros j _. ring.
Qed.
Lemma many_products fem fv : jacobian_indices p0 false = Some fem -> jacobian_values (updated p0 V rb) false fem = Some fv -> length fv = length fem -> (0 < m)%nat -> forall Ps w, holds fem fv w -> (forall P, In P Ps -> length P = (3 * m)%nat) ->
  exists w' js, jacobian_products iamax q w V Ps = Some (w', js) /\ length js = length Ps /\ forall i k, (i < length Ps)%nat -> (k < 3 * m)%nat ->
    nth k (nth i js []) 0 = rsum (map (fun j => matrix_entry (combine ij vals) k j * nth j (nth i Ps []) 0) (seq 0 (3 * m))).
Proof.
  intros EF EFV LF M0. induction Ps as [|P Ps IH]; intros w HW LP; cbn [jacobian_products].
  - exists w, []. split; [reflexivity|]. split; [reflexivity|]. intros i k I. inversion I.
  - destruct (one_product fem fv w P EF EFV LF HW (LP P (or_introl eq_refl)) M0) as (w1 & jp & E & HW1 & LJ & S). rewrite E. cbn [bind fst snd]. destruct (IH w1 HW1 (fun P' I => LP P' (or_intror I))) as (w' & js & E' & L' & S'). rewrite E'. cbn [option_map fst snd].
    exists w', (jp :: js). split; [reflexivity|]. split; [cbn; lia|]. intros [|i] k I K; cbn [nth]; [exact (S k K)|]. apply S'; [cbn in I; lia|exact K].
Qed.
End Products.
