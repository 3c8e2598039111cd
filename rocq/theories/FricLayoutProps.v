(** Properties of friction assembled over the mesh: where the entries of the Jacobian are. *)
From Coq Require Import Reals List Bool Lra Lia Psatz Sorting.Sorted.
From Coquelicot Require Import Coquelicot.
From Verif Require Import Vec3 Mat3 RList KernelModel KernelSpec FieldModel FieldSpec FieldProofs NeighborModel NeighborSpec NeighborProofs UpdateProps SurfJacModel SurfJacSpec SurfJacProofs SurfJacProps HessModel HessSpec SurfHessSpec ContactModel ContactJacModel ContactJacSpec ContactMapModel ContactMapSpec ContactMapProofs
  AssemblyModel ContactAsmModel ContactAsmSpec ContactDerivModel ContactDerivSpec ContactDerivProps BasisJacModel BasisJacSpec BasisJacProps
  ContactHessModel ContactHessSpec ContactHessProofs ContactRowProofs ContactMoveProofs FrictionModel FrictionSpec FricAsmModel FricAsmSpec FricForceSpec FricStateProofs FricActProofs FricFormProofs FricMoveProofs FricJacProofs FricTotalProofs FricLayoutProofs FricEnergyProofs FricAsmProps FricEnergyProps.
Import ListNotations.
Local Open Scope R_scope.

(** C173.  The friction Jacobian has its entries at the same places, in the same order, at all later positions, velocities and friction
    coefficients: rows and columns may be asked for once. *)
Theorem friction_jacobian_layout : forall iamax ord n s s' o o' prev cur prev' cur' V V' dqdv dqdv' m J J',
  lists_the_set ord -> reached iamax ord n s -> later iamax n s s' -> fo_lagged o' = fo_lagged o -> fo_incomplete o' = fo_incomplete o ->
  s = (if fo_lagged o then prev else cur) -> s' = (if fo_lagged o then prev' else cur') -> length V = n -> length V' = n ->
  friction_jacobian iamax ord o prev cur V dqdv m = Some J -> friction_jacobian iamax ord o' prev' cur' V' dqdv' m = Some J' -> map fst J' = map fst J.
Proof.
  intros iamax ord n s s' o o' prev cur prev' cur' V V' dqdv dqdv' m J J' OK RS LS OL OI ES ES' LV LV' E E'. unfold friction_jacobian in E, E'.
  destruct (friction_jacobian_blocks iamax ord o prev cur V dqdv m) as [B|] eqn:EB; [|discriminate]. destruct (friction_jacobian_blocks iamax ord o' prev' cur' V' dqdv' m) as [B'|] eqn:EB'; [|discriminate]. injection E as <-. injection E' as <-.
  assert (EQ : map fst B' = map fst B).
  { destruct (fo_lagged o) eqn:OLo; subst s s'; [exact (lagged_layout iamax ord OK n prev prev' RS LS o o' cur cur' V V' dqdv dqdv' m B B' OLo OL EB EB')|exact (moving_layout iamax ord OK n cur cur' RS LS o o' prev prev' V V' dqdv dqdv' m B B' OLo OL OI LV LV' EB EB')]. }
  rewrite !map_of_flat. assert (G : forall L : list (nat * nat * m3), flat_map (fun a => map fst (scalar_entries a)) L = flat_map scalar_positions (map fst L)).
  { induction L as [|h L IH]; [reflexivity|]. cbn [flat_map map]. rewrite IH, positions_entries. reflexivity. }
  rewrite !G, EQ. reflexivity.
Qed.

(** C174.  When all vertices may move, the blocks of the derivative of the transposed contact Jacobian are stored at their own places.
    Partial: not when some are fixed, see below. *)
Theorem friction_derivative_places_partial : forall iamax ord n s mults A, lists_the_set ord -> reached iamax ord n s -> length mults = length (fs_active s) ->
  jac_gradient_triplets ord (fs_contact s) mults n = Some A -> fs_jac_gradient s = map fst A.
Proof.
  intros iamax ord n s mults A OK RS LM E. destruct (reached_facts iamax ord n s OK RS) as (SH & _ & D). destruct D as (_ & D2 & _ & _ & _ & _ & D7 & _). rewrite D2 in LM.
  destruct (jg_some ord OK (fs_contact s) n SH mults LM) as (P & Q & _ & _ & FP & FQ & _ & _ & JG). rewrite JG in E. injection E as <-. rewrite jg_fst, FP, FQ. exact D7.
Qed.
(** C174, finding: with fixed vertices the code computes the blocks of the free vertices only, but stores them at the places of all
    vertices, one after the other: some block of free vertices lands at the place of others. *)
Theorem friction_derivative_places_refuted : exists iamax ord n m s mults A k p p', lists_the_set ord /\ reached iamax ord n s /\ (m < n)%nat /\ separate_sides (fs_contact s) /\ length mults = length (fs_active s) /\
  jac_gradient_triplets ord (fs_contact s) mults m = Some A /\ nth_error (map fst A) k = Some p /\ nth_error (map fst (combine (fs_jac_gradient s) (map snd A))) k = Some p' /\
  (fst p < m /\ snd p < m)%nat /\ (fst p' < m /\ snd p' < m)%nat /\ p' <> p.
Proof.
  destruct slide_state as (s & E & EC & EA & _ & RS). destruct (reached_facts first_largest (nodup Nat.eq_dec) 5 s sorted_listing RS) as (SH & _ & D). destruct D as (_ & _ & _ & _ & _ & _ & D7 & _). rewrite EC in SH, D7.
  destruct (jg_some (nodup Nat.eq_dec) sorted_listing slide 5 SH [V3 1 0 0] eq_refl) as (P & Q & _ & _ & FP & FQ & _ & _ & JG).
  exists first_largest, (nodup Nat.eq_dec), 5%nat, 3%nat, s, [V3 1 0 0], (jg_blocks slide 3 P Q), 6%nat, (0, 0)%nat, (0, 2)%nat. rewrite EC, EA. refine (conj sorted_listing (conj RS (conj _ (conj slide_sides (conj eq_refl (conj (JG 3%nat) (conj _ (conj _ _)))))))).
  - lia.
  - rewrite jg_fst, FP, FQ. vm_compute. reflexivity.
  - assert (LA : length (jg_blocks slide 3 P Q) = 41%nat) by (rewrite <- (map_length fst), jg_fst, FP, FQ; vm_compute; reflexivity). assert (LB : length (map snd (jg_blocks slide 3 P Q)) = 41%nat) by (rewrite map_length; exact LA). revert LB. generalize (map snd (jg_blocks slide 3 P Q)). intros l LB.
    do 7 (destruct l as [|? l]; [discriminate LB|]). rewrite D7. vm_compute (jg_places _ _ _ _). reflexivity.
  - cbn [fst snd]. repeat split; try lia. discriminate.
Qed.

(** ** Examples *)
Lemma slide_later s : fs_contact s = slide -> reached first_largest (nodup Nat.eq_dec) 5 s -> exists s', later first_largest 5 s s' /\ reached first_largest (nodup Nat.eq_dec) 5 s' /\ separate_sides (fs_contact s') /\
  at_positions (fs_contact s') [V3 0 0 0; V3 1 0 0; V3 0 1 0; V3 1 1 0; V3 (1 / 2) (1 / 3) (1 / 4)].
Proof.
  intros EC RS. destruct (reached_facts first_largest (nodup Nat.eq_dec) 5 s sorted_listing RS) as (SH & PL & D). set (X := [V3 0 0 0; V3 1 0 0; V3 0 1 0; V3 1 1 0; V3 (1 / 2) (1 / 3) (1 / 4)]).
  destruct (update_state_some (fs_contact s) 5 X [V3 0 0 0; V3 1 0 0; V3 0 1 0; V3 1 1 0] [V3 (1 / 2) (1 / 3) (1 / 4)] false SH) as (c & EU & _); [rewrite EC; reflexivity|rewrite EC; reflexivity|].
  destruct (update_places _ 5 X false c SH EU) as (SH' & PT & PL' & SS). destruct (refresh_described first_largest (nodup Nat.eq_dec) _ c 5 s SH PL SH' PL' SS D) as (s' & ER & D'). exists s'. assert (E' : fs_contact s' = c) by apply D'. rewrite E'.
  refine (conj (later_updated _ _ _ s X false c s' (later_now _ _ _) EU ER) (conj (reached_updated _ _ _ s X false c s' RS EU ER) (conj _ PT))).
  destruct SS as (_ & _ & _ & _ & _ & _ & _ & _ & T9 & T10 & _). unfold separate_sides. rewrite T9, T10, EC. exact slide_sides.
Qed.
Lemma slide_stiff s J : fs_contact s = slide -> reached first_largest (nodup Nat.eq_dec) 5 s -> friction_jacobian first_largest (nodup Nat.eq_dec) (rub true false) s s slide_only (1 / 10) 5 = Some J -> J <> [].
Proof.
  intros EC RS EJ EN. unfold friction_jacobian in EJ. destruct (friction_jacobian_blocks _ _ _ _ _ _ _ _) as [B|] eqn:EB; [|discriminate]. injection EJ as EJ. destruct B as [|[[r k] A] B]; [|subst J; discriminate EN]. clear EJ.
  destruct (state_matrices first_largest (nodup Nat.eq_dec) 5 s sorted_listing RS) as (L & EL).
  assert (Z : forall i, (5 <= i)%nat -> at3 slide_only i = v3_0) by (intros i I; apply nth_overflow; exact I).
  pose proof (lagged_form first_largest (nodup Nat.eq_dec) sorted_listing 5 s RS L EL (rub true false) s slide_only (1 / 10) 5 [] (at3 slide_only) (at3 slide_only) eq_refl (le_n 5) eq_refl EB Z Z) as F.
  assert (F0 : pairing 5 (at3 slide_only) (block_product [] (at3 slide_only)) = 0) by (unfold pairing; rewrite (rsum_ext _ (fun _ => 0 * 0)); [rewrite rsum_scale; ring|intros i _; unfold block_product; cbn [map]; unfold vsum; cbn [fold_right]; unfold v3_dot, v3_0; cbn [vx vy vz]; ring]).
  assert (F1 : 0 = rsum (map (fun k => v2_dot (to_tangent_space (frame_at first_largest slide (nth k (filled (ct_topo slide)) 0%nat)) (pull_form slide L (at3 slide_only) k)) (friction_jacobian_mul Stabilized (to_tangent_space (frame_at first_largest slide (nth k (filled (ct_topo slide)) 0%nat)) (pull_form slide L (at3 slide_only) k)) (lam_at slide (nth k (filled (ct_topo slide)) 0%nat)) rubber (to_tangent_space (frame_at first_largest slide (nth k (filled (ct_topo slide)) 0%nat)) (pull_form slide L (at3 slide_only) k)))) (seq 0 1))).
  { etransitivity; [symmetry; exact F0|]. etransitivity; [exact F|]. rewrite EC. reflexivity. }
  cbn [seq map] in F1. rewrite rsum_cons, rsum_nil, (slide_slip s L EC) in F1. change (nth 0 (filled (ct_topo slide)) 0%nat) with 0%nat in F1.
  assert (EF : frame_at first_largest slide 0 = contact_frame first_largest (V3 0 0 1)) by (unfold frame_at, grad_at; change (row_at slide 0) with (0%nat, (above, [0; 1]%nat)); rewrite slide_gradient; reflexivity). rewrite EF in F1.
  assert (EM : lam_at slide 0 = 9 / 4). { unfold lam_at. change (row_at slide 0) with (0%nat, (above, [0; 1]%nat)). assert (ED : dpot slide (0%nat, (above, [0; 1]%nat)) = 1 / 2) by (pose proof slide_potential; lra). rewrite ED. cbn [slide ct_delta ct_kappa]. unfold penalty_db. destruct (Rlt_dec 0 (1 - 1 / 2)); [|lra]. field. }
  rewrite EM in F1. pose proof slide_tangent as T. cbv zeta in T. set (w := to_tangent_space _ _) in *. clearbody w. clear - F1 T.
  assert (NN : v2_norm w * v2_norm w = 5) by (unfold v2_norm; rewrite sqrt_sqrt by lra; exact T). assert (NP : 0 <= v2_norm w) by apply sqrt_pos. unfold friction_jacobian_mul in F1. cbv zeta in F1. cbn [rubber fp_dynamic fp_static fp_viscous fp_stribeck fp_epsilon sliding_profile sliding_profile_derivative] in F1. set (f := falloff _ _) in F1. set (df := dfalloff _ _) in F1. set (nn := v2_norm w) in *. clearbody nn f df.
  assert (PP : 0 < nn) by (destruct NP as [H|H]; [exact H|subst nn; lra]). destruct (Rlt_dec 0 nn); [|lra]. set (d := nn + 1 / 10 * (1 / 100)) in F1. assert (DP : 0 < d) by (unfold d; lra). assert (ID : 0 < / d) by (apply Rinv_0_lt_compat, DP).
  match type of F1 with 0 = v2_dot w (v2_add (v2_scale ?a w) (v2_scale ?b w)) + 0 => assert (F2 : 0 = (a + b) * v2_dot w w) by (etransitivity; [exact F1|]; generalize a b; intros; unfold v2_dot, v2_add, v2_scale; cbn [v2x v2y]; ring) end. rewrite T in F2. clear F1.
  match type of F2 with 0 = ?x * 5 => assert (F3 : x = 9 / 8 * ((d - nn) * (/ d * / d))) end.
  { replace 5 with (nn * nn). field. split; lra. }
  rewrite F3 in F2. assert (0 < (d - nn) * (/ d * / d)) by (apply Rmult_lt_0_compat; [unfold d; lra|nra]). lra.
Qed.
Example friction_jacobian_layout_ex : exists s s' J J', precompute_friction first_largest (nodup Nat.eq_dec) slide 5 = Some s /\ later first_largest 5 s s' /\
  at_positions (fs_contact s') [V3 0 0 0; V3 1 0 0; V3 0 1 0; V3 1 1 0; V3 (1 / 2) (1 / 3) (1 / 4)] /\
  friction_jacobian first_largest (nodup Nat.eq_dec) (rub true false) s s slide_only (1 / 10) 5 = Some J /\ J <> [] /\
  friction_jacobian first_largest (nodup Nat.eq_dec) (rub true false) s' s' slide_with (1 / 100) 5 = Some J' /\ map fst J' = map fst J.
Proof.
  destruct slide_state as (s & E & EC & EA & _ & RS). destruct (slide_later s EC RS) as (s' & LS & RS' & SEP' & AT).
  destruct (lagged_friction_jacobian_is_derivative first_largest (nodup Nat.eq_dec) s s (rub true false) 5 slide_only (1 / 10) 5 sorted_listing RS eq_refl (le_n 5)) as (J & EJ & _); [rewrite EC; exact slide_sides|reflexivity|apply rubber_valid|intros p _; apply rubber_smooth|].
  destruct (lagged_friction_jacobian_is_derivative first_largest (nodup Nat.eq_dec) s' s' (rub true false) 5 slide_with (1 / 100) 5 sorted_listing RS' eq_refl (le_n 5) SEP') as (J' & EJ' & _); [reflexivity|apply rubber_valid|intros p _; apply rubber_smooth|].
  exists s, s', J, J'. refine (conj E (conj LS (conj AT (conj EJ (conj (slide_stiff s J EC RS EJ) (conj EJ' _)))))).
  exact (friction_jacobian_layout first_largest (nodup Nat.eq_dec) 5 s s' (rub true false) (rub true false) s s s' s' slide_only slide_with (1 / 10) (1 / 100) 5 J J' sorted_listing RS LS eq_refl eq_refl eq_refl eq_refl eq_refl eq_refl EJ EJ').
Qed.
Example friction_derivative_places_ex : exists s A, precompute_friction first_largest (nodup Nat.eq_dec) slide 5 = Some s /\ jac_gradient_triplets (nodup Nat.eq_dec) slide [V3 1 0 0] 5 = Some A /\ fs_jac_gradient s = map fst A /\ length A = 66%nat.
Proof.
  destruct slide_state as (s & E & EC & EA & _ & RS). destruct (reached_facts first_largest (nodup Nat.eq_dec) 5 s sorted_listing RS) as (SH & _ & _). rewrite EC in SH.
  destruct (jg_some (nodup Nat.eq_dec) sorted_listing slide 5 SH [V3 1 0 0] eq_refl) as (P & Q & _ & _ & FP & FQ & _ & _ & JG). exists s, (jg_blocks slide 5 P Q). refine (conj E (conj (JG 5%nat) (conj _ _))).
  - apply (friction_derivative_places_partial first_largest (nodup Nat.eq_dec) 5 s [V3 1 0 0]); [exact sorted_listing|exact RS|rewrite EA; reflexivity|rewrite EC; apply JG].
  - rewrite <- (map_length fst), jg_fst, FP, FQ. vm_compute. reflexivity.
Qed.

Print Assumptions friction_jacobian_layout.
Print Assumptions friction_derivative_places_partial.
Print Assumptions friction_derivative_places_refuted.
