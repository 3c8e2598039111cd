(** Slope of the merit along a direction, and acceptance of short Newton steps. *)
From Coq Require Import Reals List Arith Bool Lra Lia.
From Coquelicot Require Import Coquelicot.
From Verif Require Import Vec3 Mat3 RList ElasticModel ElasticSpec VolumeModel VolumeSpec NeighborModel SurfJacSpec SurfHessSpec ContactAsmModel ContactDerivSpec BasisJacSpec ContactHessModel ContactHessSpec.
From Verif Require Import FrictionModel FricAsmModel FricForceSpec ProblemModel ProblemSpec ProblemListProofs ProblemProofs ProblemMatrixProofs ProblemDerivSpec FricProblemModel FricProblemSpec FricProblemProofs FricDerivSpec ProductModel ProductProofs DescentModel DescentProofs DescentEx.
From Verif Require AssemblyModel NewtonModel FricProblemProps FricDerivProps BasisJacProps ContactDerivProps FricAsmProps SurfJacProofs ProductProps.
Import ListNotations.
Local Open Scope R_scope.

(** The merit along a direction, from the assembled matrix. *)
Lemma merit_slope : forall iamax ord q0 V rb q, picks_largest iamax -> lists_the_set ord -> friction_ok iamax ord q0 -> length V = pb_active (fq_base q0) -> (0 < length V)%nat ->
  update_friction_problem iamax q0 V rb = Some q -> (forall f, In (Some f) (fq_parts q) -> smooth_part (fq_base q) f) ->
  zones_defined (fq_base q0) -> zones_exact (fq_base q0) -> contacts_apart (fq_base q0) -> regular_state (fq_base q) ->
  forall ij vals d P rb', friction_indices iamax ord q0 true = Some ij -> friction_values iamax ord q true ij = Some vals -> length d = (3 * length V)%nat ->
  exists r, whole_residual_at iamax q rb' V = Some r /\ length r = (3 * length V)%nat /\
    is_derive (fun s => match merit_at iamax q rb' d (seeded V P s) with Some a => a | None => 0 end) 0
      (rsum (map (fun k => (nth k d 0 * rsum (map (fun j => matrix_entry (combine ij vals) k j * nth j P 0) (seq 0 (3 * length V)))) * (nth k d 0 * nth k r 0)) (seq 0 (3 * length V)))).
Proof.
  intros iamax ord q0 V rb q PK OKO FO LV L0 E SM ZD ZE CA RG ij vals d P rb' EI EV LD. destruct (FricDerivProps.whole_jacobian_is_derivative iamax ord q0 V rb q PK OKO FO LV E SM ZD ZE CA RG) as (ij' & vals' & B1 & B2 & _ & DW). rewrite EI in B1. injection B1 as <-. rewrite EV in B2. injection B2 as <-. rewrite <- LV in DW.
  assert (S0 : seeded V P 0 = V) by (rewrite seeded_line; apply SurfJacProofs.mesh_0). assert (K0 : (0 < 3 * length V)%nat) by lia. destruct (DW (aim P) rb' 0%nat K0) as [NE _].
  destruct (merit_derive d (3 * length V) (fun s => whole_residual_at iamax q rb' (seeded V P s)) (fun k => rsum (map (fun j => matrix_entry (combine ij vals) k j * nth j P 0) (seq 0 (3 * length V)))) LD) as (r & E0 & LR & D).
  - exact NE.
  - intros k K. destruct (DW (aim P) rb' k K) as [_ D]. evar_last; [exact D|]. apply rsum_ext. intros j _. rewrite aim_coordinate. reflexivity.
  - rewrite S0 in E0. exists r. split; [exact E0|]. split; [exact LR|]. exact D.
Qed.

(** C193: with an iterative solver, the slope that decides whether a direction is reversed and which decrease is asked for is the derivative of
    the merit along that direction, whatever the preconditioner and the cache. *)
Theorem iterative_slope_is_derivative : forall iamax ord q0 V rb q, picks_largest iamax -> lists_the_set ord -> friction_ok iamax ord q0 -> length V = pb_active (fq_base q0) -> (0 < length V)%nat ->
  update_friction_problem iamax q0 V rb = Some q -> (forall f, In (Some f) (fq_parts q) -> smooth_part (fq_base q) f) ->
  zones_defined (fq_base q0) -> zones_exact (fq_base q0) -> contacts_apart (fq_base q0) -> regular_state (fq_base q) ->
  exists ij w, indices_and_workspace iamax ord q0 true = Some (ij, w) /\
    forall store stale d P rb', length d = (3 * length V)%nat -> length P = (3 * length V)%nat ->
      exists r slope, whole_residual_at iamax q rb' V = Some r /\
        iterative_slope iamax q (invalidate (Workspace (ws_ij w) (ws_pattern w) (ws_mapping w) store stale)) d V P (rescale_vector d r) = Some slope /\
        is_derive (fun s => match merit_at iamax q rb' d (seeded V P s) with Some a => a | None => 0 end) 0 slope.
Proof.
  intros iamax ord q0 V rb q PK OKO FO LV L0 E SM ZD ZE CA RG. destruct (ProductProps.products_are_jacobian_products iamax ord q0 V rb q PK OKO FO LV L0 E SM ZD ZE CA RG) as (ij & vals & w & A & EI & EV & _ & S).
  exists ij, w. split; [exact A|]. intros store stale d P rb' LD LP. destruct (merit_slope iamax ord q0 V rb q PK OKO FO LV L0 E SM ZD ZE CA RG ij vals d P rb' EI EV LD) as (r & ER & LR & D).
  destruct (S store stale [P]) as (w' & js & J & LJ & N); [intros P' [<-|[]]; exact LP|]. cbn [jacobian_products] in J. unfold iterative_slope. destruct (jacobian_product iamax q _ V P) as [[w1 jp]|] eqn:EJ; [|discriminate]. cbn [bind option_map fst snd] in J. injection J as <- <-.
  assert (LJP : length jp = (3 * length V)%nat). { revert EJ. unfold jacobian_product. destruct (refresh_workspace _ _); [|discriminate]. cbn [bind]. destruct (constraint_residual_at _ _ _); [|discriminate]. cbn [bind]. intros [= _ <-]. rewrite map_length, seq_length. destruct (friction_update iamax ord OKO q0 V rb FO LV) as (EU & _). rewrite EU in E. injection E as <-. rewrite LV. reflexivity. }
  exists r, (slope_of d jp (rescale_vector d r)). split; [exact ER|]. split; [reflexivity|]. rewrite (slope_form d jp r (3 * length V) LJP LR LD). evar_last; [exact D|]. apply rsum_ext. intros k K. apply in_seq in K. specialize (N 0%nat k). cbn [nth length] in N. rewrite N by lia. reflexivity.
Qed.
Example iterative_slope_is_derivative_ex : exists s, picks_largest BasisJacProps.first_largest /\ lists_the_set FricProblemProps.listed /\ forall lagged, let q0 := FricProblemProps.glide s lagged in
  exists q, friction_ok BasisJacProps.first_largest FricProblemProps.listed q0 /\ update_friction_problem BasisJacProps.first_largest q0 FricAsmProps.slide_with true = Some q /\ contacts_apart (fq_base q0) /\ regular_state (fq_base q) /\
    exists ij w r slope, indices_and_workspace BasisJacProps.first_largest FricProblemProps.listed q0 true = Some (ij, w) /\ whole_residual_at BasisJacProps.first_largest q true FricAsmProps.slide_with = Some r /\
      iterative_slope BasisJacProps.first_largest q (invalidate w) (map INR (seq 1 15)) FricAsmProps.slide_with (repeat 1 15) (rescale_vector (map INR (seq 1 15)) r) = Some slope.
Proof.
  destruct ProductProps.products_are_jacobian_products_ex as (s & PK & OKO & H). exists s. split; [exact PK|]. split; [exact OKO|]. intros lagged. cbv zeta. destruct (H lagged) as (FO & LV & L0 & ZD & ZE & CA & q & E & SM & RG & _).
  exists q. split; [exact FO|]. split; [exact E|]. split; [exact CA|]. split; [exact RG|]. destruct (iterative_slope_is_derivative _ _ _ _ _ _ PK OKO FO LV L0 E SM ZD ZE CA RG) as (ij & w & A & S). destruct w as [a b c store stale].
  destruct (S store stale (map INR (seq 1 15)) (repeat 1 15) true) as (r & slope & ER & ES & _); [rewrite map_length, seq_length; reflexivity|rewrite repeat_length; reflexivity|]. exists ij, (Workspace a b c store stale), r, slope. split; [exact A|]. split; [exact ER|exact ES].
Qed.

(** C194: with a direct solver the same holds without a preconditioner. *)
Theorem direct_slope_is_derivative : forall iamax ord q0 V rb q, picks_largest iamax -> lists_the_set ord -> friction_ok iamax ord q0 -> length V = pb_active (fq_base q0) -> (0 < length V)%nat ->
  update_friction_problem iamax q0 V rb = Some q -> (forall f, In (Some f) (fq_parts q) -> smooth_part (fq_base q) f) ->
  zones_defined (fq_base q0) -> zones_exact (fq_base q0) -> contacts_apart (fq_base q0) -> regular_state (fq_base q) ->
  exists ij vals, friction_indices iamax ord q0 true = Some ij /\ friction_values iamax ord q true ij = Some vals /\
    forall P rb', length P = (3 * length V)%nat -> let d := repeat 1 (3 * length V) in
      exists r, whole_residual_at iamax q rb' V = Some r /\
        is_derive (fun s => match merit_at iamax q rb' d (seeded V P s) with Some a => a | None => 0 end) 0 (direct_slope (3 * length V) d ij vals P (rescale_vector d r)).
Proof.
  intros iamax ord q0 V rb q PK OKO FO LV L0 E SM ZD ZE CA RG. destruct (ProductProps.products_are_jacobian_products iamax ord q0 V rb q PK OKO FO LV L0 E SM ZD ZE CA RG) as (ij & vals & w & A & EI & EV & LE & _).
  exists ij, vals. split; [exact EI|]. split; [exact EV|]. intros P rb' LP d. assert (LD : length d = (3 * length V)%nat) by apply repeat_length. destruct (merit_slope iamax ord q0 V rb q PK OKO FO LV L0 E SM ZD ZE CA RG ij vals d P rb' EI EV LD) as (r & ER & LR & D).
  exists r. split; [exact ER|]. evar_last; [exact D|]. unfold direct_slope. rewrite (slope_form d _ r (3 * length V)) by (rewrite ?map_length, ?seq_length; auto). apply rsum_ext. intros k K. apply in_seq in K.
  set (M := direct_matrix _ _ _ _). rewrite (nth_indep (map (stored_row M P) _) 0 (stored_row M P 0)) by (rewrite map_length, seq_length; lia). rewrite (map_nth (stored_row M P)), seq_nth, Nat.add_0_l by lia. f_equal. f_equal. symmetry.
  assert (SC : rescale_values d ij vals = vals). { unfold rescale_values. transitivity (map snd (combine ij vals)); [|clear -LE; revert vals LE; induction ij as [|a l IH]; intros [|x v] L; try discriminate; [reflexivity|]; cbn [combine map snd]; rewrite IH by (cbn in L; lia); reflexivity]. apply map_ext_in. intros e _. destruct (Nat.ltb_spec (fst (fst e)) (length d)) as [B|]; [|reflexivity]. unfold d. rewrite (nth_indep _ 0 1) by exact B. rewrite nth_repeat. ring. }
  pose proof (row_of_cache (length V) ij vals P M k) as RC. unfold M, direct_matrix in *. rewrite SC in *. destruct (AssemblyModel.sparse_matrix_and_mapping _ _ _ _) as [pattern mapping]. apply RC; auto; lia.
Qed.
Example direct_slope_is_derivative_ex : let iamax := BasisJacProps.first_largest in let ord := FricProblemProps.listed in let V := [v3_0] in let q := dust_after true in let P := [0; 0; - (1 / 2)] in let d := repeat 1 3 in
  picks_largest iamax /\ lists_the_set ord /\ friction_ok iamax ord dust /\ update_friction_problem iamax dust V true = Some q /\ regular_state (fq_base q) /\
  exists ij vals r, friction_indices iamax ord dust true = Some ij /\ friction_values iamax ord q true ij = Some vals /\ whole_residual_at iamax q true V = Some r /\ direct_slope 3 d ij vals P (rescale_vector d r) = - (49 / 100) * (dust_mass * dust_mass).
Proof.
  intros iamax ord V q P d. assert (PK : picks_largest iamax) by exact BasisJacProps.first_largest_picks. assert (OKO : lists_the_set ord) by exact ContactDerivProps.sorted_listing. pose proof (dust_ok iamax ord) as FO. pose proof (dust_updates iamax true) as EU.
  assert (RG : regular_state (fq_base q)) by exact (dust_regular true). split; [exact PK|]. split; [exact OKO|]. split; [exact FO|]. split; [exact EU|]. split; [exact RG|]. assert (L0 : (0 < length V)%nat) by (cbn; lia).
  destruct (direct_slope_is_derivative iamax ord dust V true q PK OKO FO eq_refl L0 EU) as (ij & vals & EI & EV & S); [intros f []|intros z []|intros z []|intros c []|exact RG|].
  destruct (S P true eq_refl) as (r & ER & D). exists ij, vals, r. split; [exact EI|]. split; [exact EV|]. split; [exact ER|]. apply is_derive_unique in D. change (repeat 1 (3 * length V)) with d in D. change (3 * length V)%nat with 3%nat in D. rewrite <- D. apply is_derive_unique.
  apply (is_derive_ext (fun s => 1 / 2 * (dust_mass * dust_mass) * ((98 / 100 - s / 2) * (98 / 100 - s / 2)))).
  - intros s. unfold merit_at. change (seeded V P s) with [V3 (0 + s * 0) (0 + s * 0) (0 + s * - (1 / 2))]. unfold q. rewrite (dust_residual iamax true true) by (cbn; lra). cbn [option_map]. rewrite (merit_form d _ 3) by reflexivity. cbn [seq map]. rewrite !rsum_cons, rsum_nil. unfold d. cbn [nth repeat vx vy vz]. match goal with |- @eq _ ?a ?b => change (@eq R a b) end. field.
  - auto_derive; [exact Logic.I|]. match goal with |- @eq _ ?a ?b => change (@eq R a b) end. field.
Qed.
Lemma one_merit d r : residual_merit (rescale_vector [d] [r]) = 1 / 2 * ((r * d) * (r * d)).
Proof. unfold residual_merit, rescale_vector. cbn [combine map fst snd skipn length app]. rewrite rsum_cons, rsum_nil. ring. Qed.
Lemma one_slope d a p r : direct_slope 1 [d] [(0%nat, 0%nat)] [a] [p] (rescale_vector [d] [r]) = (a * d * p * d) * (r * d).
Proof. cbn. ring. Qed.
(** With a preconditioner the product is rescaled twice.  With the default settings, for a linear residual and the exact Newton direction the
    backtracking then rejects every step length, also the one that ends at the solution. *)
Theorem direct_slope_refuted : exists d ij vals P r cfg, NewtonModel.search cfg = NewtonModel.BackTracking (1 / 10000) (9 / 10) /\ NewtonModel.iterative cfg = false /\ 0 < nth 0 d 0 /\ 0 < nth 0 r 0 /\
  matrix_entry (combine ij vals) 0 0 * nth 0 P 0 = - nth 0 r 0 /\
  is_derive (fun s => residual_merit (rescale_vector d [nth 0 r 0 + s * (matrix_entry (combine ij vals) 0 0 * nth 0 P 0)])) 0 (- (2 * residual_merit (rescale_vector d r))) /\
  direct_slope 1 d ij vals P (rescale_vector d r) <> - (2 * residual_merit (rescale_vector d r)) /\
  forall tol a, 0 < a -> NewtonModel.test_alpha cfg tol None None (Some (residual_merit (rescale_vector d [nth 0 r 0 + a * (matrix_entry (combine ij vals) 0 0 * nth 0 P 0)]))) (residual_merit (rescale_vector d r)) (Some (direct_slope 1 d ij vals P (rescale_vector d r))) a = false.
Proof.
  exists [10000], [(0%nat, 0%nat)], [1], [-1], [1], (NewtonModel.Config 10 (NewtonModel.BackTracking (1 / 10000) (9 / 10)) false false false).
  assert (EM : matrix_entry (combine [(0%nat, 0%nat)] [1]) 0 0 = 1) by (cbn; ring). assert (EC : residual_merit (rescale_vector [10000] [1]) = 50000000) by (rewrite one_merit; field).
  assert (ED : direct_slope 1 [10000] [(0%nat, 0%nat)] [1] [-1] (rescale_vector [10000] [1]) = - 1000000000000) by (rewrite one_slope; ring).
  rewrite EM, EC, ED. cbn [nth NewtonModel.search NewtonModel.iterative]. split; [reflexivity|]. split; [reflexivity|]. split; [lra|]. split; [lra|]. split; [lra|].
  assert (EL : forall a, residual_merit (rescale_vector [10000] [1 + a * (1 * -1)]) = 50000000 * (1 - a) * (1 - a)) by (intros a; rewrite one_merit; field). split; [|split].
  - apply (is_derive_ext (fun s => 50000000 * (1 - s) * (1 - s))); [intros s; symmetry; apply EL|]. auto_derive; [exact I|]. change (@eq R (50000000 * - (1) * (1 - 0) + 50000000 * (1 - 0) * - (1)) (- (2 * 50000000))). ring.
  - lra.
  - intros tol a A. unfold NewtonModel.test_alpha. cbn [NewtonModel.iterative NewtonModel.search NewtonModel.armijo_coeff option_map NewtonModel.ole]. rewrite EL. destruct (Rle_dec _ _) as [B|]; [|reflexivity]. exfalso. nra.
Qed.

(** C195: short steps along an inexact Newton direction pass the test of the line search, with both kinds of solvers (for a direct solver with
    the true slope), so backtracking only fails where the residual is not smooth or the direction is not from the Jacobian. *)
Theorem short_newton_steps_accepted : forall iamax ord q0 V rb q, picks_largest iamax -> lists_the_set ord -> friction_ok iamax ord q0 -> length V = pb_active (fq_base q0) -> (0 < length V)%nat ->
  update_friction_problem iamax q0 V rb = Some q -> (forall f, In (Some f) (fq_parts q) -> smooth_part (fq_base q) f) ->
  zones_defined (fq_base q0) -> zones_exact (fq_base q0) -> contacts_apart (fq_base q0) -> regular_state (fq_base q) ->
  exists ij vals, friction_indices iamax ord q0 true = Some ij /\ friction_values iamax ord q true ij = Some vals /\
    forall d P rb' cfg eta r, length d = (3 * length V)%nat -> NewtonModel.use_obj_merit cfg = false -> 0 < NewtonModel.armijo_coeff (NewtonModel.search cfg) < 1 -> 0 <= eta < 1 ->
      whole_residual_at iamax q rb' V = Some r -> let n := (3 * length V)%nat in let jp := fun k => rsum (map (fun j => matrix_entry (combine ij vals) k j * nth j P 0) (seq 0 n)) in
      0 < rsum (map (fun k => (nth k d 0 * nth k r 0) * (nth k d 0 * nth k r 0)) (seq 0 n)) ->
      rsum (map (fun k => (nth k d 0 * (jp k + nth k r 0)) * (nth k d 0 * (jp k + nth k r 0))) (seq 0 n)) <= eta * eta * rsum (map (fun k => (nth k d 0 * nth k r 0) * (nth k d 0 * nth k r 0)) (seq 0 n)) ->
      let slope := rsum (map (fun k => (nth k d 0 * jp k) * (nth k d 0 * nth k r 0)) (seq 0 n)) in
      slope < 0 /\ exists a0, 0 < a0 /\ forall a, 0 < a < a0 -> exists m0, merit_at iamax q rb' d (seeded V P 0) = Some m0 /\ NewtonModel.test_alpha cfg eta None None (merit_at iamax q rb' d (seeded V P a)) m0 (Some slope) a = true.
Proof.
  intros iamax ord q0 V rb q PK OKO FO LV L0 E SM ZD ZE CA RG. destruct (FricDerivProps.whole_jacobian_is_derivative iamax ord q0 V rb q PK OKO FO LV E SM ZD ZE CA RG) as (ij & vals & EI & EV & LE & DW).
  exists ij, vals. split; [exact EI|]. split; [exact EV|]. intros d P rb' cfg eta r LD OM C ET ER n jp SP IN slope. destruct (merit_slope iamax ord q0 V rb q PK OKO FO LV L0 E SM ZD ZE CA RG ij vals d P rb' EI EV LD) as (r' & ER' & LR & D). rewrite ER in ER'. injection ER' as <-. fold n in D, LR, LD.
  change (rsum _) with slope in D at 1. set (S := rsum (map (fun k => (nth k d 0 * nth k r 0) * (nth k d 0 * nth k r 0)) (seq 0 n))) in *. set (c := NewtonModel.armijo_coeff (NewtonModel.search cfg)) in *.
  assert (SL : slope <= - (1 - eta) * S). { pose proof (inexact_slope (fun k => nth k d 0 * (jp k + nth k r 0)) (fun k => nth k d 0 * nth k r 0) eta (seq 0 n) (proj1 ET) IN) as I. fold S in I. refine (Rle_trans _ _ _ (Req_le _ _ _) I). apply rsum_ext. intros k _. ring. }
  assert (SN : slope < 0). { apply Rle_lt_trans with (1 := SL). assert (0 < (1 - eta) * S) by (apply Rmult_lt_0_compat; [lra|exact SP]). lra. } split; [exact SN|].
  assert (S0 : seeded V P 0 = V) by (rewrite seeded_line; apply SurfJacProofs.mesh_0). assert (M0 : merit_at iamax q rb' d (seeded V P 0) = Some (S / 2)). { unfold merit_at. rewrite S0, ER. cbn [option_map]. rewrite (merit_form d r n LR LD), rsum_scale. fold S. f_equal. field. }
  set (f := fun s => match merit_at iamax q rb' d (seeded V P s) with Some a => a | None => 0 end) in *. assert (F0 : f 0 = S / 2) by (unfold f; rewrite M0; reflexivity).
  destruct (short_steps f slope (- (c * (1 - eta) * S)) D) as (a1 & A1 & H1). { apply Rle_lt_trans with (1 := SL). assert (0 < (1 - c) * ((1 - eta) * S)) by (apply Rmult_lt_0_compat; [lra|apply Rmult_lt_0_compat; [lra|exact SP]]). lra. }
  destruct (short_steps f slope (c * slope) D) as (a2 & A2 & H2). { assert (0 < (1 - c) * - slope) by (apply Rmult_lt_0_compat; lra). lra. }
  assert (NE : exists a3, 0 < a3 /\ forall a, 0 < a < a3 -> merit_at iamax q rb' d (seeded V P a) = Some (f a)).
  { assert (K0 : (0 < 3 * pb_active (fq_base q0))%nat) by lia. destruct (DW (aim P) rb' 0%nat K0) as [[del NE] _]. exists del. split; [apply cond_pos|]. intros a [B1 B2]. destruct (NE a) as (ra & EA & _); [change (Rabs (a - 0) < del); rewrite Rminus_0_r, Rabs_right; lra|]. unfold f, merit_at. rewrite seeded_line, EA. reflexivity. }
  destruct NE as (a3 & A3 & H3). exists (Rmin a1 (Rmin a2 a3)). split; [repeat apply Rmin_pos; assumption|]. intros a [B1 B2].
  assert (a < a1 /\ a < a2 /\ a < a3) as (X1 & X2 & X3). { pose proof (Rmin_l a1 (Rmin a2 a3)). pose proof (Rmin_r a1 (Rmin a2 a3)). pose proof (Rmin_l a2 a3). pose proof (Rmin_r a2 a3). lra. }
  exists (S / 2). split; [exact M0|]. rewrite (H3 a (conj B1 X3)). specialize (H1 a (conj B1 X1)). specialize (H2 a (conj B1 X2)). rewrite F0 in H1, H2. unfold NewtonModel.test_alpha. rewrite OM. fold c. destruct (NewtonModel.iterative cfg); cbn [option_map NewtonModel.ole]; (destruct (Rle_dec _ _) as [|B]; [reflexivity|exfalso; apply B]).
  - apply Rle_trans with (1 := H1). assert (0 <= S / 2 * (c * a * (1 - eta) * (c * a * (1 - eta)))) by (apply Rmult_le_pos; [lra|apply Rle_0_sqr]). lra.
  - lra.
Qed.
(** A falling tetrahedron without stiffness with one vertex that may move; the direction solves its linear system up to half of the residual. *)
Example short_newton_steps_accepted_ex : let iamax := BasisJacProps.first_largest in let ord := FricProblemProps.listed in let V := [v3_0] in let q := dust_after true in let d := [1; 2; 3] in let P := [0; 0; - (1 / 2)] in let eta := 1 / 2 in
  picks_largest iamax /\ lists_the_set ord /\ friction_ok iamax ord dust /\ length V = pb_active (fq_base dust) /\ (0 < length V)%nat /\ update_friction_problem iamax dust V true = Some q /\
  (forall f, In (Some f) (fq_parts q) -> smooth_part (fq_base q) f) /\ zones_defined (fq_base dust) /\ zones_exact (fq_base dust) /\ contacts_apart (fq_base dust) /\ regular_state (fq_base q) /\
  exists ij vals r, friction_indices iamax ord dust true = Some ij /\ friction_values iamax ord q true ij = Some vals /\ length d = (3 * length V)%nat /\ whole_residual_at iamax q true V = Some r /\
    let n := (3 * length V)%nat in let jp := fun k => rsum (map (fun j => matrix_entry (combine ij vals) k j * nth j P 0) (seq 0 n)) in
    0 < rsum (map (fun k => (nth k d 0 * nth k r 0) * (nth k d 0 * nth k r 0)) (seq 0 n)) /\
    0 < rsum (map (fun k => (nth k d 0 * (jp k + nth k r 0)) * (nth k d 0 * (jp k + nth k r 0))) (seq 0 n)) <= eta * eta * rsum (map (fun k => (nth k d 0 * nth k r 0) * (nth k d 0 * nth k r 0)) (seq 0 n)).
Proof.
  intros iamax ord V q d P eta. assert (PK : picks_largest iamax) by exact BasisJacProps.first_largest_picks. assert (OKO : lists_the_set ord) by exact ContactDerivProps.sorted_listing. pose proof (dust_ok iamax ord) as FO. pose proof (dust_updates iamax true) as EU.
  assert (SM : forall f, In (Some f) (fq_parts q) -> smooth_part (fq_base q) f) by (intros f []). assert (ZD : zones_defined (fq_base dust)) by (intros z []). assert (ZE : zones_exact (fq_base dust)) by (intros z []). assert (CA : contacts_apart (fq_base dust)) by (intros c []).
  assert (RG : regular_state (fq_base q)) by exact (dust_regular true). split; [exact PK|]. split; [exact OKO|]. split; [exact FO|]. split; [reflexivity|]. split; [cbn; lia|]. split; [exact EU|]. split; [exact SM|]. split; [exact ZD|]. split; [exact ZE|]. split; [exact CA|]. split; [exact RG|].
  destruct (FricDerivProps.whole_jacobian_is_derivative iamax ord dust V true q PK OKO FO eq_refl EU SM ZD ZE CA RG) as (ij & vals & EI & EV & _ & DW).
  exists ij, vals, [dust_mass * 0; dust_mass * 0; dust_mass * (0 + 98 / 100)]. split; [exact EI|]. split; [exact EV|]. split; [reflexivity|]. split; [apply (dust_residual iamax true true v3_0); cbn; lra|]. intros n jp.
  assert (J : forall k, (k < 3)%nat -> jp k = dust_mass * nth k P 0).
  { intros k K. destruct (DW (aim P) true k K) as [_ D]. apply is_derive_unique in D. assert (D' : is_derive (fun s => whole_coordinate iamax q true (mesh_line V (aim P) s) k) 0 (dust_mass * nth k P 0)).
    { apply (is_derive_ext (fun s => dust_mass * (s * nth k P 0) + nth k [0; 0; dust_mass * (98 / 100)] 0)).
      - intros s. unfold whole_coordinate. change (mesh_line V (aim P) s) with [V3 (0 + s * 0) (0 + s * 0) (0 + s * - (1 / 2))]. unfold q. rewrite (dust_residual iamax true true) by (cbn; lra). destruct k as [|[|[|k]]]; [| | |lia]; cbn; ring.
      - auto_derive; [exact Logic.I|]. change (@eq R (dust_mass * (1 * nth k P 0)) (dust_mass * nth k P 0)). ring. }
    apply is_derive_unique in D'. unfold jp. rewrite <- D', D. apply rsum_ext. intros j _. rewrite aim_coordinate. reflexivity. }
  clearbody jp. unfold n, V. cbn [length Nat.mul Nat.add seq map]. rewrite !rsum_cons, !rsum_nil, (J 0%nat), (J 1%nat), (J 2%nat) by lia. unfold d, P, eta, dust_mass. cbn [nth]. lra.
Qed.
Print Assumptions iterative_slope_is_derivative.
Print Assumptions direct_slope_is_derivative.
Print Assumptions direct_slope_refuted.
Print Assumptions short_newton_steps_accepted.
