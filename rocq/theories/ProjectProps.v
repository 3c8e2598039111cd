(** C131 to C133: projecting points to one side of a level set of the potential. *)
From Coq Require Import Reals List Bool ZArith Lra Lia.
From Coquelicot Require Import Coquelicot.
From Verif Require Import Vec3 RList KernelModel KernelSpec FieldModel FieldSpec FieldProofs FieldProps NeighborModel NeighborSpec NeighborProofs ProjectModel ProjectSpec ProjectProofs ProjectExactProofs.
Import ListNotations.
Local Open Scope R_scope.

(** A flat global surface with two samples, and two points on opposite sides of it. *)
Definition flat_base : base := cloud (BgParams FZero false) [V3 0 0 0; V3 1 0 0].
Definition flat_topo : query_topo := QGlobal 1 flat_base [0; 1]%nat [0; 1]%nat.
Lemma flat_coplanar : coplanar (sb_samples flat_base) [0; 1]%nat (V3 0 0 1) 0.
Proof.
  assert (U : unit_of (V3 0 0 1) = V3 0 0 1).
  { unfold unit_of, v3_norm, v3_dot. cbn [vx vy vz]. replace (0 * 0 + 0 * 0 + 1 * 1) with 1 by ring. rewrite sqrt_1. unfold v3_scale. cbn [vx vy vz]. f_equal; field. }
  assert (Z : V3 0 0 1 <> v3_0) by (intros H; injection H; lra).
  intros i [<-|[<-|[]]]; cbn [sb_samples flat_base cloud cloud_samples map smp nth s_nml s_value s_pos]; (split; [exact Z|]); (split; [exact U|]); unfold v3_dot; cbn [vx vy vz]; lra.
Qed.

(** C131: if the projection reports convergence, every point is on the side asked for or has no gradient to follow, and every point that was moved
    is at most the thickness beyond the level. *)
Theorem projection_lands t s iso eps qs qs' : p_type (sb_bg (q_base t)) <> FInput -> project t s iso eps qs = Some (qs', true) ->
  length qs' = length qs /\
  forall i q q', nth_error qs i = Some q -> nth_error qs' i = Some q' ->
    (on_side s iso (level (mls_field t) i q') \/ f_jac (mls_field t) i q' = v3_0) /\
    (q' <> q -> near_level s iso eps (level (mls_field t) i q')).
Proof.
  intros T E. unfold project in E. destruct (Nat.eqb _ _); [|discriminate]. injection E as E.
  destruct (project_spec _ _ _ _ _ _ _ E) as [L H]. split; [exact L|]. intros i q q' Q Q'.
  destruct (H i q Q (mls_steady t i T)) as (x & k & N & _ & _ & D). rewrite N in Q'. injection Q' as ->. destruct (D eq_refl) as [D1 D2].
  split; [exact D1|]. intros NE. destruct D2 as [D2|D2]; [contradiction|exact D2].
Qed.

(** C131: a point that already is on the side asked for, or has no gradient to follow, is not modified, whatever becomes of the others. *)
Theorem projection_keeps t s iso eps qs qs' c i q q' : p_type (sb_bg (q_base t)) <> FInput -> project t s iso eps qs = Some (qs', c) ->
  nth_error qs i = Some q -> nth_error qs' i = Some q' ->
  on_side s iso (level (mls_field t) i q) \/ f_jac (mls_field t) i q = v3_0 -> q' = q.
Proof.
  intros T E Q Q' H. unfold project in E. destruct (Nat.eqb _ _); [|discriminate]. injection E as E.
  destruct (project_spec _ _ _ _ _ _ _ E) as [_ S]. destruct (S i q Q (mls_steady t i T)) as (x & k & N & _ & P & _). rewrite N in Q'. injection Q' as ->.
  inversion P as [|n a b z M _]; subst; [reflexivity|]. destruct M as (M1 & M2 & _). destruct H; contradiction.
Qed.

(** C131: every point takes at most twenty moves, each along the gradient in the direction asked for and as long as the value is short of the
    level plus half the thickness, or that halved up to nine times. *)
Theorem projection_path t s iso eps qs qs' c i q : p_type (sb_bg (q_base t)) <> FInput -> project t s iso eps qs = Some (qs', c) ->
  nth_error qs i = Some q -> exists q' k, nth_error qs' i = Some q' /\ (k <= 20)%nat /\ path (mls_field t) s iso eps i k q q'.
Proof.
  intros T E Q. unfold project in E. destruct (Nat.eqb _ _); [|discriminate]. injection E as E.
  destruct (project_spec _ _ _ _ _ _ _ E) as [_ S]. destruct (S i q Q (mls_steady t i T)) as (x & k & N & K & P & _). eauto.
Qed.

(** C131: the gradient followed at a point is that of its value, computed from its own neighbours; without neighbours it points away from its own
    nearest sample, or towards it on the inner side, with length one if the background is a distance. *)
Theorem projection_gradient t i q : let b := q_base t in let S := sb_samples b in let k := q_kernel t in let nbrs := nth i (trivial_neighborhood t) [] in
  (forall c v u, valid_kernel k -> nearest S q nbrs c -> regular_view k S q nbrs -> smooth_background k (sb_bg b) v S q c ->
    directional (fun y => f_pot (mls_field t) i y v) q u (v3_dot (f_jac (mls_field t) i q) u)) /\
  (forall c r, nbrs = [] -> nth_error (closest_samples t) i = Some c -> k_radius k = Some r -> r < gap S q c -> 0 <= r ->
    f_jac (mls_field t) i q =
    match p_type (sb_bg b) with FDistance => v3_scale ((if Rlt_dec (v3_dot (s_nml (smp S c)) (away S q c)) 0 then -1 else 1) / gap S q c) (away S q c) | _ => v3_0 end).
Proof.
  cbv zeta. split.
  - intros c v u VK NE RV SB. destruct (query_jacobian_is_derivative _ _ _ _ _ _ _ u VK NE RV SB) as (J & EJ & D). unfold mls_field. cbn [f_pot f_jac].
    rewrite closest_hint_unused by (intros Z; rewrite Z in NE; destruct NE as [[] _]). rewrite EJ. exact D.
  - intros c r NB HC KR FAR RP. unfold mls_field. cbn [f_jac]. rewrite NB. rewrite (nth_error_nth _ _ 0%nat HC). set (S := sb_samples (q_base t)) in *. set (k := q_kernel t) in *. set (P := sb_bg (q_base t)).
    unfold query_jacobian_at, bg_new, bg_global. cbn [closest_sample]. set (b := bg_new_impl q S [] (Global_ c) k P None).
    assert (DI : b_disp b = away S q c) by reflexivity. assert (DD : b_dist b = gap S q c) by reflexivity.
    assert (BW : background_weight b = 1) by (unfold background_weight; change (b_kernel b) with k; rewrite KR, DD; destruct (Rlt_dec r (gap S q c)); [reflexivity|lra]).
    assert (SU : b_sum b = 1) by (transitivity (rsum [] + background_weight b); [reflexivity|rewrite BW, rsum_nil; ring]).
    assert (WS : weight_sum_inv b = 1) by (unfold weight_sum_inv; rewrite SU; destruct (Req_EM_T 1 0); [lra|field]).
    assert (DW : background_weight_gradient b None = v3_0) by (unfold background_weight_gradient; change (b_kernel b) with k; rewrite KR, DD; destruct (Rlt_dec r (gap S q c)); [reflexivity|lra]).
    assert (E : v3_add (vsum (map (fun i0 => sample_query_jacobian_at q (smp S i0) k (unit_of (s_nml (smp S i0))) (neighbor_weight_gradient b) (weight_sum_inv b) (b_dist b)) [])) (bg_query_jacobian b) = field_gradient b).
    { unfold bg_query_jacobian. cbv zeta. rewrite BW, WS, DW. change (b_view b) with (@nil nat). cbn [map vsum fold_right]. destruct (b_weighted b); apply v3_eq; unv; ring. }
    cbv zeta. rewrite E. unfold field_gradient. change (b_value b) with (bg_value_new (p_type P) None). unfold bg_value_new. destruct (p_type P); try reflexivity.
    rewrite DD, DI. destruct (Req_EM_T (gap S q c) 0) as [Z|_]; [lra|]. unfold orientation, signum. rewrite DI. change (s_nml (smp (b_all b) (ci_get (b_index b)))) with (s_nml (smp S c)). reflexivity.
Qed.
Example projection_gradient_ex : exists t c, let b := q_base t in nth 0 (trivial_neighborhood t) [] = [] /\ nth_error (closest_samples t) 0 = Some c /\ k_radius (q_kernel t) = Some (1 / 2 * 2) /\
  1 / 2 * 2 < gap (sb_samples b) (V3 0 0 10) c /\ p_type (sb_bg b) = FDistance /\ f_jac (mls_field t) 0 (V3 0 0 10) = V3 0 0 1.
Proof.
  set (b := cloud (BgParams FDistance false) [v3_0]). exists (QLocal (LocalMls (LCubic 2) (1 / 2) 0 b) (Nbh [0%nat] [[]] [[]])), 0%nat. cbv zeta.
  assert (A : away (sb_samples b) (V3 0 0 10) 0 = V3 0 0 10) by (unfold away; cbn; apply v3_eq; cbn; ring).
  assert (G : gap (sb_samples b) (V3 0 0 10) 0 = 10).
  { unfold gap. rewrite A. unfold v3_norm, v3_dot. cbn [vx vy vz]. replace (0 * 0 + 0 * 0 + 10 * 10) with (10 * 10) by ring. apply sqrt_square. lra. }
  split; [reflexivity|]. split; [reflexivity|]. split; [reflexivity|]. split; [cbn [q_base lm_base]; rewrite G; lra|]. split; [reflexivity|].
  rewrite (proj2 (projection_gradient (QLocal (LocalMls (LCubic 2) (1 / 2) 0 b) (Nbh [0%nat] [[]] [[]])) 0 (V3 0 0 10)) 0%nat (1 / 2 * 2) eq_refl eq_refl eq_refl); [|cbn [q_base lm_base]; rewrite G; lra|lra].
  cbn [q_base lm_base]. rewrite A, G. change (p_type (sb_bg b)) with FDistance. cbv iota. destruct (Rlt_dec _ 0) as [H|_]; [exfalso; revert H; unfold v3_dot; cbn; lra|]. apply v3_eq; unfold v3_scale; cbn [vx vy vz]; field.
Qed.

(** C131: it panics exactly if the number of points is not that of the cached neighbourhoods. *)
Theorem projection_panics t s iso eps qs : project t s iso eps qs = None <-> length qs <> length (trivial_neighborhood t).
Proof. unfold project. destruct (Nat.eqb_spec (length (trivial_neighborhood t)) (length qs)); split; intros H; try discriminate; try reflexivity; congruence. Qed.
Example projection_panics_ex : project flat_topo Above 0 1 [v3_0] = None /\ project flat_topo Above 0 1 [v3_0; v3_0] <> None.
Proof. split; [reflexivity|discriminate]. Qed.

(** C132: on a global surface whose samples lie on a plane the projection converges; points short of the level end half the thickness beyond it, on
    the normal through where they were. *)
Theorem projection_exact_on_planes e b cl view s iso eps qs n d : 0 < e -> view <> [] -> coplanar (sb_samples b) view n d -> v3_norm n = 1 ->
  p_weighted (sb_bg b) = false -> 0 <= eps -> length cl = length qs ->
  exists qs', project (QGlobal e b cl view) s iso eps qs = Some (qs', true) /\
    forall i q, nth_error qs i = Some q -> exists q', nth_error qs' i = Some q' /\
      (on_side s iso (d + v3_dot n q) -> q' = q) /\
      (~ on_side s iso (d + v3_dot n q) -> q' = v3_add q (v3_scale (eps / 2 + short s iso (d + v3_dot n q)) (toward s n)) /\
         d + v3_dot n q' = match s with Above => iso + eps / 2 | Below => iso - eps / 2 end).
Proof.
  intros E V C U W P L. set (t := QGlobal e b cl view).
  assert (NT : forall i, (i < length qs)%nat -> nth i (trivial_neighborhood t) [] = view).
  { intros i I. cbn [t trivial_neighborhood]. assert (G : forall (cl : list nat) i, (i < length cl)%nat -> nth i (map (fun _ => view) cl) [] = view).
    { clear. induction cl as [|a cl IH]; intros [|i] I; cbn in *; try lia; [reflexivity|apply IH; lia]. } apply G. lia. }
  assert (HP : forall i q v, (i < length qs)%nat -> f_pot (mls_field t) i q v = d + v3_dot n q).
  { intros i q v I. cbn [mls_field f_pot]. rewrite NT by exact I. apply flat_potential; assumption. }
  assert (HJ : forall i q, (i < length qs)%nat -> f_jac (mls_field t) i q = n).
  { intros i q I. cbn [mls_field f_jac]. rewrite NT by exact I. change (q_kernel t) with (Global e). change (q_base t) with b. rewrite (flat_jacobian q (sb_samples b) view e (sb_bg b) n d); auto. }
  destruct (project_affine (mls_field t) s iso eps qs (fun _ => n) (fun _ => d) HP HJ (fun _ _ => U) P) as (qs' & R & _ & X).
  exists qs'. split.
  - unfold project. replace (length (trivial_neighborhood t)) with (length qs) by (cbn [t trivial_neighborhood]; rewrite map_length; lia). rewrite Nat.eqb_refl. rewrite R. reflexivity.
  - intros i q Q. assert (I : (i < length qs)%nat) by (apply nth_error_Some; congruence). destruct (X i q Q) as (q' & N & X1 & X2). unfold level in X1, X2.
    rewrite HP in X1, X2 by exact I. rewrite HP in X2 by exact I. eauto.
Qed.
Lemma norm_z : v3_norm (V3 0 0 1) = 1.
Proof. unfold v3_norm, v3_dot. cbn [vx vy vz]. replace (0 * 0 + 0 * 0 + 1 * 1) with 1 by ring. apply sqrt_1. Qed.
Lemma flat_projected : exists qs', project flat_topo Above 1 (1 / 2) [V3 3 0 (-2); V3 0 0 4] = Some (qs', true) /\ nth_error qs' 0 = Some (V3 3 0 (5 / 4)) /\ nth_error qs' 1 = Some (V3 0 0 4).
Proof.
  destruct (projection_exact_on_planes 1 flat_base [0; 1]%nat [0; 1]%nat Above 1 (1 / 2) [V3 3 0 (-2); V3 0 0 4] (V3 0 0 1) 0) as (qs' & E & H); try reflexivity; try lra; [discriminate|exact flat_coplanar|exact norm_z|].
  exists qs'. split; [exact E|]. split.
  - destruct (H 0%nat _ eq_refl) as (q' & N & _ & X). rewrite N. f_equal. destruct X as [X _].
    + unfold on_side, v3_dot. cbn [vx vy vz]. lra.
    + rewrite X. unfold v3_add, v3_scale, short, toward, v3_dot. cbn [vx vy vz]. f_equal; lra.
  - destruct (H 1%nat _ eq_refl) as (q' & N & X & _). rewrite N. f_equal. apply X. unfold on_side, v3_dot. cbn [vx vy vz]. lra.
Qed.
Example projection_exact_on_planes_ex : coplanar (sb_samples flat_base) [0; 1]%nat (V3 0 0 1) 0 /\ v3_norm (V3 0 0 1) = 1.
Proof. split; [exact flat_coplanar|exact norm_z]. Qed.
Example projection_lands_ex : p_type (sb_bg (q_base flat_topo)) <> FInput /\
  exists qs', project flat_topo Above 1 (1 / 2) [V3 3 0 (-2); V3 0 0 4] = Some (qs', true) /\ nth_error qs' 0 <> Some (V3 3 0 (-2)).
Proof.
  split; [discriminate|]. destruct flat_projected as (qs' & E & N & _). exists qs'. split; [exact E|]. rewrite N. intros H. injection H. lra.
Qed.
Example projection_keeps_ex : on_side Above 1 (level (mls_field flat_topo) 1 (V3 0 0 4)) /\ ~ on_side Above 1 (level (mls_field flat_topo) 0 (V3 3 0 (-2))).
Proof.
  unfold level. cbn [mls_field f_pot flat_topo trivial_neighborhood map nth q_kernel q_base].
  rewrite !(flat_potential _ _ [0; 1]%nat 1 _ (V3 0 0 1) 0) by first [lra | discriminate | exact flat_coplanar]. unfold on_side, v3_dot. cbn [vx vy vz]. lra.
Qed.
Example projection_path_ex : exists qs', project flat_topo Above 1 (1 / 2) [V3 3 0 (-2); V3 0 0 4] = Some (qs', true) /\
  path (mls_field flat_topo) Above 1 (1 / 2) 0 1 (V3 3 0 (-2)) (V3 3 0 (5 / 4)).
Proof.
  destruct flat_projected as (qs' & E & N & _). exists qs'. split; [exact E|].
  assert (LV : level (mls_field flat_topo) 0 (V3 3 0 (-2)) = -2).
  { unfold level. cbn [mls_field f_pot flat_topo trivial_neighborhood map nth q_kernel q_base].
    rewrite (flat_potential _ _ [0; 1]%nat 1 _ (V3 0 0 1) 0) by first [lra | discriminate | exact flat_coplanar]. unfold v3_dot. cbn [vx vy vz]. lra. }
  assert (JC : f_jac (mls_field flat_topo) 0 (V3 3 0 (-2)) = V3 0 0 1).
  { cbn [mls_field f_jac flat_topo trivial_neighborhood map nth q_kernel q_base]. rewrite (flat_jacobian _ _ [0; 1]%nat 1 _ (V3 0 0 1) 0) by first [lra | discriminate | exact flat_coplanar | reflexivity]. reflexivity. }
  econstructor; [|constructor]. split; [rewrite LV; unfold on_side; lra|]. rewrite JC, LV. split; [intros H; injection H; lra|].
  exists 0%nat. split; [lia|]. rewrite norm_z. unfold v3_add, v3_scale, short, toward. cbn [vx vy vz pow]. f_equal; field.
Qed.

(** C133, finding: a projection that succeeds in the last of its twenty rounds reports failure.  Here the potential is linear with slope one half,
    and the point ends on the level. *)
Definition half : field := Field (fun _ q _ => vx q / 2) (fun _ _ => V3 (1 / 2) 0 0).
Lemma half_norm : v3_norm (V3 (1 / 2) 0 0) = 1 / 2.
Proof. unfold v3_norm, v3_dot. cbn [vx vy vz]. replace (1 / 2 * (1 / 2) + 0 * 0 + 0 * 0) with (1 / 2 * (1 / 2)) by ring. apply sqrt_square. lra. Qed.
Lemma half_walk n : forall c w, vx (w_q w) = 1 - 2 ^ n -> (0 < n)%nat -> exists w', walk half 1 0 1 n c [w] = ([w'], false) /\ vx (w_q w') = 0.
Proof.
  induction n as [|n IH]; intros c w X L; [lia|].
  assert (P : 1 <= 2 ^ n) by (apply pow_R1_Rle; lra). cbn [pow] in X.
  assert (V : violating 0 (evaluate half 1 0 w) = true).
  { apply violating_true. unfold evaluate. cbn [half f_pot f_jac w_pot w_nml]. rewrite half_norm. split; [|lra]. rewrite X. lra. }
  assert (Q : vx (w_q (accept (try_step half 1 0 0 (aim 1 0 1 (evaluate half 1 0 w))))) = 1 - 2 ^ n).
  { unfold accept. cbn [w_q]. unfold try_step. cbn [w_cand]. rewrite (violating_ext 0 (evaluate half 1 0 w)); [|unfold aim; rewrite V; reflexivity|unfold aim; rewrite V; reflexivity].
    rewrite V. unfold aim. rewrite V. unfold evaluate. cbn [half f_pot f_jac w_q w_pot w_nml w_step v3_add v3_scale vx]. rewrite half_norm, X. field. }
  rewrite walk_one.
  - destruct n as [|n].
    + rewrite andb_false_r. cbn [walk]. eexists. split; [reflexivity|]. rewrite Q. cbn [pow]. lra.
    + apply IH; [exact Q|lia].
  - exact V.
  - unfold accept in Q. cbn [w_q] in Q. unfold try_step at 1. cbn [w_cpot half f_pot]. change (vx (w_cand (try_step half 1 0 0 (aim 1 0 1 (evaluate half 1 0 w)))) / 2 * 1 <= 0 + 1). rewrite Q. lra.
Qed.
Theorem projection_reports_success_refuted : exists F s iso eps qs qs', steady F 0 /\ 0 < eps /\
  (forall q u, is_derive (fun x => level F 0 (v3_line q u x)) 0 (v3_dot (f_jac F 0 q) u)) /\
  project_field F s iso eps qs = (qs', false) /\ length qs = 1%nat /\
  forall i q', nth_error qs' i = Some q' -> on_side s iso (level F i q') /\ near_level s iso eps (level F i q').
Proof.
  destruct (half_walk 20 true (walker_new (V3 (1 - 2 ^ 20) 0 0)) eq_refl ltac:(lia)) as (w' & E & X).
  exists half, Above, 0, 1, [V3 (1 - 2 ^ 20) 0 0], [w_q w']. split; [left; reflexivity|]. split; [lra|]. split; [|split; [|split; [reflexivity|]]].
  - intros q u. unfold level, v3_line. cbn [half f_pot f_jac v3_add v3_scale vx v3_dot vy vz]. auto_derive; [exact Logic.I|]. unfold v3_dot. cbn [vx vy vz]. lra.
  - unfold project_field. cbn [multiplier map]. rewrite Rmult_0_l, E. reflexivity.
  - intros [|i] q' N; [|destruct i; discriminate]. injection N as <-. unfold level, on_side, near_level. cbn [half f_pot]. rewrite X. lra.
Qed.
Example projection_reports_success_refuted_ex : level half 0 (V3 (1 - 2 ^ 20) 0 0) < 0.
Proof. unfold level. cbn [half f_pot vx]. assert (1 < 2 ^ 20) by (apply Rlt_pow_R1; [lra|lia]). lra. Qed.

(** C133, finding: with an input background the value of the last round is read as the background of the next, so a point that is above the level to
    begin with is moved when another one keeps the loop running.  The potential here is the average of the background and a plane, as it is half way
    to the support radius of a single sample. *)
Definition drift : field := Field (fun _ q v => (v + vx q) / 2) (fun _ _ => V3 (1 / 2) 0 0).
(** Everything moves to the right. *)
Lemma drift_iteration ws found ok i w : search drift 1 (-6) 1 10 (map (aim 1 (-6) 1) (mapi (evaluate drift 1) ws)) = (found, ok) ->
  nth_error ws i = Some w -> w_cand w = w_q w -> exists w', nth_error (map accept found) i = Some w' /\ w_cand w' = w_q w' /\ w_pot w' = (w_pot w + vx (w_q w)) / 2 /\
    (if violating (-6) (evaluate drift 1 i w) then vx (w_q w) < vx (w_q w') else w_q w' = w_q w).
Proof.
  intros E N C. set (e := evaluate drift 1 i w). set (a := aim 1 (-6) 1 e).
  assert (AN : nth_error (map (aim 1 (-6) 1) (mapi (evaluate drift 1) ws)) i = Some a) by (rewrite nth_error_map, mapi_nth, N; reflexivity).
  destruct (search_spec drift 1 (-6) 1 10 _ _ _ ltac:(lia) E _ _ AN) as (f & FN & F1 & F2 & F3 & _ & F5 & F6).
  assert (A : w_q a = w_q w /\ w_cand a = w_q w /\ w_pot a = w_pot e /\ w_nml a = w_nml e).
  { unfold a, aim. destruct (violating (-6) e); cbn [w_q w_cand w_pot w_nml]; (split; [reflexivity|]; split; [exact C|]); split; reflexivity. }
  destruct A as (A1 & A2 & A3 & A4). assert (AV : violating (-6) a = violating (-6) e) by (apply violating_ext; assumption).
  assert (EP : w_pot e = (w_pot w + vx (w_q w)) / 2) by (unfold e, evaluate; cbn [w_pot drift f_pot]; ring).
  exists (accept f). split; [rewrite nth_error_map, FN; reflexivity|]. split; [reflexivity|]. unfold accept. cbn [w_pot w_q]. split; [rewrite F2, A3; exact EP|].
  destruct (violating (-6) e) eqn:V.
  - destruct (F6 AV) as (k & _ & K & _). rewrite K, A1. unfold a, aim. rewrite V. cbn [w_step v3_add vx v3_scale].
    change (w_step e) with (V3 (1 / 2) 0 0). change (w_nml e) with (v3_norm (V3 (1 / 2) 0 0)). rewrite half_norm. cbn [vx].
    assert (0 < / 2 ^ k) by (apply Rinv_0_lt_compat, pow_lt; lra). apply violating_true in V. destruct V as [V _].
    assert (0 < (1 * (1 / 2) + (-6 - w_pot e)) / (1 / 2)) by (apply Rdiv_lt_0_compat; lra).
    assert (0 < / 2 ^ k * (1 * ((1 * (1 / 2) + (-6 - w_pot e)) / (1 / 2)) * (1 / 2))) by (apply Rmult_lt_0_compat; [assumption|lra]). lra.
  - rewrite F5 by exact AV. exact A2.
Qed.
Lemma drift_right n : forall c ws ws' c', walk drift 1 (-6) 1 n c ws = (ws', c') -> forall i w, nth_error ws i = Some w -> w_cand w = w_q w ->
  exists w', nth_error ws' i = Some w' /\ vx (w_q w) <= vx (w_q w') /\ ((0 < n)%nat -> violating (-6) (evaluate drift 1 i w) = true -> vx (w_q w) < vx (w_q w')).
Proof.
  induction n as [|n IH]; intros c ws ws' c' E i w N C; cbn [walk] in E.
  - injection E as <- <-. exists w. split; [exact N|]. split; [lra|lia].
  - destruct (existsb (violating (-6)) (mapi (evaluate drift 1) ws)) eqn:X.
    + destruct (search drift 1 (-6) 1 10 _) as [found ok] eqn:SE. destruct (drift_iteration _ _ _ _ _ SE N C) as (w1 & N1 & C1 & _ & D).
      destruct (IH _ _ _ _ E _ _ N1 C1) as (w' & N' & L & _). exists w'. split; [exact N'|].
      destruct (violating (-6) (evaluate drift 1 i w)); [split; [lra|intros; lra]|]. rewrite D in L. split; [exact L|discriminate].
    + injection E as <- <-. exists (evaluate drift 1 i w). split; [rewrite mapi_nth, N; reflexivity|]. split; [cbn [evaluate w_q]; lra|].
      intros _ V. assert (N1 : nth_error (mapi (evaluate drift 1) ws) i = Some (evaluate drift 1 i w)) by (rewrite mapi_nth, N; reflexivity).
      rewrite (existsb_none _ _ _ _ X N1) in V. discriminate.
Qed.
Theorem projection_keeps_input_refuted : exists F s iso eps q r qs' c q', on_side s iso (level F 0 q) /\ project_field F s iso eps [q; r] = (qs', c) /\ nth_error qs' 0 = Some q' /\ q' <> q.
Proof.
  set (q := V3 (-10) 0 0). set (r := V3 (-100) 0 0).
  destruct (walk drift 1 (-6) 1 20 true (map walker_new [q; r])) as [ws c] eqn:E.
  assert (PE : project_field drift Above (-6) 1 [q; r] = (map w_q ws, c)) by (unfold project_field; cbn [multiplier]; rewrite Rmult_1_r, E; reflexivity).
  change 20%nat with (S 19) in E. cbn [walk] in E.
  assert (X : existsb (violating (-6)) (mapi (evaluate drift 1) (map walker_new [q; r])) = true).
  { apply existsb_exists. exists (evaluate drift 1 1 (walker_new r)). split; [right; left; reflexivity|]. apply violating_true. unfold evaluate. cbn [w_pot w_nml drift f_pot f_jac walker_new w_q r vx]. rewrite half_norm. lra. }
  rewrite X in E. destruct (search drift 1 (-6) 1 10 _) as [found ok] eqn:SE.
  destruct (drift_iteration _ _ _ 0 (walker_new q) SE eq_refl eq_refl) as (w1 & N1 & C1 & P1 & D).
  assert (V0 : violating (-6) (evaluate drift 1 0 (walker_new q)) = false) by (apply violating_false; unfold evaluate; cbn [w_pot drift f_pot walker_new w_q q vx]; lra).
  rewrite V0 in D. destruct (drift_right 19 _ _ _ _ E 0 w1 N1 C1) as (w' & N' & _ & S).
  exists drift, Above, (-6), 1, q, r, (map w_q ws), c, (w_q w'). split; [unfold level, on_side; cbn [drift f_pot q vx]; lra|]. split; [exact PE|]. split; [rewrite nth_error_map, N'; reflexivity|].
  assert (vx (w_q w1) < vx (w_q w')).
  { apply S; [lia|]. apply violating_true. unfold evaluate. cbn [w_pot w_nml drift f_pot f_jac]. rewrite half_norm, P1, D. cbn [walker_new w_pot w_q q vx]. lra. }
  rewrite D in H. cbn [walker_new w_q q vx] in H. intros Q. rewrite Q in H. cbn [q vx] in H. lra.
Qed.
Example projection_keeps_input_refuted_ex : level drift 0 (V3 (-10) 0 0) = -5.
Proof. unfold level. cbn [drift f_pot vx]. lra. Qed.

(** C133, finding: a point without neighbours keeps the value zero of the buffer, so with a signed distance background a point that is far outside is
    pushed further out in every one of the rounds, and failure is reported. *)
Definition far_mls : local_mls := cloud_mls (BgParams FDistance false) 1 0 [v3_0].
Lemma far_jacobian z : 1 < z -> query_jacobian_at (V3 0 0 z) (sb_samples (lm_base far_mls)) [] (Some 0%nat) (Cubic 1) (BgParams FDistance false) = Some (V3 0 0 1).
Proof.
  intros Z. assert (NZ : v3_norm (V3 0 0 z) = z).
  { unfold v3_norm, v3_dot. cbn [vx vy vz]. replace (0 * 0 + 0 * 0 + z * z) with (z * z) by ring. apply sqrt_square. lra. }
  assert (DZ : v3_sub (V3 0 0 z) v3_0 = V3 0 0 z) by (unfold v3_sub, v3_0; cbn [vx vy vz]; f_equal; ring).
  unfold query_jacobian_at, bg_new, bg_global. cbn [closest_sample map vsum fold_right]. f_equal.
  assert (PS : s_pos (smp (sb_samples (lm_base far_mls)) (ci_get (Global_ 0))) = v3_0) by reflexivity.
  set (b := bg_new_impl _ _ _ _ _ _ _).
  assert (BD : b_dist b = z) by (unfold b, bg_new_impl; cbn [b_dist]; rewrite PS, DZ; exact NZ).
  assert (BV : b_disp b = V3 0 0 z) by (unfold b, bg_new_impl; cbn [b_disp]; rewrite PS; exact DZ).
  assert (BW : background_weight b = 1) by (unfold background_weight; rewrite BD; cbn [b bg_new_impl b_kernel k_radius]; destruct (Rlt_dec 1 z); [reflexivity|lra]).
  assert (WI : weight_sum_inv b = 1).
  { unfold weight_sum_inv. assert (SM : b_sum b = 1).
    { transitivity (rsum [] + background_weight b); [|rewrite BW, rsum_nil; ring]. reflexivity. }
    rewrite SM. destruct (Req_EM_T 1 0); [lra|field]. }
  unfold bg_query_jacobian. rewrite BW, WI. change (b_weighted b) with false. cbv iota.
  unfold field_gradient. change (b_value b) with BClosest. cbv iota. rewrite BD. destruct (Req_EM_T z 0); [lra|]. rewrite BV.
  assert (OR : orientation b = 1).
  { unfold orientation. rewrite BV. unfold signum. destruct (Rlt_dec _ 0) as [H|_]; [|reflexivity]. exfalso. revert H.
    change (s_nml (smp (b_all b) (ci_get (b_index b)))) with (V3 0 0 1). unfold v3_dot. cbn [vx vy vz]. lra. }
  rewrite OR. unfold v3_add, v3_scale, v3_0. cbn [vx vy vz]. f_equal; field; lra.
Qed.
Lemma far_walk t n : trivial_neighborhood t = [[]] -> closest_samples t = [0%nat] -> q_base t = lm_base far_mls -> q_kernel t = Cubic 1 ->
  forall c w, (exists z, w_q w = V3 0 0 z /\ 1 < z) -> w_pot w = 0 -> w_cpot w = 0 -> (0 < n)%nat ->
  exists w', walk (mls_field t) 1 1 1 n c [w] = ([w'], false) /\ vz (w_q w') = vz (w_q w) + 3 / 2 * INR n.
Proof.
  intros T CL BA KE. induction n as [|n IH]; intros c w (z & Q & Z) P CP L; [lia|].
  set (F := mls_field t) in *.
  assert (FP : forall q v, f_pot F 0 q v = v) by (intros q v; unfold F, mls_field; cbn [f_pot]; rewrite T; reflexivity).
  assert (FJ : forall z, 1 < z -> f_jac F 0 (V3 0 0 z) = V3 0 0 1).
  { intros x X. unfold F, mls_field. cbn [f_jac]. rewrite T, CL, BA, KE. cbn [nth]. change (sb_bg (lm_base far_mls)) with (BgParams FDistance false). rewrite far_jacobian by exact X. reflexivity. }
  assert (V : violating 1 (evaluate F 1 0 w) = true).
  { apply violating_true. unfold evaluate. cbn [w_pot w_nml]. rewrite FP, P, Q, FJ, norm_z by exact Z. lra. }
  set (w3 := try_step F 1 1 0 (aim 1 1 1 (evaluate F 1 0 w))).
  assert (C3 : w_cand w3 = V3 0 0 (z + 3 / 2) /\ w_cpot w3 = 0 /\ w_pot w3 = 0).
  { unfold w3, try_step. rewrite (violating_ext 1 (evaluate F 1 0 w)); [|unfold aim; rewrite V; reflexivity|unfold aim; rewrite V; reflexivity]. rewrite V.
    unfold aim. rewrite V. unfold evaluate. cbn [w_q w_cand w_pot w_cpot w_step w_nml]. rewrite !FP, P, CP, Q, FJ, norm_z by exact Z.
    split; [unfold v3_add, v3_scale; cbn [vx vy vz]; f_equal; field|]. split; ring. }
  destruct C3 as (C3 & C4 & C5).
  rewrite walk_one; [|exact V|fold w3; rewrite C4; lra]. fold w3.
  assert (AQ : w_q (accept w3) = V3 0 0 (z + 3 / 2)) by exact C3.
  destruct n as [|n].
  - rewrite andb_false_r. cbn [walk]. eexists. split; [reflexivity|]. rewrite AQ, Q. cbn [vz INR]. lra.
  - destruct (IH (c && negb (Nat.eqb (S n) 0)) (accept w3)) as (w' & E & X); [exists (z + 3 / 2); split; [exact AQ|lra]|exact C5|exact C4|lia|].
    exists w'. split; [exact E|]. rewrite X, AQ, Q. cbn [vz]. rewrite (S_INR (S n)). lra.
Qed.
Theorem projection_of_far_points_refuted : exists s q t iso eps qs', well_formed (lm_base s) /\ current (lm_base s) /\ sb_bg (lm_base s) = BgParams FDistance false /\ reset scan (fun _ => 0%Z) [q] (QLocal s nbh_new) = Some (t, true) /\ on_side Above iso (background_value (sb_bg (lm_base s)) 0 (sb_samples (lm_base s)) q 0) /\ unique_nearest (sb_samples (lm_base s)) q /\ project t Above iso eps [q] = Some (qs', false) /\ qs' <> [q].
Proof.
  set (q := V3 0 0 10). destruct (cloud_ok (BgParams FDistance false) [v3_0]) as (WF & CU & SA).
  assert (RR : lm_radius far_mls = 1) by (unfold lm_radius, far_mls, cloud_mls; simpl; ring).
  destruct (reset_exact scan (fun _ => 0%Z) [q] far_mls nbh_new scan_faithful WF CU) as (n' & ch & E & LC & LT & _ & X); [rewrite RR; simpl; lra|discriminate|].
  destruct (reset_sets _ _ _ _ _ _ _ E) as (cl & ex & _ & _ & _ & EC).
  specialize (X 0%nat ltac:(simpl; lia)). destruct X as ((CC & _) & (_ & T) & _). rewrite RR in T. cbn [nth lm_max_step far_mls cloud_mls] in T.
  assert (NQ : v3_norm q = 10) by (replace 10 with (sqrt (10 * 10)) by (apply sqrt_square; lra); unfold v3_norm; f_equal; unfold v3_dot, q; cbn [vx vy vz]; ring).
  assert (TN : n_trivial n' = [[]]).
  { destruct (n_trivial n') as [|l [|? ?]]; simpl in LT; try lia. f_equal. destruct l as [|i l]; [reflexivity|]. exfalso. destruct (proj1 (T i) (or_introl eq_refl)) as [L G].
    simpl in L. assert (i = 0%nat) as -> by lia. apply (cloud_gap (BgParams FDistance false) [v3_0]) in G; [|simpl; lia|lra]. unfold norm2, v3_dot in G. simpl in G. lra. }
  assert (CN : n_closest n' = [0%nat]).
  { destruct (n_closest n') as [|l [|? ?]]; simpl in LC; try lia. f_equal. simpl in CC. lia. }
  assert (CH : ch = true) by (rewrite EC; reflexivity). subst ch.
  assert (KE : q_kernel (QLocal far_mls n') = Cubic 1) by (unfold q_kernel, as_spherical, far_mls, cloud_mls; cbn [lm_kernel lm_base_radius]; f_equal; ring).
  assert (QZ : exists z, w_q (walker_new q) = V3 0 0 z /\ 1 < z) by (exists 10; split; [reflexivity|lra]).
  destruct (far_walk (QLocal far_mls n') 20 TN CN eq_refl KE true (walker_new q) QZ eq_refl eq_refl ltac:(lia)) as (w' & W & Z).
  assert (AW : away (sb_samples (lm_base far_mls)) q 0 = q) by (change (v3_sub q v3_0 = q); unfold v3_sub, v3_0, q; cbn [vx vy vz]; f_equal; ring).
  exists far_mls, q, (QLocal far_mls n'), 1, 1, [w_q w']. split; [exact WF|]. split; [exact CU|]. split; [reflexivity|]. split; [exact E|]. split; [|split; [|split]].
  - unfold background_value. cbn [sb_bg far_mls cloud_mls lm_base cloud p_type]. change (sb_samples (cloud (BgParams FDistance false) [v3_0])) with (sb_samples (lm_base far_mls)). rewrite AW.
    destruct (Rlt_dec _ 0) as [H|_]; [exfalso; revert H; unfold v3_dot, q; cbn; lra|]. rewrite NQ. unfold on_side. lra.
  - exists 0%nat. split; [simpl; lia|]. intros j J. simpl in J. lia.
  - unfold project. cbn [trivial_neighborhood]. rewrite TN. cbn [length Nat.eqb]. unfold project_field. cbn [multiplier map]. rewrite Rmult_1_r, W. reflexivity.
  - intros H. injection H as H. rewrite H in Z. cbn [walker_new w_q q vz] in Z. rewrite INR_IZR_INZ in Z. simpl in Z. lra.
Qed.
Example projection_of_far_points_refuted_ex : (0 < length (sb_samples (lm_base far_mls)))%nat.
Proof. simpl. lia. Qed.

Print Assumptions projection_lands.
Print Assumptions projection_keeps.
Print Assumptions projection_path.
Print Assumptions projection_gradient.
Print Assumptions projection_panics.
Print Assumptions projection_exact_on_planes.
Print Assumptions projection_reports_success_refuted.
Print Assumptions projection_keeps_input_refuted.
Print Assumptions projection_of_far_points_refuted.
