(** The contact Jacobian: theorems, each with an example. *)
From Coq Require Import Reals List ZArith Lra Lia Psatz Bool.
From Verif Require Import Vec3 Mat3 RList KernelModel KernelSpec KernelProofs ElasticSpec FieldModel FieldSpec FieldProofs FieldDerivProofs FieldAvgProofs NeighborModel NeighborSpec NeighborProofs NeighborProps
  UpdateProps SurfJacModel SurfJacSpec SurfJacProofs SurfJacProps ContactMapModel ContactMapSpec ContactMapProofs.
Import ListNotations.
Local Open Scope R_scope.

(** C139: the rotation between two unit vectors that are not opposite is the least turn from one to the other. *)
Theorem rodrigues_is_least_turn : forall n g, v3_dot n n = 1 -> v3_dot g g = 1 -> v3_dot n g <> -1 ->
  least_turn n g (rodrigues_rotation (cross_matrix (v3_cross n g)) (v3_dot n g)).
Proof. exact rodrigues_least. Qed.
Example rodrigues_is_least_turn_ex : least_turn (V3 1 0 0) (V3 0 1 0) (rodrigues_rotation (cross_matrix (V3 0 0 1)) 0) /\
  rodrigues_rotation (cross_matrix (V3 0 0 1)) 0 = M3 (V3 0 (-1) 0) (V3 1 0 0) (V3 0 0 1).
Proof.
  split.
  - assert (C : v3_cross (V3 1 0 0) (V3 0 1 0) = V3 0 0 1) by (apply v3_eq; cbv [v3_cross vx vy vz]; ring).
    assert (Z : v3_dot (V3 1 0 0) (V3 0 1 0) = 0) by (cbv [v3_dot vx vy vz]; ring). assert (H := rodrigues_is_least_turn (V3 1 0 0) (V3 0 1 0)). rewrite C, Z in H. apply H; [cbv [v3_dot vx vy vz]; ring..|lra].
  - unfold rodrigues_rotation. destruct (Req_EM_T 0 (-1)); [lra|]. mat; field.
Qed.
(** C139: what the matrix does to a unit vector when the second vector has another length. *)
Theorem rodrigues_of_any_gradient : forall n g, v3_dot n n = 1 -> v3_dot n g <> -1 ->
  m3_mulv (rodrigues_rotation (cross_matrix (v3_cross n g)) (v3_dot n g)) n = v3_add g (v3_scale ((1 - v3_dot g g) / (1 + v3_dot n g)) n).
Proof. exact rodrigues_normal. Qed.
Example rodrigues_of_any_gradient_ex : m3_mulv (rodrigues_rotation (cross_matrix (v3_cross (V3 1 0 0) (V3 0 2 0))) (v3_dot (V3 1 0 0) (V3 0 2 0))) (V3 1 0 0) = V3 (-3) 2 0.
Proof. rewrite rodrigues_of_any_gradient by (cbv [v3_dot vx vy vz]; lra). apply v3_eq; cbv [v3_dot v3_add v3_scale vx vy vz]; field. Qed.

(** C139: for a gradient that is not a unit vector the matrix is no rotation and does not take the normal to the gradient; for opposite vectors it is the identity. *)
Theorem rodrigues_rotation_refuted :
  (exists n g, v3_dot n n = 1 /\ v3_dot n g <> -1 /\ ~ rotation (rodrigues_rotation (cross_matrix (v3_cross n g)) (v3_dot n g)) /\
     m3_mulv (rodrigues_rotation (cross_matrix (v3_cross n g)) (v3_dot n g)) n <> g) /\
  (exists n g, v3_dot n n = 1 /\ v3_dot g g = 1 /\ m3_mulv (rodrigues_rotation (cross_matrix (v3_cross n g)) (v3_dot n g)) n <> g).
Proof.
  split.
  - exists (V3 1 0 0), (V3 0 2 0). assert (E := rodrigues_of_any_gradient_ex). split; [cbv [v3_dot vx vy vz]; ring|]. split; [cbv [v3_dot vx vy vz]; lra|]. split.
    + intros H. apply (rotation_norm _ (V3 1 0 0)) in H. rewrite E in H. apply (f_equal (fun x => x * x)) in H. rewrite !v3_norm_sq in H. cbv [v3_dot vx vy vz] in H. lra.
    + rewrite E. intros X. apply (f_equal vx) in X. cbn in X. lra.
  - exists (V3 1 0 0), (V3 (-1) 0 0). split; [cbv [v3_dot vx vy vz]; ring|]. split; [cbv [v3_dot vx vy vz]; ring|]. replace (v3_dot (V3 1 0 0) (V3 (-1) 0 0)) with (-1) by (cbv [v3_dot vx vy vz]; ring).
    unfold rodrigues_rotation. destruct (Req_EM_T (-1) (-1)); [|lra]. rewrite mulv_I. intros X. apply (f_equal vx) in X. cbn in X. lra.
Qed.

(** C140: the contact matrices of a query point are weights times matrices; the weights are in proportion to kernel and agreement of normals,
    and add up to one unless all are zero; for a unit gradient the matrices are the least turns from the normals to the gradient. *)
Theorem contact_matrices_average : forall q S view k P, valid_kernel k -> view <> [] -> (forall i, In i view -> away S q i <> v3_0 /\ s_nml (smp S i) <> v3_0) ->
  exists ms bj c g lam Q, contact_jacobian_at q S view k P = Some (ms, bj) /\ In c view /\ (forall j, In j view -> gap S q c <= gap S q j) /\
    query_jacobian_at q S view None k P = Some g /\ ms = map (fun i => m3_scale (lam i) (Q i)) view /\
    (let weight i := kernel_at k S q c i * agreement (direction (smp S i)) g in
     (forall i, In i view -> 0 <= lam i /\ lam i * rsum (map weight view) = weight i) /\
     (rsum (map lam view) = 1 \/ rsum (map weight view) = 0 /\ forall i, In i view -> lam i = 0)) /\
    (v3_dot g g = 1 -> forall i, In i view -> (v3_dot (direction (smp S i)) g <> -1 -> least_turn (direction (smp S i)) g (Q i)) /\ (v3_dot (direction (smp S i)) g = -1 -> lam i = 0)).
Proof.
  intros q S view k P VK NE A. destruct (contact_jacobian_at q S view k P) as [[ms bj]|] eqn:E; [|apply contact_total in E; contradiction].
  destruct (contact_form _ _ _ _ _ _ _ E) as (c & g & b & EC & EG & EB & DB & BJ & MS). cbv zeta in MS. destruct (closest_in _ _ _ _ EC) as [IC MIN].
  set (W := rsum (map (fun i => kernel_at k S q c i * agreement (direction (smp S i)) g) view)) in *.
  set (inv := if Rlt_dec 0 W then 1 / W else 0) in *.
  exists ms, bj, c, g, (fun i => kernel_at k S q c i * agreement (direction (smp S i)) g * inv), (fun i => rodrigues_rotation (cross_matrix (v3_cross (direction (smp S i)) g)) (v3_dot (direction (smp S i)) g)).
  assert (KN : forall i, In i view -> 0 <= kernel_at k S q c i * agreement (direction (smp S i)) g).
  { intros i I. apply Rmult_le_pos; [|apply agreement_nonneg]. apply (kernel_weight_nonneg k S q view c i VK (fun i I => proj1 (A i I)) IC I). }
  split; [reflexivity|]. split; [exact IC|]. split; [intros j J; apply dist2_norm, MIN, J|]. split; [exact EG|]. split; [exact MS|]. split.
  - cbv zeta. change (rsum (map (fun i => kernel_at k S q c i * agreement (direction (smp S i)) g) view)) with W.
    unfold inv. destruct (Rlt_dec 0 W) as [PW|NW].
    + split; [intros i I; split; [apply Rmult_le_pos; [apply KN, I|apply Rlt_le, Rdiv_lt_0_compat; lra]|field; lra]|]. left.
      rewrite (rsum_ext _ (fun i => 1 / W * (kernel_at k S q c i * agreement (direction (smp S i)) g))) by (intros; ring). rewrite rsum_scale. fold W. field. lra.
    + assert (Z : forall i, In i view -> kernel_at k S q c i * agreement (direction (smp S i)) g = 0) by (apply rsum_zero_each; [exact KN|fold W; lra]).
      split; [intros i I; rewrite (Z i I); lra|]. right. split; [apply Rle_antisym; [lra|apply rsum_nonneg; intros x X; apply in_map_iff in X; destruct X as (y & <- & Y); apply KN, Y]|intros; ring].
  - intros UG i I. split.
    + intros N. apply rodrigues_least; [apply direction_unit, A, I|exact UG|exact N].
    + intros N. unfold agreement. rewrite N. lra.
Qed.
Definition wedge : list sample := [Sample (V3 (-(3/10)) 0 0) (V3 (-3) 0 4) (V3 0 0 1) 0; Sample (V3 (3/10) 0 0) (V3 3 0 4) (V3 0 0 1) 0].
Definition over : v3 := V3 0 0 (4/10).
Definition plain : bg_params := BgParams FZero false.
Lemma v3_norm_is a r : 0 <= r -> v3_dot a a = r * r -> v3_norm a = r.
Proof. intros H E. unfold v3_norm. rewrite E. apply sqrt_square, H. Qed.
Lemma wedge_direction : direction (smp wedge 0) = V3 (-(3/5)) 0 (4/5) /\ direction (smp wedge 1) = V3 (3/5) 0 (4/5).
Proof.
  unfold direction, smp, wedge. cbn [nth s_nml]. rewrite !(v3_norm_is _ 5) by (try lra; cbv [v3_dot vx vy vz]; ring). split; apply v3_eq; cbv [v3_scale vx vy vz]; field.
Qed.
Lemma wedge_gap : gap wedge over 0 = 1/2 /\ gap wedge over 1 = 1/2.
Proof. split; apply v3_norm_is; try lra; cbv [away smp wedge over nth s_pos v3_sub v3_dot vx vy vz]; field. Qed.
Lemma wedge_away i : In i [0; 1]%nat -> away wedge over i <> v3_0.
Proof. intros I H. destruct wedge_gap as [A B]. unfold gap in *. destruct I as [<-|[<-|[]]]; [rewrite H in A; clear B; rename A into C|rewrite H in B; rename B into C]; unfold v3_norm, v3_dot, v3_0 in C; cbn in C; rewrite !Rmult_0_l, !Rplus_0_l, sqrt_0 in C; lra. Qed.
Lemma wedge_weight c i : In i [0; 1]%nat -> kernel_at (Cubic 1) wedge over c i = 1/2.
Proof.
  intros I. unfold kernel_at. replace (gap wedge over i) with (1/2) by (destruct wedge_gap; destruct I as [<-|[<-|[]]]; symmetry; assumption).
  unfold k_f, cubic_f, cubic_f_gen. cbn. destruct (Rlt_dec 1 (1/2)); [lra|field].
Qed.
Lemma wedge_gradient : exists c b, closest_sample over wedge [0; 1]%nat = Some c /\ bg_local over wedge [0; 1]%nat (Cubic 1) plain None = Some b /\ bg_query_jacobian b = v3_0 /\ background_weight b = 0 /\
  weight_sum_inv b = 1 /\ query_jacobian_at over wedge [0; 1]%nat None (Cubic 1) plain = Some (V3 0 0 (4/5)).
Proof.
  destruct wedge_direction as [D0 D1]. destruct (gradient_mean over wedge [0; 1]%nat (Cubic 1) plain (7/50)) as (c & b & EC & EB & BJ & BW & WS & _ & G).
  - cbn. lra.
  - discriminate.
  - exact wedge_away.
  - reflexivity.
  - exists 0%nat. split; [left; reflexivity|]. cbn [support]. rewrite (proj1 wedge_gap). lra.
  - intros i [<-|[<-|[]]]; [rewrite D0|rewrite D1]; cbv [away smp wedge over nth s_pos s_value v3_sub v3_dot vx vy vz]; field.
  - exists c, b. do 4 (split; [assumption|]). assert (T : rsum (map (kernel_at (Cubic 1) wedge over c) [0; 1]%nat) = 1).
    { cbn [map]. rewrite !rsum_cons, rsum_nil, !wedge_weight by (cbn; auto). field. }
    split; [rewrite WS, T; field|]. rewrite G. f_equal. unfold mean_of. rewrite T. cbn [map]. rewrite !wedge_weight, D0, D1 by (cbn; auto). apply v3_eq; cbv [vsum fold_right v3_0 v3_add v3_scale vx vy vz]; field.
Qed.
Example contact_matrices_average_ex : exists ms bj, contact_jacobian_at over wedge [0; 1]%nat (Cubic 1) plain = Some (ms, bj) /\ length ms = 2%nat.
Proof.
  destruct (contact_matrices_average over wedge [0; 1]%nat (Cubic 1) plain) as (ms & bj & c & g & lam & Q & E & _ & _ & _ & M & _).
  - cbn. lra.
  - discriminate.
  - intros i I. split; [exact (wedge_away i I)|]. destruct I as [<-|[<-|[]]]; unfold smp, wedge; cbn [nth s_nml]; intros H; apply (f_equal vz) in H; cbn in H; lra.
  - exists ms, bj. split; [exact E|rewrite M; reflexivity].
Qed.

(** C140: with a unit gradient the vector carried to the query point is never longer than the longest vector on the surface. *)
Theorem contact_map_bounded : forall q S view k P ms bj g v M, valid_kernel k -> (forall i, In i view -> away S q i <> v3_0 /\ s_nml (smp S i) <> v3_0) ->
  contact_jacobian_at q S view k P = Some (ms, bj) -> query_jacobian_at q S view None k P = Some g -> v3_dot g g = 1 ->
  (forall i, In i view -> v3_norm (v i) <= M) -> v3_norm (carried ms (map v view)) <= M.
Proof.
  intros q S view k P ms bj g v M VK A E EG UG B. assert (NE : view <> []) by (intros X; apply (contact_total q S view k P) in X; congruence).
  destruct (contact_matrices_average q S view k P VK NE A) as (ms' & bj' & c & g' & lam & Q & E' & IC & _ & EG' & MS & (LAM & SUM) & TURN). rewrite E in E'. injection E' as <- <-. rewrite EG in EG'. injection EG' as <-.
  rewrite MS, carried_map. eapply Rle_trans; [apply (vsum_norm _ (fun i => M * lam i))|].
  - intros i I. rewrite mulv_scale, norm_scale by (apply LAM, I). rewrite (Rmult_comm M). destruct (TURN UG i I) as [T Z]. destruct (Req_EM_T (v3_dot (direction (smp S i)) g) (-1)) as [X|X].
    + rewrite (Z X). lra.
    + rewrite rotation_norm by apply (T X). apply Rmult_le_compat_l; [apply LAM, I|apply B, I].
  - rewrite rsum_scale. assert (0 <= M) by (eapply Rle_trans; [apply norm_nonneg|apply (B c IC)]). destruct SUM as [->|[_ Z]]; [lra|]. rewrite (rsum_zero lam view Z). lra.
Qed.
(** C140: with a unit gradient the normals of the samples are carried to the gradient. *)
Theorem contact_map_normals : forall q S view k P ms bj g, valid_kernel k -> (forall i, In i view -> away S q i <> v3_0 /\ s_nml (smp S i) <> v3_0) ->
  contact_jacobian_at q S view k P = Some (ms, bj) -> query_jacobian_at q S view None k P = Some g -> v3_dot g g = 1 ->
  (exists i, In i view /\ match support k with None => True | Some r => gap S q i < r end /\ v3_dot (direction (smp S i)) g <> -1) ->
  carried ms (map (fun i => direction (smp S i)) view) = g.
Proof.
  intros q S view k P ms bj g VK A E EG UG (i0 & I0 & IN & NO). assert (NE : view <> []) by (intros X; apply (contact_total q S view k P) in X; congruence).
  destruct (contact_matrices_average q S view k P VK NE A) as (ms' & bj' & c & g' & lam & Q & E' & IC & _ & EG' & MS & (LAM & SUM) & TURN). rewrite E in E'. injection E' as <- <-. rewrite EG in EG'. injection EG' as <-.
  rewrite MS, carried_map. rewrite (vsum_ext _ (fun i => v3_scale (lam i) g)).
  - rewrite vsum_weights. destruct SUM as [->|[W Z]]; [apply v3_eq; unfold v3_scale; cbn [vx vy vz]; ring|exfalso].
    destruct (LAM i0 I0) as [_ L]. rewrite (Z i0 I0), Rmult_0_l in L. assert (P1 := kernel_weight_pos k S q view c i0 VK (fun i I => proj1 (A i I)) IC I0 IN).
    assert (P2 : agreement (direction (smp S i0)) g = 0) by nra. unfold agreement in P2. nra.
  - intros i I. rewrite mulv_scale. destruct (TURN UG i I) as [T X]. destruct (Req_EM_T (v3_dot (direction (smp S i)) g) (-1)) as [Y|Y].
    + rewrite (X Y). apply v3_eq; unfold v3_scale; cbn [vx vy vz]; ring.
    + destruct (T Y) as (_ & -> & _). reflexivity.
Qed.

(** C140: over a flat patch, without a background, the map is the plain weighted mean; translations are carried exactly and there is no background part. *)
Theorem contact_map_flat : forall q S view k P n, valid_kernel k -> view <> [] -> (forall i, In i view -> away S q i <> v3_0) -> p_weighted P = false ->
  (exists i, In i view /\ match support k with None => True | Some r => gap S q i < r end) -> flat_around S view n ->
  exists ms c, contact_jacobian_at q S view k P = Some (ms, v3_0) /\ query_jacobian_at q S view None k P = Some n /\ In c view /\ (forall j, In j view -> gap S q c <= gap S q j) /\
    (forall v, carried ms (map v view) = mean_of (kernel_at k S q c) v view) /\ forall v, carried ms (map (fun _ => v) view) = v.
Proof.
  intros q S view k P n VK NE A PW IN FL. destruct (flat_values S view n q FL) as [psi PS]. destruct (gradient_mean q S view k P psi VK NE A PW IN PS) as (c & b & EC & EB & BJ & BW & WS & T & G).
  assert (DN : forall i, In i view -> direction (smp S i) = n) by (intros i I; apply (proj2 FL i i I I)). assert (NN : v3_dot n n = 1) by apply FL.
  replace (mean_of (kernel_at k S q c) (fun i => direction (smp S i)) view) with n in G.
  2:{ transitivity (mean_of (kernel_at k S q c) (fun _ => n) view); [symmetry; apply mean_const, T|]. unfold mean_of. f_equal. apply vsum_ext. intros i I. rewrite (DN i I). reflexivity. }
  destruct (contact_jacobian_at q S view k P) as [[ms bj]|] eqn:E; [|apply contact_total in E; contradiction].
  destruct (contact_form _ _ _ _ _ _ _ E) as (c' & g & b' & EC' & EG' & EB' & _ & BJ' & MS). rewrite EC in EC'. injection EC' as <-. rewrite G in EG'. injection EG' as <-. rewrite EB in EB'. injection EB' as <-.
  exists ms, c. destruct (closest_in _ _ _ _ EC) as [IC MIN].
  assert (MEAN : forall v, carried ms (map v view) = mean_of (kernel_at k S q c) v view).
  { intros v. cbv zeta in MS. rewrite MS, carried_map. unfold mean_of. rewrite <- vsum_scale.
    assert (AG : forall i, In i view -> agreement (direction (smp S i)) n = 1) by (intros i I; unfold agreement; rewrite (DN i I), NN; lra).
    rewrite (rsum_ext (fun i => kernel_at k S q c i * agreement (direction (smp S i)) n) (kernel_at k S q c)) by (intros i I; rewrite (AG i I); ring).
    destruct (Rlt_dec 0 (rsum (map (kernel_at k S q c) view))); [|lra].
    apply vsum_ext. intros i I. rewrite mulv_scale, (AG i I), (DN i I), rodrigues_same, mulv_I by exact NN. apply v3_eq; unfold v3_scale; cbn [vx vy vz]; field; lra. }
  split; [rewrite BJ', BJ; reflexivity|]. split; [exact G|]. split; [exact IC|]. split; [intros j J; apply dist2_norm, MIN, J|]. split; [exact MEAN|]. intros v. rewrite MEAN. apply mean_const, T.
Qed.
Definition plate : list sample := [Sample (V3 (-(3/10)) 0 0) (V3 0 0 2) (V3 1 0 0) 0; Sample (V3 (3/10) 0 0) (V3 0 0 1) (V3 0 2 0) 0].
Lemma plate_direction i : In i [0; 1]%nat -> direction (smp plate i) = V3 0 0 1.
Proof. intros [<-|[<-|[]]]; unfold direction, smp, plate; cbn [nth s_nml]; [rewrite (v3_norm_is _ 2)|rewrite (v3_norm_is _ 1)]; try lra; try (cbv [v3_dot vx vy vz]; ring); apply v3_eq; cbv [v3_scale vx vy vz]; field. Qed.
Lemma plate_flat : flat_around plate [0; 1]%nat (V3 0 0 1).
Proof.
  split; [cbv [v3_dot vx vy vz]; ring|]. intros i j I J. split; [|split; [apply plate_direction, I|]].
  - destruct I as [<-|[<-|[]]]; unfold smp, plate; cbn [nth s_nml]; intros H; apply (f_equal vz) in H; cbn in H; lra.
  - destruct I as [<-|[<-|[]]], J as [<-|[<-|[]]]; (split; [cbv [smp plate nth s_pos v3_sub v3_dot vx vy vz]; ring|reflexivity]).
Qed.
Lemma plate_wedge i : away plate over i = away wedge over i.
Proof. destruct i as [|[|i]]; reflexivity. Qed.
Lemma plate_gap i : In i [0; 1]%nat -> gap plate over i = 1/2.
Proof. intros I. unfold gap. rewrite plate_wedge. destruct wedge_gap as [A B]. destruct I as [<-|[<-|[]]]; assumption. Qed.
Lemma plate_weight c i : In i [0; 1]%nat -> kernel_at (Cubic 1) plate over c i = 1/2.
Proof. intros I. rewrite <- (wedge_weight c i I). unfold kernel_at, gap. rewrite plate_wedge. reflexivity. Qed.
Example contact_map_flat_ex : exists ms, contact_jacobian_at over plate [0; 1]%nat (Cubic 1) plain = Some (ms, v3_0) /\ query_jacobian_at over plate [0; 1]%nat None (Cubic 1) plain = Some (V3 0 0 1) /\
  carried ms [V3 1 0 0; V3 0 2 0] = V3 (1/2) 1 0 /\ carried ms [V3 5 6 7; V3 5 6 7] = V3 5 6 7.
Proof.
  destruct (contact_map_flat over plate [0; 1]%nat (Cubic 1) plain (V3 0 0 1)) as (ms & c & E & G & _ & _ & MEAN & CONST).
  - cbn. lra.
  - discriminate.
  - intros i I. rewrite plate_wedge. apply wedge_away, I.
  - reflexivity.
  - exists 0%nat. split; [left; reflexivity|]. cbn [support]. rewrite plate_gap by (left; reflexivity). lra.
  - exact plate_flat.
  - exists ms. split; [exact E|]. split; [exact G|]. split; [|exact (CONST (V3 5 6 7))].
    specialize (MEAN (fun i => match i with O => V3 1 0 0 | _ => V3 0 2 0 end)). cbn [map] in MEAN. rewrite MEAN. unfold mean_of. cbn [map]. rewrite !rsum_cons, rsum_nil, !plate_weight by (cbn; auto). apply v3_eq; cbv [vsum fold_right v3_0 v3_add v3_scale vx vy vz]; field.
Qed.
Example contact_map_bounded_ex : forall ms, contact_jacobian_at over plate [0; 1]%nat (Cubic 1) plain = Some (ms, v3_0) -> v3_norm (carried ms [V3 1 0 0; V3 0 2 0]) <= 2.
Proof.
  intros ms E. destruct contact_map_flat_ex as (ms' & E' & G & _). refine (contact_map_bounded over plate [0; 1]%nat (Cubic 1) plain ms v3_0 (V3 0 0 1) (fun i => match i with O => V3 1 0 0 | _ => V3 0 2 0 end) 2 _ _ E G _ _).
  - cbn. lra.
  - intros i I. split; [rewrite plate_wedge; apply wedge_away, I|apply (proj2 plate_flat i i I I)].
  - cbv [v3_dot vx vy vz]; ring.
  - intros i [<-|[<-|[]]]; [rewrite (v3_norm_is _ 1)|rewrite (v3_norm_is _ 2)]; try lra; cbv [v3_dot vx vy vz]; ring.
Qed.
Example contact_map_normals_ex : forall ms, contact_jacobian_at over plate [0; 1]%nat (Cubic 1) plain = Some (ms, v3_0) -> carried ms [V3 0 0 1; V3 0 0 1] = V3 0 0 1.
Proof.
  intros ms E. destruct contact_map_flat_ex as (ms' & E' & G & _). assert (H := contact_map_normals over plate [0; 1]%nat (Cubic 1) plain ms v3_0 (V3 0 0 1)). cbn [map] in H. rewrite !plate_direction in H by (cbn; auto). apply H; auto.
  - cbn. lra.
  - intros i I. split; [rewrite plate_wedge; apply wedge_away, I|apply (proj2 plate_flat i i I I)].
  - cbv [v3_dot vx vy vz]; ring.
  - exists 0%nat. split; [left; reflexivity|]. split; [cbn [support]; rewrite plate_gap by (left; reflexivity); lra|]. rewrite plate_direction by (left; reflexivity). cbv [v3_dot vx vy vz]. lra.
Qed.

(** C141: the contact matrices in their order belong to the indices computed without values, and there are as many as promised; each row of the block matrix
    times vectors at the vertices is what the matrices of the query point carry, and zero for a point that sees no sample. *)
Theorem contact_matrices_block_matrix : forall t qs, well_formed (q_base t) -> indices_ok t -> length qs = length (trivial_neighborhood t) ->
  exists L, contact_matrices t qs = Some L /\ contact_jacobian_matrix_indices t = Some (map fst L) /\ length L = num_contact_jacobian_matrices t /\
    (forall x r, nth r (trivial_neighborhood t) [] = [] -> block_product L x r = v3_0) /\
    forall r, let nbrs := nth r (trivial_neighborhood t) [] in nbrs <> [] ->
      exists ms bj, contact_jacobian_at (nth r qs v3_0) (sb_samples (q_base t)) nbrs (q_kernel t) (sb_bg (q_base t)) = Some (ms, bj) /\
        forall x, block_product L x r = carried ms (map (sample_vector (q_base t) x) nbrs).
Proof.
  intros t qs WF IOK LQ. assert (RG : forall l i, In l (trivial_neighborhood t) -> In i l -> (i < length (sb_samples (q_base t)))%nat) by (intros l i J; apply IOK; left; exact J).
  assert (G : exists L, contact_matrices t qs = Some L /\ contact_jacobian_matrix_indices t = Some (map fst L)).
  { unfold contact_matrices, contact_jacobian_matrix_indices, rows_of, nonempty. rewrite LQ, Nat.eqb_refl. unfold enumerate. rewrite combine_length, LQ, Nat.min_id. revert LQ RG. clear IOK. generalize (trivial_neighborhood t). intros l. generalize 0%nat. revert qs.
    induction l as [|nb l IH]; intros [|q qs] m LQ RG; try discriminate; cbn [length seq combine filter snd]; [exists []; auto|].
    destruct (IH qs (S m)) as (L & E1 & E2); [cbn in LQ; lia|intros l' i A; apply RG; right; exact A|]. destruct (is_nil nb) eqn:N; cbn [negb]; [exists L; auto|].
    destruct (contact_row_form t m q nb WF) as (f & bj & bl & cols & _ & ER & EC & EI & _); [intros ->; discriminate|intros i; apply RG; left; reflexivity|].
    cbn [map all_some fst snd]. rewrite ER, EC. cbn [option_map]. destruct (all_some _) as [x1|] in E1 |- *; [|discriminate]. cbn in E1. injection E1 as <-. destruct (all_some _) as [x2|] in E2 |- *; [|discriminate]. cbn in E2. injection E2 as E2.
    exists (bl ++ concat x1). cbn [option_map concat]. split; [reflexivity|]. rewrite map_app, EI, E2. reflexivity. }
  destruct G as (L & EL & EI). exists L. split; [exact EL|]. split; [exact EI|]. split.
  { unfold contact_jacobian_matrix_indices in EI. apply rows_spec in EI. destruct EI as [LEN _]. rewrite map_length, total_nonempty in LEN. exact LEN. }
  unfold contact_matrices in EL. rewrite LQ, Nat.eqb_refl in EL. match type of EL with option_map _ ?y = _ => destruct y as [ls|] eqn:EA; [|discriminate] end. cbn [option_map] in EL. injection EL as <-.
  assert (BR := fun X r => block_rows (fun p : nat * (v3 * list nat) => contact_row t (fst p) (fst (snd p)) (snd (snd p))) X r _ _ (fun p m => contact_row_label t _ _ _ m) (filtered_rows _ _) EA).
  split.
  - intros x r NR. apply (proj1 (BR x r)). intros I. apply in_map_iff in I. destruct I as ([r' [q nb]] & <- & I). apply filter_In in I. destruct I as [I NI]. apply enumerate_nth, nth_error_combine in I. destruct I as [_ I]. cbn [snd fst] in *. apply (nth_error_nth _ _ (@nil nat)) in I. rewrite I in NR. subst. discriminate.
  - intros r nbrs NR. assert (RL : (r < length (trivial_neighborhood t))%nat) by (destruct (Nat.lt_ge_cases r (length (trivial_neighborhood t))) as [|GE]; [assumption|]; exfalso; apply NR; apply nth_overflow; exact GE).
    destruct (contact_row_form t r (nth r qs v3_0) nbrs WF NR) as (f & bj & bl & cols & EC & ER & _ & _ & EP); [intros i; apply RG; apply nth_In; exact RL|].
    exists (map f nbrs), bj. split; [exact EC|]. intros x. rewrite carried_map, <- EP. apply (proj2 (BR x r) (nth r qs v3_0, nbrs)); [|exact ER].
    apply filter_In. split; [|cbn [snd]; destruct nbrs; [contradiction|reflexivity]]. apply enumerate_nth, nth_error_combine. split; apply nth_error_nth'; lia.
Qed.
(** C141: the blocks are written in this order over the beginning of the output. *)
Theorem contact_matrices_written : forall t qs out, well_formed (q_base t) -> indices_ok t -> length qs = length (trivial_neighborhood t) -> length out = num_contact_jacobian_matrices t ->
  exists L, contact_matrices t qs = Some L /\ contact_jacobian_matrices t qs out = Some (map snd L).
Proof.
  intros t qs out WF IOK LQ LO. destruct (contact_matrices_block_matrix t qs WF IOK LQ) as (L & EL & _ & LEN & _). exists L. split; [exact EL|]. unfold contact_jacobian_matrices. rewrite EL. cbn [option_map]. f_equal.
  rewrite (zip_update_all _ (fun m => m)); [apply map_id|reflexivity|rewrite map_length; lia].
Qed.
(** C141: the products computed without matrices are the products with the block matrix plus the background part; they are written one after the other for the
    query points that see a sample, and the rest of the output is left alone. *)
Theorem contact_products_written : forall t qs mult out L, well_formed (q_base t) -> indices_ok t -> length qs = length (trivial_neighborhood t) -> length mult = length (sb_verts (q_base t)) ->
  contact_matrices t qs = Some L -> exists out', contact_jacobian_product_values t qs mult out = Some out' /\ length out' = length out /\
    (forall j, (length (filled t) <= j)%nat -> nth j out' v3_0 = nth j out v3_0) /\
    forall j r, nth_error (filled t) j = Some r -> (j < length out)%nat -> exists ms bj, contact_jacobian_at (nth r qs v3_0) (sb_samples (q_base t)) (nth r (trivial_neighborhood t) []) (q_kernel t) (sb_bg (q_base t)) = Some (ms, bj) /\
      nth j out' v3_0 = v3_add (block_product L (fun i => nth i mult v3_0) r) bj.
Proof.
  intros t qs mult out L WF IOK LQ LM EL. destruct (contact_matrices_block_matrix t qs WF IOK LQ) as (L' & EL' & _ & _ & _ & BP). rewrite EL in EL'. injection EL' as <-.
  set (h := fun r => match contact_jacobian_at (nth r qs v3_0) (sb_samples (q_base t)) (nth r (trivial_neighborhood t) []) (q_kernel t) (sb_bg (q_base t)) with
    | Some (ms, bj) => v3_add (block_product L (fun i => nth i mult v3_0) r) bj | None => v3_0 end).
  assert (FI : forall r, In r (filled t) -> (r < length (trivial_neighborhood t))%nat /\ nth r (trivial_neighborhood t) [] <> []).
  { intros r I. unfold filled in I. apply filter_In in I. destruct I as [I J]. apply in_seq in I. split; [lia|]. intros Z. rewrite Z in J. discriminate. }
  assert (ROW : forall r, In r (filled t) -> contact_product_row t mult (nth r qs v3_0) (nth r (trivial_neighborhood t) []) = Some (h r)).
  { intros r I. destruct (FI r I) as [RL NR]. destruct (BP r NR) as (ms & bj & EC & EB). unfold h. rewrite EC, EB. clear EB.
    assert (RG : forall i, In i (nth r (trivial_neighborhood t) []) -> (i < length (sb_samples (q_base t)))%nat) by (intros i J; apply (proj1 (proj2 IOK) _ i (or_introl (nth_In _ _ RL)) J)).
    destruct (contact_map_form (nth r qs v3_0) (sb_samples (q_base t)) _ (q_kernel t) (sb_bg (q_base t)) NR) as (f & bj' & E & EV & EF). rewrite EC in E. injection E as -> <-. rewrite carried_map. unfold contact_product_row, sample_vector. destruct WF as [WT W]. destruct (sb_type (q_base t)).
    - apply EV. intros i J. destruct W as [W _]. specialize (RG i J). lia.
    - rewrite EF; [reflexivity|]. intros i J. specialize (RG i J). rewrite W in RG. split; [exact RG|]. intros v V. rewrite LM. apply (WT _ v (nth_In _ (0, 0, 0)%nat RG) V). }
  unfold contact_jacobian_product_values. rewrite (filter_positions _ (v3_0, [])). rewrite combine_length, LQ, Nat.min_id.
  assert (EF : filter (fun r => negb (is_nil (snd (nth r (combine qs (trivial_neighborhood t)) (v3_0, []))))) (seq 0 (length (trivial_neighborhood t))) = filled t).
  { unfold filled. apply filter_ext. intros r. rewrite combine_nth by exact LQ. cbn [snd]. destruct (nth r (trivial_neighborhood t) []); reflexivity. }
  rewrite EF, firstn_map, map_map. rewrite (all_some_each _ h).
  2:{ intros r I. rewrite combine_nth by exact LQ. cbn [fst snd]. apply ROW. rewrite <- (firstn_skipn (length out)). apply in_or_app. left. exact I. }
  eexists. split; [reflexivity|]. split; [apply zip_update_length|]. split.
  - intros j J. generalize (length out). intros n. assert (LF : (length (map h (firstn n (filled t))) <= j)%nat) by (rewrite map_length, firstn_length; lia). revert LF. generalize (map h (firstn n (filled t))). clear. intros vs. revert j vs. induction out as [|a out IH]; intros j [|v vs] LF; cbn [zip_update]; try reflexivity. cbn in LF. destruct j; [lia|]. cbn [nth]. apply IH. lia.
  - intros j r EN J. assert (IR := nth_error_In _ _ EN). assert (JF : (j < length (filled t))%nat) by (apply nth_error_Some; congruence).
    rewrite (zip_update_nth _ _ _ j v3_0 (h 0%nat)); [|exact J|rewrite map_length, firstn_length; lia]. rewrite map_nth. rewrite nth_firstn_lt by exact J. rewrite (nth_error_nth _ _ _ EN). unfold h.
    destruct (BP r (proj2 (FI r IR))) as (ms & bj & EC & _). exists ms, bj. rewrite EC. auto.
Qed.

(** ** Examples with query points, one of which sees nothing *)
Definition plate_base : base := Base plain [] [V3 (-(3/10)) 0 0; V3 (3/10) 0 0] plate [] SVertex (build_tree plate).
Definition two_points : query_topo := QLocal (LocalMls (LCubic 2) (1 / 2) 0 plate_base) (Nbh [0%nat; 0%nat] [[]; [0; 1]%nat] [[]; [0; 1]%nat]).
Definition far_over : list v3 := [V3 9 9 9; over].
Lemma two_kernel : q_kernel two_points = Cubic 1.
Proof. cbn. f_equal. lra. Qed.
Lemma two_ok : well_formed (q_base two_points) /\ indices_ok two_points.
Proof.
  split.
  - split; [intros t v []|]. cbn. split; [reflexivity|]. split; [left; reflexivity|]. intros i t. split; [destruct i; intros []|]. intros [L _]. cbn in L. lia.
  - split; [reflexivity|]. split.
    + intros l i I J. cbn in I. destruct I as [[<-|[<-|[]]]|[<-|[<-|[]]]]; cbn in J |- *; lia.
    + intros [|[|[|j]]]; cbn; split; congruence.
Qed.
Lemma two_product mult out : length mult = 2%nat -> exists L out', contact_matrices two_points far_over = Some L /\ contact_jacobian_product_values two_points far_over mult out = Some out' /\
  contact_jacobian_matrix_indices two_points = Some (map fst L) /\ map fst L = [(1, 0); (1, 1)]%nat /\ length out' = length out /\
  (forall j, (1 <= j)%nat -> nth j out' v3_0 = nth j out v3_0) /\ block_product L (fun i => nth i mult v3_0) 0 = v3_0 /\
  block_product L (fun i => nth i mult v3_0) 1 = v3_scale (1/2) (v3_add (nth 0 mult v3_0) (nth 1 mult v3_0)) /\ ((1 <= length out)%nat -> nth 0 out' v3_0 = v3_scale (1/2) (v3_add (nth 0 mult v3_0) (nth 1 mult v3_0))).
Proof.
  intros LM. destruct two_ok as [WF IOK]. destruct (contact_matrices_block_matrix two_points far_over WF IOK eq_refl) as (L & EL & EI & LEN & BZ & BP). destruct (contact_products_written two_points far_over mult out L WF IOK eq_refl LM EL) as (out' & EO & LO & REST & VAL).
  specialize (BP 1%nat ltac:(discriminate)). cbv zeta in BP. destruct BP as (ms & bj & EC & BP). rewrite two_kernel in EC. change (nth 1 far_over v3_0) with over in EC. change (nth 1 (trivial_neighborhood two_points) []) with [0; 1]%nat in EC, BP. change (sb_samples (q_base two_points)) with plate in EC. change (sb_bg (q_base two_points)) with plain in EC.
  destruct (contact_map_flat over plate [0; 1]%nat (Cubic 1) plain (V3 0 0 1)) as (ms' & c & E & G & _ & _ & MEAN & _).
  { cbn. lra. } { discriminate. } { intros i I. rewrite plate_wedge. apply wedge_away, I. } { reflexivity. }
  { exists 0%nat. split; [left; reflexivity|]. cbn [support]. rewrite plate_gap by (left; reflexivity). lra. } { exact plate_flat. }
  rewrite EC in E. injection E as <- ->. assert (B1 : block_product L (fun i => nth i mult v3_0) 1 = v3_scale (1/2) (v3_add (nth 0 mult v3_0) (nth 1 mult v3_0))).
  { rewrite BP, MEAN. unfold mean_of. cbn [map]. rewrite !rsum_cons, rsum_nil, !plate_weight by (cbn; auto). unfold sample_vector. cbn [q_base two_points lm_base plate_base sb_type]. destruct (nth 0 mult v3_0) as [a1 a2 a3], (nth 1 mult v3_0) as [b1 b2 b3]. apply v3_eq; cbv [vsum fold_right v3_0 v3_add v3_scale vx vy vz]; field. }
  exists L, out'. split; [exact EL|]. split; [exact EO|]. split; [exact EI|]. split; [assert (X : contact_jacobian_matrix_indices two_points = Some [(1, 0); (1, 1)]%nat) by reflexivity; rewrite EI in X; injection X as X; exact X|]. split; [exact LO|]. split; [exact REST|]. split; [apply BZ; reflexivity|]. split; [exact B1|].
  intros LL. destruct (VAL 0%nat 1%nat eq_refl LL) as (ms'' & bj & EC' & ->). rewrite B1. rewrite two_kernel in EC'. change (contact_jacobian_at over plate [0; 1]%nat (Cubic 1) plain = Some (ms'', bj)) in EC'. rewrite EC in EC'. injection EC' as _ <-. destruct (nth 0 mult v3_0) as [a1 a2 a3], (nth 1 mult v3_0) as [b1 b2 b3]. apply v3_eq; cbv [v3_add v3_scale v3_0 vx vy vz]; ring.
Qed.
Example contact_matrices_block_matrix_ex : exists L, contact_matrices two_points far_over = Some L /\ map fst L = [(1, 0); (1, 1)]%nat /\ block_product L (fun i => nth i [V3 2 0 0; V3 0 4 0] v3_0) 1 = V3 1 2 0.
Proof. destruct (two_product [V3 2 0 0; V3 0 4 0] [] eq_refl) as (L & o & E & _ & _ & F & _ & _ & _ & B & _). exists L. split; [exact E|]. split; [exact F|]. rewrite B. apply v3_eq; cbv [nth v3_add v3_scale vx vy vz]; field. Qed.
Example contact_matrices_written_ex : exists L, contact_matrices two_points far_over = Some L /\ contact_jacobian_matrices two_points far_over [m3_I; m3_I] = Some (map snd L) /\ num_contact_jacobian_matrices two_points = 2%nat.
Proof. destruct two_ok as [WF IOK]. destruct (contact_matrices_written two_points far_over [m3_I; m3_I] WF IOK eq_refl eq_refl) as (L & A & B). exists L. auto. Qed.
Example contact_products_written_ex : exists out', contact_jacobian_product_values two_points far_over [V3 2 0 0; V3 0 4 0] [V3 7 7 7; V3 8 8 8] = Some out' /\ nth 0 out' v3_0 = V3 1 2 0 /\ filled two_points = [1%nat].
Proof. destruct (two_product [V3 2 0 0; V3 0 4 0] [V3 7 7 7; V3 8 8 8] eq_refl) as (L & o & _ & E & _ & _ & _ & _ & _ & _ & B). exists o. split; [exact E|]. split; [|reflexivity]. rewrite B by (cbn; lia). apply v3_eq; cbv [nth v3_add v3_scale vx vy vz]; field. Qed.
(** C141, refuted: products are not written to the rows of their query points when an earlier point sees no sample. *)
Theorem contact_product_rows_refuted : exists t qs mult out L out' r, well_formed (q_base t) /\ indices_ok t /\ length qs = length (trivial_neighborhood t) /\ length out = length qs /\ length mult = length (sb_verts (q_base t)) /\
  contact_matrices t qs = Some L /\ contact_jacobian_product_values t qs mult out = Some out' /\ block_product L (fun i => nth i mult v3_0) r <> v3_0 /\
  nth r out' v3_0 = nth r out v3_0 /\ nth r out' v3_0 <> block_product L (fun i => nth i mult v3_0) r /\ nth (r - 1) out' v3_0 = block_product L (fun i => nth i mult v3_0) r.
Proof.
  exists two_points, far_over, [V3 2 0 0; V3 0 4 0], [V3 7 7 7; V3 8 8 8]. destruct (two_product [V3 2 0 0; V3 0 4 0] [V3 7 7 7; V3 8 8 8] eq_refl) as (L & o & EL & E & _ & _ & _ & R & _ & B & B0). exists L, o, 1%nat. destruct two_ok as [WF IOK].
  do 5 (split; [assumption || reflexivity|]). split; [exact EL|]. split; [exact E|]. assert (V : block_product L (fun i => nth i [V3 2 0 0; V3 0 4 0] v3_0) 1 = V3 1 2 0) by (rewrite B; apply v3_eq; cbv [nth v3_add v3_scale vx vy vz]; field). rewrite V.
  split; [intros X; apply (f_equal vx) in X; cbn in X; lra|]. split; [apply R; lia|]. split; [rewrite R by lia; intros X; apply (f_equal vx) in X; cbn in X; lra|]. change (1 - 1)%nat with 0%nat. rewrite B0 by (cbn; lia). apply v3_eq; cbv [nth v3_add v3_scale vx vy vz]; field.
Qed.
(** C141, refuted: with the distance as background, a query point with samples in its list but none in range gets a unit vector for zero multipliers. *)
Theorem contact_product_zero_refuted : exists q S P, contact_jacobian_at q S [0%nat] (Cubic 1) P <> None /\ vertex_contact_product_at q S [0%nat] [v3_0] (Cubic 1) P = Some (V3 0 0 1).
Proof.
  exists (V3 0 0 2), [Sample v3_0 (V3 0 0 1) v3_0 0], (BgParams FDistance false). destruct (contact_map_form (V3 0 0 2) [Sample v3_0 (V3 0 0 1) v3_0 0] [0%nat] (Cubic 1) (BgParams FDistance false)) as (f & bj & E & V & _); [discriminate|]. rewrite E. split; [discriminate|].
  rewrite V by (intros i [<-|[]]; cbn; lia). f_equal. destruct (contact_form _ _ _ _ _ _ _ E) as (c & g & b & EC & _ & EB & BD & -> & _). cbn in EC. injection EC as <-.
  assert (GP : gap [Sample v3_0 (V3 0 0 1) v3_0 0] (V3 0 0 2) 0 = 2) by (apply v3_norm_is; [lra|]; cbv [away smp nth s_pos v3_sub v3_dot v3_0 vx vy vz]; ring). rewrite GP in BD.
  unfold bg_local in EB. cbn [closest_sample fold_left] in EB. injection EB as EB. assert (BK : b_kernel b = Cubic 1) by (rewrite <- EB; reflexivity). assert (BW : b_weighted b = false) by (rewrite <- EB; reflexivity).
  assert (WB : background_weight b = 1) by (unfold background_weight; rewrite BK, BD; cbn; destruct (Rlt_dec 1 2); lra).
  assert (SM : b_sum b = 1).
  { transitivity (rsum (map (kernel_at (Cubic 1) [Sample v3_0 (V3 0 0 1) v3_0 0] (V3 0 0 2) 0) [0%nat]) + background_weight b); [rewrite <- EB; cbn [bg_new_impl b_sum]; reflexivity|]. rewrite WB. cbn [map]. rewrite rsum_cons, rsum_nil. unfold kernel_at. rewrite GP. unfold k_f, cubic_f, cubic_f_gen. cbn. destruct (Rlt_dec 1 2); lra. }
  assert (FG : field_gradient b = V3 0 0 1).
  { unfold field_gradient, orientation. rewrite BD. rewrite <- EB. cbn [bg_new_impl b_value p_type bg_value_new b_index ci_get b_disp b_all]. destruct (Req_EM_T 2 0); [lra|]. unfold signum. match goal with |- context [Rlt_dec ?a 0] => destruct (Rlt_dec a 0) as [X|X] end.
    - exfalso. revert X. cbv [smp nth s_nml s_pos v3_sub v3_dot v3_0 vx vy vz]. lra.
    - apply v3_eq; cbv [smp nth s_pos v3_sub v3_scale v3_0 vx vy vz]; field. }
  unfold bg_query_jacobian. rewrite BW, FG, WB. unfold weight_sum_inv. rewrite SM. destruct (Req_EM_T 1 0); [lra|]. cbn [map nth]. rewrite vsum_cons. cbv zeta. destruct (f 0%nat) as [[a1 a2 a3] [b1 b2 b3] [c1 c2 c3]]. apply v3_eq; cbv [vsum fold_right m3_mulv v3_dot v3_add v3_scale v3_0 r0 r1 r2 vx vy vz]; field.
Qed.

(** C140, refuted: where the gradient is no unit vector the normals are not carried to the gradient and translations are shortened. *)
Definition wedge_turn (s : R) : m3 := M3 (V3 (881/1025) 0 s) (V3 0 1 0) (V3 (- s) 0 (881/1025)).
Lemma wedge_turns : forall g, g = V3 0 0 (4/5) ->
  rodrigues_rotation (cross_matrix (v3_cross (direction (smp wedge 0)) g)) (v3_dot (direction (smp wedge 0)) g) = wedge_turn (12/25) /\
  rodrigues_rotation (cross_matrix (v3_cross (direction (smp wedge 1)) g)) (v3_dot (direction (smp wedge 1)) g) = wedge_turn (-(12/25)) /\
  agreement (direction (smp wedge 0)) g = 1681/2500 /\ agreement (direction (smp wedge 1)) g = 1681/2500.
Proof.
  intros g ->. destruct wedge_direction as [-> ->]. unfold rodrigues_rotation, agreement.
  replace (v3_dot (V3 (-(3/5)) 0 (4/5)) (V3 0 0 (4/5))) with (16/25) by (cbv [v3_dot vx vy vz]; field). replace (v3_dot (V3 (3/5) 0 (4/5)) (V3 0 0 (4/5))) with (16/25) by (cbv [v3_dot vx vy vz]; field).
  destruct (Req_EM_T (16/25) (-1)); [lra|]. unfold wedge_turn. split; [mat; field|]. split; [mat; field|]. split; field.
Qed.
Lemma wedge_map : exists ms, contact_jacobian_at over wedge [0; 1]%nat (Cubic 1) plain = Some (ms, v3_0) /\
  forall v0 v1, carried ms [v0; v1] = v3_scale (1/2) (v3_add (m3_mulv (wedge_turn (12/25)) v0) (m3_mulv (wedge_turn (-(12/25))) v1)).
Proof.
  destruct wedge_gradient as (c & b & EC & EB & BJ & _ & _ & EG). destruct (contact_jacobian_at over wedge [0; 1]%nat (Cubic 1) plain) as [[ms bj]|] eqn:E; [|apply contact_total in E; discriminate].
  destruct (contact_form _ _ _ _ _ _ _ E) as (c' & g & b' & EC' & EG' & EB' & _ & BJ' & MS). rewrite EC in EC'. injection EC' as <-. rewrite EB in EB'. injection EB' as <-. rewrite EG in EG'. injection EG' as EG'. symmetry in EG'. cbv zeta in MS.
  exists ms. split; [rewrite BJ', BJ; reflexivity|]. intros v0 v1. destruct (wedge_turns g EG') as (T0 & T1 & A0 & A1). cbn [map] in MS. rewrite !rsum_cons, rsum_nil, !wedge_weight, T0, T1, A0, A1 in MS by (cbn; auto).
  replace (1/2 * (1681/2500) + (1/2 * (1681/2500) + 0)) with (1681/2500) in MS by field. destruct (Rlt_dec 0 (1681/2500)); [|lra]. subst ms. unfold carried. cbn [combine map fst snd]. rewrite !vsum_cons, !mulv_scale.
  destruct (m3_mulv (wedge_turn (12/25)) v0) as [a1 a2 a3], (m3_mulv (wedge_turn (-(12/25))) v1) as [b1 b2 b3]. apply v3_eq; cbv [vsum fold_right v3_0 v3_add v3_scale vx vy vz]; field.
Qed.
Theorem contact_map_refuted : exists q S view k ms g, valid_kernel k /\ (forall i, In i view -> away S q i <> v3_0 /\ s_nml (smp S i) <> v3_0 /\ gap S q i < 1) /\ support k = Some 1 /\
  contact_jacobian_at q S view k plain = Some (ms, v3_0) /\ query_jacobian_at q S view None k plain = Some g /\
  carried ms (map (fun i => direction (smp S i)) view) = v3_scale (50/41) g /\ g <> v3_0 /\ carried ms (map (fun _ => V3 0 0 1) view) = V3 0 0 (881/1025).
Proof.
  exists over, wedge, [0; 1]%nat, (Cubic 1). destruct wedge_map as (ms & E & C). destruct wedge_gradient as (c & b & _ & _ & _ & _ & _ & EG). exists ms, (V3 0 0 (4/5)).
  split; [cbn; lra|]. split; [|split; [reflexivity|]].
  { intros i I. split; [exact (wedge_away i I)|]. destruct wedge_gap as [G0 G1]. destruct I as [<-|[<-|[]]]; (split; [unfold smp, wedge; cbn [nth s_nml]; intros H; apply (f_equal vz) in H; cbn in H; lra|lra]). }
  split; [exact E|]. split; [exact EG|]. cbn [map]. rewrite !C. destruct wedge_direction as [-> ->]. split; [apply v3_eq; cbv [wedge_turn m3_mulv v3_dot v3_add v3_scale r0 r1 r2 vx vy vz]; field|].
  split; [intros X; apply (f_equal vz) in X; cbn in X; lra|]. apply v3_eq; cbv [wedge_turn m3_mulv v3_dot v3_add v3_scale r0 r1 r2 vx vy vz]; field.
Qed.

(** C142: inside the support and without a weighted background, the interpolated vector is what the contact matrices make of the vectors of the samples,
    times the mean agreement of the normals with the gradient. *)
Theorem vector_field_scaled : forall q S view k P v ms bj g, valid_kernel k -> (forall i, In i view -> away S q i <> v3_0) -> p_weighted P = false ->
  (exists i, In i view /\ match support k with None => True | Some r => gap S q i < r end) ->
  contact_jacobian_at q S view k P = Some (ms, bj) -> query_jacobian_at q S view None k P = Some g ->
  exists c, In c view /\ (forall j, In j view -> gap S q c <= gap S q j) /\ 0 < rsum (map (kernel_at k S q c) view) /\
    local_vector_at q S view k P v = v3_scale (rsum (map (fun i => kernel_at k S q c i * agreement (direction (smp S i)) g) view) / rsum (map (kernel_at k S q c) view)) (carried ms (map (fun i => s_vel (smp S i)) view)).
Proof.
  intros q S view k P v ms bj g VK A PW IN E EG. destruct (contact_form _ _ _ _ _ _ _ E) as (c & g' & b & EC & EG' & EB & DB & _ & MS). rewrite EG in EG'. injection EG' as <-. cbv zeta in MS. destruct (closest_in _ _ _ _ EC) as [IC MIN].
  exists c. split; [exact IC|]. split; [intros j J; apply dist2_norm, MIN, J|]. assert (T := total_positive _ _ _ _ _ VK EC A IN). split; [exact T|].
  assert (NI : match support k with None => True | Some r => gap S q c <= r end) by (assert (NI := nearest_inside _ _ _ _ _ EC IN); destruct (support k); [lra|exact Logic.I]).
  destruct (unweighted_inside q S view k P b c EC EB PW NI) as (BW & _ & _ & WS). destruct (Req_EM_T _ 0) in WS; [lra|].
  rewrite (local_vector_form q S view k P v c g b EC EG EB), BW, WS, MS, carried_map, <- vsum_scale.
  set (W := rsum (map (fun i => kernel_at k S q c i * agreement (direction (smp S i)) g) view)). set (K := rsum (map (kernel_at k S q c) view)) in *.
  assert (KN : forall i, In i view -> 0 <= kernel_at k S q c i * agreement (direction (smp S i)) g) by (intros i I; apply Rmult_le_pos; [exact (kernel_weight_nonneg k S q view c i VK A IC I)|apply agreement_nonneg]).
  match goal with |- v3_add (v3_scale 0 ?x) ?y = ?z => transitivity y; [destruct x as [x1 x2 x3], y as [y1 y2 y3]; apply v3_eq; cbv [v3_add v3_scale vx vy vz]; ring|] end.
  apply vsum_ext. intros i I. rewrite mulv_scale. match goal with |- v3_scale _ ?x = v3_scale _ (v3_scale _ ?x) => destruct x as [x1 x2 x3] end. destruct (Rlt_dec 0 W) as [PWW|NW].
  - apply v3_eq; cbv [v3_scale vx vy vz]; field; lra.
  - assert (Z : kernel_at k S q c i * agreement (direction (smp S i)) g = 0) by (apply (rsum_zero_each _ view KN); [fold W; lra|exact I]). rewrite Z. apply v3_eq; cbv [v3_scale vx vy vz]; ring.
Qed.
Example vector_field_scaled_ex : exists ms g, contact_jacobian_at over wedge [0; 1]%nat (Cubic 1) plain = Some (ms, v3_0) /\ query_jacobian_at over wedge [0; 1]%nat None (Cubic 1) plain = Some g /\
  local_vector_at over wedge [0; 1]%nat (Cubic 1) plain (V3 9 9 9) = v3_scale (1681/2500) (carried ms [V3 0 0 1; V3 0 0 1]).
Proof.
  destruct wedge_map as (ms & E & C). destruct wedge_gradient as (c0 & b & _ & _ & _ & _ & _ & EG). exists ms, (V3 0 0 (4/5)). split; [exact E|]. split; [exact EG|].
  destruct (vector_field_scaled over wedge [0; 1]%nat (Cubic 1) plain (V3 9 9 9) ms v3_0 (V3 0 0 (4/5))) as (c & _ & _ & _ & H); try assumption.
  - cbn. lra.
  - exact wedge_away.
  - reflexivity.
  - exists 0%nat. split; [left; reflexivity|]. cbn [support]. rewrite (proj1 wedge_gap). lra.
  - rewrite H. cbn [map]. destruct (wedge_turns _ eq_refl) as (_ & _ & A0 & A1). rewrite !rsum_cons, rsum_nil, !wedge_weight, A0, A1 by (cbn; auto). cbn [smp wedge nth s_vel]. f_equal. field.
Qed.
(** C142: over a flat patch, without a weighted background, the interpolated vector is the weighted mean of the vectors of the samples; what was passed in does not matter. *)
Theorem vector_field_flat : forall q S view k P v n, valid_kernel k -> view <> [] -> (forall i, In i view -> away S q i <> v3_0) -> p_weighted P = false ->
  (exists i, In i view /\ match support k with None => True | Some r => gap S q i < r end) -> flat_around S view n ->
  exists c, In c view /\ (forall j, In j view -> gap S q c <= gap S q j) /\ local_vector_at q S view k P v = mean_of (kernel_at k S q c) (fun i => s_vel (smp S i)) view.
Proof.
  intros q S view k P v n VK NE A PW IN FL. destruct (contact_map_flat q S view k P n VK NE A PW IN FL) as (ms & c & E & G & IC & MIN & MEAN & _).
  destruct (vector_field_scaled q S view k P v ms v3_0 n VK A PW IN E G) as (c' & IC' & MIN' & T & H).
  assert (KE : forall i, kernel_at k S q c' i = kernel_at k S q c i) by (intros i; unfold kernel_at; destruct k; try reflexivity; rewrite (Rle_antisym (gap S q c') (gap S q c)); [reflexivity|apply MIN', IC|apply MIN, IC']).
  exists c. split; [exact IC|]. split; [exact MIN|]. rewrite H, MEAN.
  rewrite (rsum_ext (fun i => kernel_at k S q c' i * agreement (direction (smp S i)) n) (kernel_at k S q c')) by (intros i I; destruct FL as [NN FL]; destruct (FL i i I I) as (_ & D & _); rewrite D; unfold agreement; rewrite NN; field).
  match goal with |- v3_scale _ ?x = _ => destruct x as [x1 x2 x3] end. apply v3_eq; cbv [v3_scale vx vy vz]; field; lra.
Qed.
Example vector_field_flat_ex : local_vector_at over plate [0; 1]%nat (Cubic 1) plain (V3 9 9 9) = V3 (1/2) 1 0.
Proof.
  destruct (vector_field_flat over plate [0; 1]%nat (Cubic 1) plain (V3 9 9 9) (V3 0 0 1)) as (c & _ & _ & H).
  - cbn. lra.
  - discriminate.
  - intros i I. rewrite plate_wedge. apply wedge_away, I.
  - reflexivity.
  - exists 0%nat. split; [left; reflexivity|]. cbn [support]. rewrite plate_gap by (left; reflexivity). lra.
  - exact plate_flat.
  - rewrite H. unfold mean_of. cbn [map]. rewrite !rsum_cons, rsum_nil, !plate_weight by (cbn; auto). apply v3_eq; cbv [smp plate nth s_vel vsum fold_right v3_0 v3_add v3_scale vx vy vz]; field.
Qed.
(** C142: one vector per query point; those that see no sample keep what was passed in. *)
Theorem vector_field_pointwise : forall t qs out, length qs = length (trivial_neighborhood t) -> length out = length (trivial_neighborhood t) ->
  exists out', vector_field t qs out = Some out' /\ length out' = length out /\ forall r, (r < length qs)%nat ->
    (nth r (trivial_neighborhood t) [] = [] -> nth r out' v3_0 = nth r out v3_0) /\
    nth r out' v3_0 = local_vector_at (nth r qs v3_0) (sb_samples (q_base t)) (nth r (trivial_neighborhood t) []) (q_kernel t) (sb_bg (q_base t)) (nth r out v3_0).
Proof.
  intros t qs out LQ LO. unfold vector_field. rewrite LO, Nat.eqb_refl. eexists. split; [reflexivity|].
  revert out LQ LO. generalize (q_kernel t) (sb_bg (q_base t)) (sb_samples (q_base t)) (trivial_neighborhood t). intros k P S ns. revert ns. induction qs as [|q qs IH]; intros [|n ns] [|o out] LQ LO; try discriminate; cbn [local_vectors length]; [split; [reflexivity|intros r H; cbn in H; lia]|].
  destruct (IH ns out ltac:(cbn in *; lia) ltac:(cbn in *; lia)) as [L H]. split; [rewrite L; reflexivity|]. intros [|r] R; cbn [nth]; [|apply H; cbn in R; lia]. split; [intros ->; reflexivity|reflexivity].
Qed.
Example vector_field_pointwise_ex : exists out', vector_field two_points far_over [V3 7 7 7; V3 9 9 9] = Some out' /\ nth 0 out' v3_0 = V3 7 7 7 /\ nth 1 out' v3_0 = V3 (1/2) 1 0.
Proof.
  destruct (vector_field_pointwise two_points far_over [V3 7 7 7; V3 9 9 9] eq_refl eq_refl) as (o & E & _ & H). exists o. split; [exact E|]. split; [apply (proj1 (H 0%nat ltac:(cbn; lia))); reflexivity|].
  rewrite (proj2 (H 1%nat ltac:(cbn; lia))), two_kernel. exact vector_field_flat_ex.
Qed.
(** C142, refuted: interpolating a constant vector does not return it: over tilted samples, and with a weighted background even over a flat patch when the same vector is passed in. *)
Definition low_plate : list sample := [Sample (V3 (-(3/10)) 0 0) (V3 0 0 2) (V3 1 2 3) (-(4/10)); Sample (V3 (3/10) 0 0) (V3 0 0 1) (V3 1 2 3) (-(4/10))].
Lemma low_away i : away low_plate over i = away wedge over i.
Proof. destruct i as [|[|i]]; reflexivity. Qed.
Theorem vector_field_refuted :
  (forall i, In i [0; 1]%nat -> s_vel (smp wedge i) = V3 0 0 1) /\ local_vector_at over wedge [0; 1]%nat (Cubic 1) plain (V3 0 0 1) = V3 0 0 (881 * 41 / 62500) /\
  flat_around low_plate [0; 1]%nat (V3 0 0 1) /\ (forall i, In i [0; 1]%nat -> s_vel (smp low_plate i) = V3 1 2 3 /\ gap low_plate over i = 1/2) /\
  local_vector_at over low_plate [0; 1]%nat (Cubic 1) (BgParams FInput true) (V3 1 2 3) = v3_scale (52/54) (V3 1 2 3).
Proof.
  split; [intros i [<-|[<-|[]]]; reflexivity|]. split.
  { destruct vector_field_scaled_ex as (ms & g & E & _ & H). destruct wedge_map as (ms' & E' & C). rewrite E in E'. injection E' as <-. assert (X : local_vector_at over wedge [0; 1]%nat (Cubic 1) plain (V3 0 0 1) = local_vector_at over wedge [0; 1]%nat (Cubic 1) plain (V3 9 9 9)).
    { unfold local_vector_at. reflexivity. } rewrite X, H, C. apply v3_eq; cbv [wedge_turn m3_mulv v3_dot v3_add v3_scale r0 r1 r2 vx vy vz]; field. }
  assert (DIR : forall i, In i [0; 1]%nat -> direction (smp low_plate i) = V3 0 0 1) by (intros i I; rewrite <- (plate_direction i I); destruct I as [<-|[<-|[]]]; reflexivity).
  assert (GAP : forall i, In i [0; 1]%nat -> gap low_plate over i = 1/2) by (intros i I; unfold gap; rewrite low_away; destruct wedge_gap as [A B]; destruct I as [<-|[<-|[]]]; assumption).
  assert (KW : forall c i, In i [0; 1]%nat -> kernel_at (Cubic 1) low_plate over c i = 1/2) by (intros c i I; rewrite <- (wedge_weight c i I); unfold kernel_at, gap; rewrite low_away; reflexivity).
  split. { split; [cbv [v3_dot vx vy vz]; ring|]. intros i j I J. split; [|split; [apply DIR, I|]].
    - destruct I as [<-|[<-|[]]]; unfold smp, low_plate; cbn [nth s_nml]; intros H; apply (f_equal vz) in H; cbn in H; lra.
    - destruct I as [<-|[<-|[]]], J as [<-|[<-|[]]]; (split; [cbv [smp low_plate nth s_pos v3_sub v3_dot vx vy vz]; ring|reflexivity]). }
  split; [intros i I; split; [destruct I as [<-|[<-|[]]]; reflexivity|exact (GAP i I)]|].
  destruct (closest_some over low_plate [0; 1]%nat) as [c EC]; [discriminate|]. destruct (closest_in _ _ _ _ EC) as [IC _].
  destruct (bg_local over low_plate [0; 1]%nat (Cubic 1) (BgParams FInput true) None) as [b|] eqn:EB; [|unfold bg_local in EB; rewrite EC in EB; discriminate].
  assert (EB' := EB). unfold bg_local in EB'. rewrite EC in EB'. injection EB' as EB'. assert (BD : b_dist b = 1/2) by (rewrite <- (GAP c IC); rewrite <- EB'; reflexivity). assert (BK : b_kernel b = Cubic 1) by (rewrite <- EB'; reflexivity). assert (BW : b_weighted b = true) by (rewrite <- EB'; reflexivity).
  assert (WB : background_weight b = 1/2). { unfold background_weight. rewrite BK, BD, BW. cbn [k_radius]. destruct (Rlt_dec 1 (1/2)); [lra|]. unfold k_f, cubic_f, cubic_f_gen. cbn. destruct (Rlt_dec 1 (1 - 1/2)); [lra|field]. }
  assert (SM : b_sum b = 3/2). { transitivity (rsum (map (kernel_at (Cubic 1) low_plate over c) [0; 1]%nat) + background_weight b); [rewrite <- EB'; cbn [bg_new_impl b_sum]; reflexivity|]. rewrite WB. cbn [map]. rewrite !rsum_cons, rsum_nil, !KW by (cbn; auto). field. }
  assert (WS : weight_sum_inv b = 2/3). { unfold weight_sum_inv. rewrite SM. destruct (Req_EM_T (3/2) 0); [lra|field]. }
  assert (BJ : bg_query_jacobian b = v3_0). { assert (FV : field_value b = 0) by (unfold field_value; rewrite <- EB'; reflexivity). assert (FG : field_gradient b = v3_0) by (unfold field_gradient; rewrite <- EB'; reflexivity). unfold bg_query_jacobian. rewrite BW, FV, FG. cbv zeta. match goal with |- v3_add (v3_scale _ ?x) _ = _ => destruct x as [x1 x2 x3] end. apply v3_eq; cbv [v3_add v3_scale v3_0 vx vy vz]; ring. }
  assert (G := gradient_equal over low_plate [0; 1]%nat (Cubic 1) (BgParams FInput true) b c 0 EC EB). rewrite WS in G. cbn [map] in G. rewrite !KW, !DIR in G by (cbn; auto).
  replace (v3_scale (2/3) (vsum [v3_scale (1/2) (V3 0 0 1); v3_scale (1/2) (V3 0 0 1)])) with (V3 0 0 (2/3)) in G by (apply v3_eq; cbv [vsum fold_right v3_0 v3_add v3_scale vx vy vz]; field).
  rewrite (local_vector_form _ _ _ _ _ _ c (V3 0 0 (2/3)) b EC (G ltac:(intros i I; rewrite DIR by exact I; rewrite low_away; destruct I as [<-|[<-|[]]]; cbv [away smp wedge low_plate over nth s_pos s_value v3_sub v3_dot vx vy vz]; field) BJ (or_introl eq_refl)) EB).
  rewrite WB, WS. cbn [map]. rewrite !KW, !DIR by (cbn; auto). unfold agreement, rodrigues_rotation. replace (v3_dot (V3 0 0 1) (V3 0 0 (2/3))) with (2/3) by (cbv [v3_dot vx vy vz]; field). destruct (Req_EM_T (2/3) (-1)); [lra|].
  apply v3_eq; cbv [vsum fold_right smp low_plate nth s_vel vector_background p_type v3_cross cross_matrix m3_I m3_add m3_scale m3_mul m3_transpose m3_mulv v3_0 v3_dot v3_add v3_scale r0 r1 r2 vx vy vz]; field.
Qed.

Print Assumptions rodrigues_is_least_turn.
Print Assumptions rodrigues_of_any_gradient.
Print Assumptions rodrigues_rotation_refuted.
Print Assumptions contact_matrices_average.
Print Assumptions contact_map_bounded.
Print Assumptions contact_map_normals.
Print Assumptions contact_map_flat.
Print Assumptions contact_matrices_block_matrix.
Print Assumptions contact_matrices_written.
Print Assumptions contact_products_written.
Print Assumptions contact_product_rows_refuted.
Print Assumptions contact_product_zero_refuted.
Print Assumptions contact_map_refuted.
Print Assumptions vector_field_scaled.
Print Assumptions vector_field_flat.
Print Assumptions vector_field_pointwise.
Print Assumptions vector_field_refuted.
