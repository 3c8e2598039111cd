(** Lemmas for the contact Jacobian. *)
From Coq Require Import Reals List Lra Lia Psatz Bool.
From Verif Require Import Vec3 Mat3 RList KernelModel KernelSpec KernelProofs ElasticSpec FieldModel FieldSpec FieldProofs FieldDerivProofs NeighborModel NeighborSpec NeighborProofs
  SurfJacModel SurfJacProofs ContactMapModel ContactMapSpec.
Import ListNotations.
Local Open Scope R_scope.

Lemma m3_ext A B : r0 A = r0 B -> r1 A = r1 B -> r2 A = r2 B -> A = B.
Proof. destruct A, B; cbn. intros -> -> ->. reflexivity. Qed.
Ltac mat := apply m3_ext; apply v3_eq; cbv [m3_mul m3_transpose m3_add m3_scale m3_I m3_mulv v3_add v3_scale v3_dot v3_cross m3_det cross_matrix v3_0 r0 r1 r2 vx vy vz].
Definition turn (u : v3) (s : R) : m3 := m3_add (m3_add m3_I (cross_matrix u)) (m3_scale s (m3_mul (cross_matrix u) (cross_matrix u))).
Lemma turn_orthogonal u s : s * (2 - s * v3_dot u u) = 1 -> m3_mul (turn u s) (m3_transpose (turn u s)) = m3_I.
Proof.
  intros H. destruct u as [a b c]. unfold v3_dot in H; cbn [vx vy vz] in H. unfold turn, cross_matrix. set (e := s * (2 - s * (a * a + b * b + c * c)) - 1) in *. assert (E : e = 0) by (unfold e; lra).
  mat.
  - transitivity (1 - e * (b * b + c * c)); [unfold e; ring|rewrite E; ring].
  - transitivity (e * (a * b)); [unfold e; ring|rewrite E; ring].
  - transitivity (e * (a * c)); [unfold e; ring|rewrite E; ring].
  - transitivity (e * (a * b)); [unfold e; ring|rewrite E; ring].
  - transitivity (1 - e * (a * a + c * c)); [unfold e; ring|rewrite E; ring].
  - transitivity (e * (b * c)); [unfold e; ring|rewrite E; ring].
  - transitivity (e * (a * c)); [unfold e; ring|rewrite E; ring].
  - transitivity (e * (b * c)); [unfold e; ring|rewrite E; ring].
  - transitivity (1 - e * (a * a + b * b)); [unfold e; ring|rewrite E; ring].
Qed.
Lemma turn_det u s : m3_det (turn u s) = 1 - v3_dot u u * (s * (2 - s * v3_dot u u) - 1).
Proof.
  destruct u as [a b c]. cbv [turn cross_matrix m3_det m3_mul m3_mulv m3_transpose m3_add m3_scale m3_I v3_dot v3_cross v3_add v3_scale r0 r1 r2 vx vy vz]. ring.
Qed.
Lemma turn_apply u s x : m3_mulv (turn u s) x = v3_add (v3_add x (v3_cross u x)) (v3_scale s (v3_cross u (v3_cross u x))).
Proof.
  destruct u as [a b c], x as [p q r]. apply v3_eq; cbv [turn cross_matrix m3_mul m3_mulv m3_transpose m3_add m3_scale m3_I v3_dot v3_cross v3_add v3_scale r0 r1 r2 vx vy vz]; ring.
Qed.
Lemma cross_sq n g : v3_dot (v3_cross n g) (v3_cross n g) = v3_dot n n * v3_dot g g - v3_dot n g * v3_dot n g.
Proof. destruct n, g. unfold v3_dot, v3_cross. cbn. ring. Qed.
Lemma cross_back n g : v3_cross (v3_cross n g) n = v3_sub (v3_scale (v3_dot n n) g) (v3_scale (v3_dot n g) n).
Proof. destruct n, g. unfold v3_dot, v3_cross, v3_sub, v3_scale. apply v3_eq; cbn; ring. Qed.
Lemma cross_back2 n g : v3_cross (v3_cross n g) (v3_cross (v3_cross n g) n) = v3_scale (v3_dot n g * v3_dot n g - v3_dot n n * v3_dot g g) n.
Proof. destruct n, g. unfold v3_dot, v3_cross, v3_scale. apply v3_eq; cbn; ring. Qed.
Lemma rodrigues_turn u c : c <> -1 -> rodrigues_rotation (cross_matrix u) c = turn u (1 / (1 + c)).
Proof. intros H. unfold rodrigues_rotation. destruct (Req_EM_T c (-1)); [contradiction|reflexivity]. Qed.
Lemma rodrigues_least n g : v3_dot n n = 1 -> v3_dot g g = 1 -> v3_dot n g <> -1 ->
  least_turn n g (rodrigues_rotation (cross_matrix (v3_cross n g)) (v3_dot n g)).
Proof.
  intros N G C. rewrite (rodrigues_turn _ _ C). assert (D : 1 + v3_dot n g <> 0) by lra.
  assert (K : 1 / (1 + v3_dot n g) * (2 - 1 / (1 + v3_dot n g) * v3_dot (v3_cross n g) (v3_cross n g)) = 1) by (rewrite cross_sq, N, G; field; exact D).
  split; [split|split].
  - apply turn_orthogonal, K.
  - rewrite turn_det, K. ring.
  - rewrite turn_apply, cross_back2, cross_back, N, G. apply v3_eq; unfold v3_add, v3_sub, v3_scale; cbn [vx vy vz]; field; exact D.
  - intros x XN XG. rewrite turn_apply.
    assert (Z : v3_cross (v3_cross n g) x = v3_0).
    { transitivity (v3_sub (v3_scale (v3_dot x n) g) (v3_scale (v3_dot x g) n)).
      - destruct n, g, x. unfold v3_dot, v3_cross, v3_sub, v3_scale. apply v3_eq; cbn; ring.
      - rewrite XN, XG. apply v3_eq; unfold v3_sub, v3_scale, v3_0; cbn [vx vy vz]; ring. }
    rewrite Z. apply v3_eq; unfold v3_add, v3_scale, v3_cross, v3_0; cbn [vx vy vz]; ring.
Qed.
Lemma rodrigues_normal n g : v3_dot n n = 1 -> v3_dot n g <> -1 ->
  m3_mulv (rodrigues_rotation (cross_matrix (v3_cross n g)) (v3_dot n g)) n = v3_add g (v3_scale ((1 - v3_dot g g) / (1 + v3_dot n g)) n).
Proof.
  intros N C. rewrite (rodrigues_turn _ _ C), turn_apply, cross_back2, cross_back, N. apply v3_eq; unfold v3_add, v3_sub, v3_scale; cbn [vx vy vz]; field; lra.
Qed.
Lemma rodrigues_same n : v3_dot n n = 1 -> rodrigues_rotation (cross_matrix (v3_cross n n)) (v3_dot n n) = m3_I.
Proof.
  intros N. rewrite rodrigues_turn by lra. assert (Z : v3_cross n n = v3_0) by (destruct n; unfold v3_cross, v3_0; apply v3_eq; cbn; ring). rewrite Z. unfold turn, cross_matrix, v3_0. mat; ring.
Qed.

(** Weights. *)
Lemma unit_direction s : unit_of (s_nml s) = direction s.
Proof. unfold unit_of, direction. apply v3_eq; unfold v3_scale; cbn [vx vy vz]; unfold Rdiv; ring. Qed.
Lemma direction_unit s : s_nml s <> v3_0 -> v3_dot (direction s) (direction s) = 1.
Proof.
  intros H. assert (P := v3_norm_pos _ H). unfold direction. rewrite dot_scale_l, dot_comm, dot_scale_l. rewrite <- v3_norm_sq. field. lra.
Qed.
Lemma weight_kernel k S q c i : s_weight k (gap S q c) q (smp S i) = kernel_at k S q c i.
Proof. unfold s_weight, kernel_at, k_eval, with_closest, gap, away. destruct k; reflexivity. Qed.
Lemma agree n g : normal_kernel n g = agreement n g.
Proof. unfold normal_kernel, agreement. cbv zeta. field. Qed.
Lemma setup_spec q S view k P : match contact_setup q S view k P with
  | None => view = []
  | Some (g, wsi, d, bj) => exists c b, closest_sample q S view = Some c /\ bg_local q S view k P None = Some b /\ query_jacobian_at q S view None k P = Some g /\
      d = gap S q c /\ b_dist b = gap S q c /\ bj = bg_query_jacobian b /\
      wsi = let W := rsum (map (fun i => kernel_at k S q c i * agreement (direction (smp S i)) g) view) in if Rlt_dec 0 W then 1 / W else 0
  end.
Proof.
  unfold contact_setup. unfold query_jacobian_at, bg_new, bg_local. destruct (closest_sample q S view) as [c|] eqn:E.
  - exists c. eexists. split; [reflexivity|]. split; [reflexivity|]. split; [reflexivity|]. split; [reflexivity|]. split; [reflexivity|]. split; [reflexivity|].
    unfold weight_nml_sum_inv. cbv zeta. match goal with |- (if Rlt_dec 0 (rsum ?a) then _ else _) = (if Rlt_dec 0 (rsum ?b) then _ else _) => assert (EQ : a = b) end.
    { apply map_ext. intros i. rewrite agree, unit_direction, <- weight_kernel. reflexivity. }
    rewrite EQ. reflexivity.
  - destruct view; [reflexivity|discriminate].
Qed.
Lemma contact_total q S view k P : contact_jacobian_at q S view k P = None <-> view = [].
Proof.
  unfold contact_jacobian_at. assert (H := setup_spec q S view k P). destruct (contact_setup q S view k P) as [[[[g w] d] bj]|]; cbn [option_map].
  - destruct H as (c & b & E & _). split; [discriminate|]. intros ->. discriminate.
  - split; auto.
Qed.
Lemma kernel_weight_nonneg k S q view c i : valid_kernel k -> (forall i, In i view -> away S q i <> v3_0) -> In c view -> In i view -> 0 <= kernel_at k S q c i.
Proof.
  intros V A Ic Ii. unfold kernel_at. apply kernel_nonneg; [|apply v3_norm_pos, A, Ii].
  assert (0 < gap S q c) by apply v3_norm_pos, A, Ic. destruct k; try exact V. cbn in *. tauto.
Qed.
Lemma kernel_weight_pos k S q view c i : valid_kernel k -> (forall i, In i view -> away S q i <> v3_0) -> In c view -> In i view ->
  match support k with None => True | Some r => gap S q i < r end -> 0 < kernel_at k S q c i.
Proof.
  intros V A Ic Ii H. unfold kernel_at. assert (0 < gap S q c) by apply v3_norm_pos, A, Ic.
  apply kernel_pos; [destruct k; try exact V; cbn in *; tauto|apply v3_norm_pos, A, Ii|]. rewrite k_radius_support. destruct k; exact H.
Qed.
Lemma agreement_nonneg n g : 0 <= agreement n g.
Proof. exact (Rle_0_sqr ((1 + v3_dot n g) / 2)). Qed.
Lemma mulv_scale s A v : m3_mulv (m3_scale s A) v = v3_scale s (m3_mulv A v).
Proof. destruct A as [[a b c] [d e f] [g h i]], v as [x y z]. apply v3_eq; cbv [m3_mulv m3_scale v3_scale v3_dot r0 r1 r2 vx vy vz]; ring. Qed.
Lemma mulv_I v : m3_mulv m3_I v = v.
Proof. destruct v as [x y z]. apply v3_eq; cbv [m3_mulv m3_I v3_dot r0 r1 r2 vx vy vz]; ring. Qed.
Lemma contact_form q S view k P ms bj : contact_jacobian_at q S view k P = Some (ms, bj) ->
  exists c g b, closest_sample q S view = Some c /\ query_jacobian_at q S view None k P = Some g /\ bg_local q S view k P None = Some b /\ b_dist b = gap S q c /\ bj = bg_query_jacobian b /\
    let W := rsum (map (fun i => kernel_at k S q c i * agreement (direction (smp S i)) g) view) in
    ms = map (fun i => m3_scale (kernel_at k S q c i * agreement (direction (smp S i)) g * (if Rlt_dec 0 W then 1 / W else 0))
      (rodrigues_rotation (cross_matrix (v3_cross (direction (smp S i)) g)) (v3_dot (direction (smp S i)) g))) view.
Proof.
  unfold contact_jacobian_at. assert (H := setup_spec q S view k P). destruct (contact_setup q S view k P) as [[[[g w] d] bj']|]; cbn [option_map]; [|discriminate].
  destruct H as (c & b & E & B & G & D & DB & BJ & WS). intros X. injection X as <- <-. exists c, g, b. do 5 (split; [assumption|]). cbv zeta in *. rewrite <- WS.
  apply map_ext. intros i. unfold sample_contact_jacobian_at. cbv zeta. rewrite unit_direction, agree, D, weight_kernel. reflexivity.
Qed.
Lemma carried_map {A} (f : A -> m3) v view : carried (map f view) (map v view) = vsum (map (fun i => m3_mulv (f i) (v i)) view).
Proof. unfold carried. f_equal. induction view as [|i l IH]; [reflexivity|]. cbn [map combine fst snd]. rewrite IH. reflexivity. Qed.
Lemma rsum_zero_each {A} (f : A -> R) l : (forall i, In i l -> 0 <= f i) -> rsum (map f l) <= 0 -> forall i, In i l -> f i = 0.
Proof.
  intros P. induction l as [|a l IH]; intros H i I; [destruct I|]. cbn [map] in H. rewrite rsum_cons in H.
  assert (0 <= rsum (map f l)) by (apply rsum_nonneg; intros x X; apply in_map_iff in X; destruct X as (y & <- & Y); apply P; right; exact Y).
  assert (0 <= f a) by (apply P; left; reflexivity). destruct I as [<-|I]; [lra|]. apply IH; [intros; apply P; right; assumption|lra|exact I].
Qed.
Lemma vsum_cons a l : vsum (a :: l) = v3_add a (vsum l).
Proof. reflexivity. Qed.
Lemma vsum_norm {A} (f : A -> v3) (m : A -> R) l : (forall i, In i l -> v3_norm (f i) <= m i) -> v3_norm (vsum (map f l)) <= rsum (map m l).
Proof.
  induction l as [|a l IH]; intros H; cbn [map].
  - rewrite rsum_nil. unfold v3_norm, v3_dot. cbn. rewrite !Rmult_0_l, !Rplus_0_l, sqrt_0. lra.
  - rewrite rsum_cons, vsum_cons. eapply Rle_trans; [apply norm_add|]. apply Rplus_le_compat; [apply H; left; reflexivity|apply IH; intros; apply H; right; assumption].
Qed.
Ltac vec := apply v3_eq; cbn [vsum fold_right]; unfold v3_add, v3_sub, v3_scale, v3_0; cbn [vx vy vz]; ring.
Lemma vsum_scale {A} s (f : A -> v3) l : vsum (map (fun i => v3_scale s (f i)) l) = v3_scale s (vsum (map f l)).
Proof. induction l as [|a l IH]; cbn [map]; [vec|]. rewrite !vsum_cons, IH. vec. Qed.
Lemma vsum_weights {A} (f : A -> R) v l : vsum (map (fun i => v3_scale (f i) v) l) = v3_scale (rsum (map f l)) v.
Proof. induction l as [|a l IH]; cbn [map]; [rewrite rsum_nil; vec|]. rewrite !vsum_cons, rsum_cons, IH. vec. Qed.
Lemma vsum_ext {A} (f g : A -> v3) l : (forall i, In i l -> f i = g i) -> vsum (map f l) = vsum (map g l).
Proof. intros H. f_equal. apply map_ext_in, H. Qed.
Lemma vsum_plus {A} (f g : A -> v3) l : vsum (map (fun i => v3_add (f i) (g i)) l) = v3_add (vsum (map f l)) (vsum (map g l)).
Proof. induction l as [|a l IH]; cbn [map]; [vec|]. rewrite !vsum_cons, IH. vec. Qed.
Lemma vsum_app l m : vsum (l ++ m) = v3_add (vsum l) (vsum m).
Proof. induction l as [|a l IH]; cbn [app]; [vec|]. rewrite !vsum_cons, IH. vec. Qed.

(** When all planes through the samples give the same value, the gradient is the mean of the directions. *)
Lemma gradient_equal q S view k P b c psi : closest_sample q S view = Some c -> bg_local q S view k P None = Some b ->
  (forall i, In i view -> s_value (smp S i) + v3_dot (direction (smp S i)) (away S q i) = psi) -> bg_query_jacobian b = v3_0 ->
  psi = 0 \/ (background_weight_gradient b None = v3_0 /\ weight_sum_inv b * rsum (map (kernel_at k S q c) view) = 1) ->
  query_jacobian_at q S view None k P = Some (v3_scale (weight_sum_inv b) (vsum (map (fun i => v3_scale (kernel_at k S q c i) (direction (smp S i))) view))).
Proof.
  intros EC EB PS BJ OR. unfold query_jacobian_at, bg_new. rewrite EB. f_equal. rewrite BJ.
  assert (BD : b_dist b = gap S q c) by (unfold bg_local in EB; rewrite EC in EB; injection EB as <-; reflexivity).
  assert (BQ : b_q b = q /\ b_all b = S /\ b_view b = view /\ b_kernel b = k) by (unfold bg_local in EB; rewrite EC in EB; injection EB as <-; auto).
  destruct BQ as (BQ & BA & BV & BK).
  assert (DOT : forall a d, (forall u, v3_dot a u = v3_dot d u) -> a = d).
  { intros a d H. generalize (H (V3 1 0 0)), (H (V3 0 1 0)), (H (V3 0 0 1)). unfold v3_dot. cbn [vx vy vz]. intros. apply v3_eq; lra. }
  apply DOT. intros u. rewrite dot_add_l, dot_0_l, dot_scale_l, !dot_vsum. rewrite Rplus_0_r.
  set (wsi := weight_sum_inv b). set (dn := neighbor_weight_gradient b).
  rewrite (rsum_ext _ (fun i => wsi * (psi * (v3_dot (s_weight_grad k (gap S q c) q (smp S i)) u - kernel_at k S q c i * v3_dot dn u) + kernel_at k S q c i * v3_dot (direction (smp S i)) u))).
  2:{ intros i I. unfold sample_query_jacobian_at. cbv zeta. rewrite dot_scale_l, dot_add_l, !dot_scale_l, dot_sub_l, dot_scale_l, unit_direction. fold (away S q i). rewrite (PS i I), BD, weight_kernel. fold wsi. ring. }
  rewrite rsum_scale. f_equal. rewrite rsum_plus, rsum_scale.
  rewrite (rsum_ext (fun i => v3_dot (v3_scale _ _) u) (fun i => kernel_at k S q c i * v3_dot (direction (smp S i)) u)) by (intros; apply dot_scale_l).
  destruct OR as [->|[Z ONE]]; [ring|].
  enough (X : rsum (map (fun i => v3_dot (s_weight_grad k (gap S q c) q (smp S i)) u - kernel_at k S q c i * v3_dot dn u) view) = 0) by (rewrite X; ring).
  rewrite (rsum_ext _ (fun i => v3_dot (s_weight_grad k (gap S q c) q (smp S i)) u + (- v3_dot dn u) * kernel_at k S q c i)) by (intros; ring).
  rewrite rsum_plus, rsum_scale. unfold dn, neighbor_weight_gradient. rewrite Z, BD, BQ, BA, BV, BK, dot_scale_l, dot_add_l, dot_0_l, dot_vsum. fold wsi in ONE |- *.
  match goal with |- ?a + - (wsi * (?a + 0)) * ?s = 0 => replace (a + - (wsi * (a + 0)) * s) with (a * (1 - wsi * s)) by ring end. rewrite ONE. ring.
Qed.
Lemma unweighted_inside q S view k P b c : closest_sample q S view = Some c -> bg_local q S view k P None = Some b -> p_weighted P = false ->
  match support k with None => True | Some r => gap S q c <= r end -> background_weight b = 0 /\ background_weight_gradient b None = v3_0 /\ bg_query_jacobian b = v3_0 /\
  weight_sum_inv b = (if Req_EM_T (rsum (map (kernel_at k S q c) view)) 0 then 0 else 1 / rsum (map (kernel_at k S q c) view)).
Proof.
  intros EC EB PW IN. unfold bg_local in EB. rewrite EC in EB. injection EB as EB.
  assert (BD : b_dist b = gap S q c) by (rewrite <- EB; reflexivity). assert (BK : b_kernel b = k) by (rewrite <- EB; reflexivity). assert (BW : b_weighted b = false) by (rewrite <- EB; exact PW).
  assert (Z : background_weight b = 0). { unfold background_weight. rewrite BD, BK, BW, k_radius_support. destruct (support k) as [r|]; [|reflexivity]. destruct (Rlt_dec r (gap S q c)); [lra|reflexivity]. }
  assert (GZ : background_weight_gradient b None = v3_0). { unfold background_weight_gradient. rewrite BD, BK, BW, k_radius_support. destruct (support k) as [r|]; [|reflexivity]. destruct (Rlt_dec r (gap S q c)); reflexivity. }
  split; [exact Z|]. split; [exact GZ|]. split.
  - unfold bg_query_jacobian. rewrite BW, Z. cbv zeta. vec.
  - unfold weight_sum_inv. assert (SU : b_sum b = rsum (map (kernel_at k S q c) view)).
    { transitivity (rsum (map (fun i => s_weight k (gap S q c) q (smp S i)) view) + background_weight b); [rewrite <- EB; reflexivity|]. rewrite Z, Rplus_0_r. apply f_equal, map_ext. intros i. apply weight_kernel. }
    rewrite SU. reflexivity.
Qed.
Lemma nearest_inside q S view k c : closest_sample q S view = Some c -> (exists i, In i view /\ match support k with None => True | Some r => gap S q i < r end) ->
  match support k with None => True | Some r => gap S q c < r end.
Proof.
  intros EC (i & I & H). destruct (support k) as [r|]; [|exact Logic.I]. destruct (closest_in _ _ _ _ EC) as [_ M]. eapply Rle_lt_trans; [apply dist2_norm, M, I|exact H].
Qed.
Lemma total_positive q S view k c : valid_kernel k -> closest_sample q S view = Some c -> (forall i, In i view -> away S q i <> v3_0) ->
  (exists i, In i view /\ match support k with None => True | Some r => gap S q i < r end) -> 0 < rsum (map (kernel_at k S q c) view).
Proof.
  intros VK EC A IN. destruct (closest_in _ _ _ _ EC) as [IC _]. apply (rsum_pos _ _ c IC).
  - intros i I. exact (kernel_weight_nonneg k S q view c i VK A IC I).
  - exact (kernel_weight_pos k S q view c c VK A IC IC (nearest_inside _ _ _ _ _ EC IN)).
Qed.
(** A common value of the planes, no background: the gradient is the mean of the directions. *)
Lemma gradient_mean q S view k P psi : valid_kernel k -> view <> [] -> (forall i, In i view -> away S q i <> v3_0) -> p_weighted P = false ->
  (exists i, In i view /\ match support k with None => True | Some r => gap S q i < r end) ->
  (forall i, In i view -> s_value (smp S i) + v3_dot (direction (smp S i)) (away S q i) = psi) ->
  exists c b, closest_sample q S view = Some c /\ bg_local q S view k P None = Some b /\ bg_query_jacobian b = v3_0 /\ background_weight b = 0 /\ weight_sum_inv b = 1 / rsum (map (kernel_at k S q c) view) /\
    0 < rsum (map (kernel_at k S q c) view) /\ query_jacobian_at q S view None k P = Some (mean_of (kernel_at k S q c) (fun i => direction (smp S i)) view).
Proof.
  intros VK NE A PW IN PS. destruct (closest_some q S view NE) as [c EC]. assert (NI := nearest_inside _ _ _ _ _ EC IN). assert (T := total_positive _ _ _ _ _ VK EC A IN).
  assert (EB : bg_local q S view k P None = Some (bg_new_impl q S view (Local c) k P None)) by (unfold bg_local; rewrite EC; reflexivity).
  exists c. eexists. split; [exact EC|]. split; [exact EB|]. destruct (unweighted_inside _ _ _ _ _ _ _ EC EB PW) as (Z & GZ & BJ & WS); [destruct (support k); [lra|exact Logic.I]|].
  destruct (Req_EM_T (rsum (map (kernel_at k S q c) view)) 0) as [X|_]; [lra|].
  do 3 (split; [assumption|]). split; [exact T|]. rewrite (gradient_equal _ _ _ _ _ _ _ psi EC EB PS BJ).
  - unfold mean_of. rewrite WS. do 2 f_equal. unfold Rdiv. ring.
  - right. split; [exact GZ|]. rewrite WS. field. lra.
Qed.
Lemma mean_const w v view : 0 < rsum (map w view) -> mean_of w (fun _ => v) view = v.
Proof. intros H. unfold mean_of. rewrite (vsum_weights w v view). apply v3_eq; unfold v3_scale; cbn [vx vy vz]; field; lra. Qed.
Lemma flat_values S view n q : flat_around S view n -> exists psi, forall i, In i view -> s_value (smp S i) + v3_dot (direction (smp S i)) (away S q i) = psi.
Proof.
  intros [N F]. destruct view as [|j view]; [exists 0; intros i []|]. exists (s_value (smp S j) + v3_dot n (away S q j)). intros i I. destruct (F i j I (or_introl eq_refl)) as (_ & D & P & V). rewrite D, V. f_equal.
  unfold away. rewrite dot_sub_r in P. rewrite !dot_sub_r. lra.
Qed.

(** ** Rows *)
Lemma contact_map_form q S view k P : view <> [] -> exists f bj, contact_jacobian_at q S view k P = Some (map f view, bj) /\
  (forall mult, (forall i, In i view -> (i < length mult)%nat) -> vertex_contact_product_at q S view mult k P = Some (v3_add (vsum (map (fun i => m3_mulv (f i) (nth i mult v3_0)) view)) bj)) /\
  (forall mult topo, (forall i, In i view -> (i < length topo)%nat /\ forall v, In v (tri_verts (nth i topo (0, 0, 0)%nat)) -> (v < length mult)%nat) ->
     face_contact_product_at q S view mult k P topo = Some (v3_add (vsum (map (fun i => m3_mulv (f i) (let '(a, b, c) := nth i topo (0, 0, 0)%nat in
       v3_scale (1 / 3) (v3_add (nth a mult v3_0) (v3_add (nth b mult v3_0) (nth c mult v3_0))))) view)) bj)).
Proof.
  intros NE. assert (H := setup_spec q S view k P). unfold contact_jacobian_at, vertex_contact_product_at, face_contact_product_at. destruct (contact_setup q S view k P) as [[[[g w] d] bj]|]; [|contradiction].
  exists (fun i => sample_contact_jacobian_at q (smp S i) k g w d), bj. cbn [option_map]. split; [reflexivity|]. split.
  - intros mult L. assert (E : all_some (map (fun i => option_map (sample_contact_jacobian_product_at q (smp S i) k g w d) (nth_error mult i)) view) =
      Some (map (fun i => m3_mulv (sample_contact_jacobian_at q (smp S i) k g w d) (nth i mult v3_0)) view)); [|rewrite E; reflexivity].
    clear H NE. induction view as [|i l IH]; [reflexivity|]. cbn [map all_some]. rewrite (nth_error_nth' mult v3_0) by (apply L; left; reflexivity). cbn [option_map]. rewrite IH by (intros j J; apply L; right; exact J). reflexivity.
  - intros mult topo L. match goal with |- option_map _ ?a = Some (v3_add (vsum ?b) _) => assert (E : a = Some b); [|rewrite E; reflexivity] end.
    clear H NE. induction view as [|i l IH]; [reflexivity|]. cbn [map all_some]. destruct (L i (or_introl eq_refl)) as [LT LV]. unfold mean_multiplier at 1. rewrite (nth_error_nth' topo (0, 0, 0)%nat) by exact LT. revert LV. match goal with |- context [nth i topo ?d] => generalize (nth i topo d) end. intros [[a b] c] LV. cbn [tri_verts map all_some].
    rewrite !(nth_error_nth' mult v3_0) by (apply LV; cbn; auto). cbn [option_map]. rewrite IH by (intros j J; apply L; right; exact J). do 2 f_equal.
    unfold sample_contact_jacobian_product_at. f_equal. f_equal. rewrite !vsum_cons. vec.
Qed.
Lemma mulv_third A x y z : v3_add (m3_mulv (m3_scale (1 / 3) A) x) (v3_add (m3_mulv (m3_scale (1 / 3) A) y) (m3_mulv (m3_scale (1 / 3) A) z)) = m3_mulv A (v3_scale (1 / 3) (v3_add x (v3_add y z))).
Proof. destruct A as [[a b c] [d e f] [g h i]], x as [x1 x2 x3], y as [y1 y2 y3], z as [z1 z2 z3]. apply v3_eq; cbv [m3_mulv m3_scale v3_add v3_scale v3_dot r0 r1 r2 vx vy vz]; ring. Qed.
Definition times (x : nat -> v3) (e : nat * nat * m3) : v3 := m3_mulv (snd e) (x (snd (fst e))).
Lemma contact_row_form t row q nbrs : well_formed (q_base t) -> nbrs <> [] -> (forall i, In i nbrs -> (i < length (sb_samples (q_base t)))%nat) ->
  exists f bj m cols, contact_jacobian_at q (sb_samples (q_base t)) nbrs (q_kernel t) (sb_bg (q_base t)) = Some (map f nbrs, bj) /\ contact_row t row q nbrs = Some m /\
    all_some (map (columns (q_base t)) nbrs) = Some cols /\ map fst m = map (pair row) (concat cols) /\
    forall x, vsum (map (times x) m) = vsum (map (fun i => m3_mulv (f i) (sample_vector (q_base t) x i)) nbrs).
Proof.
  intros [WT WF] NE LEN. destruct (contact_map_form q (sb_samples (q_base t)) nbrs (q_kernel t) (sb_bg (q_base t)) NE) as (f & bj & E & _). exists f, bj. unfold contact_row. rewrite E. clear E NE.
  assert (G : exists ls cols, all_some (map (fun mj : m3 * nat => match sb_type (q_base t) with SVertex => Some [(row, snd mj, fst mj)]
      | SFace => option_map (fun tr => map (fun col => (row, col, m3_scale (1 / 3) (fst mj))) (tri_verts tr)) (nth_error (sb_topo (q_base t)) (snd mj)) end) (combine (map f nbrs) nbrs)) = Some ls /\
    all_some (map (columns (q_base t)) nbrs) = Some cols /\ map fst (concat ls) = map (pair row) (concat cols) /\
    forall x, vsum (map (times x) (concat ls)) = vsum (map (fun i => m3_mulv (f i) (sample_vector (q_base t) x i)) nbrs)).
  { induction nbrs as [|i nbrs IH]; [exists [], []; cbn; auto|]. destruct IH as (ls & cols & E1 & E2 & E3 & E4); [intros j J; apply LEN; right; exact J|]. cbn [map combine all_some fst snd]. rewrite E1, E2. unfold columns, sample_vector in *.
    pose proof (LEN i (or_introl eq_refl)) as LI. destruct (sb_type (q_base t)).
    - exists ([(row, i, f i)] :: ls), ([i] :: cols). split; [reflexivity|]. split; [reflexivity|]. cbn [concat app map fst]. split; [rewrite E3; reflexivity|]. intros x. rewrite !vsum_cons, E4. reflexivity.
    - rewrite WF in LI. rewrite (nth_error_nth' _ (0, 0, 0)%nat) by exact LI. cbn [option_map]. eexists _, _. split; [reflexivity|]. split; [reflexivity|]. cbn [concat]. rewrite !map_app, E3. split.
      + f_equal. rewrite map_map. reflexivity.
      + intros x. rewrite map_app, vsum_app, E4, vsum_cons. f_equal. rewrite map_map. unfold times. cbn [fst snd].
        change (@nth triangle i) with (@nth (nat * nat * nat) i). generalize (@nth (nat * nat * nat) i (sb_topo (q_base t)) (0, 0, 0)%nat). intros [[a b] c]. cbn [tri_verts map]. rewrite !vsum_cons, <- mulv_third. vec. }
  destruct G as (ls & cols & E1 & E2 & E3 & E4). exists (concat ls), cols. split; [reflexivity|]. rewrite E1. split; [reflexivity|]. auto.
Qed.
Lemma block_app x y X r : block_product (x ++ y) X r = v3_add (block_product x X r) (block_product y X r).
Proof. unfold block_product. rewrite map_app, vsum_app. reflexivity. Qed.
Lemma block_other m X r : (forall e, In e m -> fst (fst e) <> r) -> block_product m X r = v3_0.
Proof. intros H. unfold block_product. apply vsum_zero. intros [[row col] B] I. destruct (Nat.eqb_spec row r) as [->|]; [|reflexivity]. exfalso. exact (H _ I eq_refl). Qed.
Lemma block_own m X r : (forall e, In e m -> fst (fst e) = r) -> block_product m X r = vsum (map (times X) m).
Proof. intros H. unfold block_product. apply vsum_ext. intros [[row col] B] I. specialize (H _ I). cbn [fst] in H. subst. rewrite Nat.eqb_refl. reflexivity. Qed.
Lemma block_rows {A} (f : nat * A -> option (list (nat * nat * m3))) X r : forall l ls,
  (forall p m, f p = Some m -> forall e, In e m -> fst (fst e) = fst p) -> NoDup (map fst l) -> all_some (map f l) = Some ls ->
  (~ In r (map fst l) -> block_product (concat ls) X r = v3_0) /\ (forall a m, In (r, a) l -> f (r, a) = Some m -> block_product (concat ls) X r = vsum (map (times X) m)).
Proof.
  intros l ls LAB. revert ls. induction l as [|p l IH]; intros ls ND E; cbn [map all_some] in *.
  - injection E as <-. split; [reflexivity|intros a m []].
  - inversion ND as [|? ? N1 N2]; subst. destruct (f p) as [m|] eqn:F; [|discriminate]. destruct (all_some (map f l)) as [ls'|] eqn:ES; [|discriminate]. injection E as <-. destruct (IH ls' N2 eq_refl) as [I1 I2]. cbn [concat]. rewrite block_app. split.
    + intros N. rewrite I1 by (intros I; apply N; right; exact I). rewrite block_other; [vec|]. intros e I X'. apply N. left. rewrite <- (LAB p m F e I). exact X'.
    + intros a m' [->|I] F'.
      * rewrite F' in F. injection F as <-. rewrite I1 by exact N1. rewrite block_own by (intros e I; exact (LAB _ _ F' e I)). vec.
      * rewrite (I2 a m' I F'). rewrite block_other; [vec|]. intros e I' X'. apply N1. rewrite <- (LAB p m F e I'), X'. apply (in_map fst) in I. exact I.
Qed.
Lemma contact_row_label t row q nbrs m : contact_row t row q nbrs = Some m -> forall e, In e m -> fst (fst e) = row.
Proof.
  unfold contact_row. destruct (contact_jacobian_at _ _ _ _ _) as [[ms bj]|]; [|discriminate]. generalize (combine ms nbrs). intros l. revert m. induction l as [|p l IH]; intros m E e I; cbn [map all_some option_map] in E.
  - injection E as <-. destruct I.
  - match type of E with context [match ?x with Some _ => _ | None => None end] => destruct x as [b|] eqn:EB; [|discriminate] end. destruct (all_some _) as [ls|] in IH, E; [|discriminate]. injection E as <-. cbn [concat] in I. apply in_app_iff in I. destruct I as [I|I]; [|exact (IH _ eq_refl e I)].
    destruct (sb_type (q_base t)); [injection EB as <-; destruct I as [<-|[]]; reflexivity|]. destruct (nth_error _ _); [|discriminate]. injection EB as <-. apply in_map_iff in I. destruct I as (c & <- & _). reflexivity.
Qed.
Lemma filter_positions {A} (p : A -> bool) (d : A) l : filter p l = map (fun r => nth r l d) (filter (fun r => p (nth r l d)) (seq 0 (length l))).
Proof.
  induction l as [|a l IH]; [reflexivity|]. cbn [length seq filter].
  assert (F : forall m, map (fun r => nth r (a :: l) d) (filter (fun r => p (nth r (a :: l) d)) (map S m)) = map (fun r => nth r l d) (filter (fun r => p (nth r l d)) m)).
  { induction m as [|x m IHm]; [reflexivity|]. cbn [map filter nth] in *. destruct (p (nth x l d)); cbn [map nth]; rewrite IHm; reflexivity. }
  rewrite <- seq_shift. change (nth 0 (a :: l) d) with a. rewrite IH. destruct (p a); cbn [map]; rewrite F; reflexivity.
Qed.
Lemma all_some_each {A B} (f : A -> option B) (h : A -> B) l : (forall a, In a l -> f a = Some (h a)) -> all_some (map f l) = Some (map h l).
Proof. induction l as [|a l IH]; intros H; [reflexivity|]. cbn [map all_some]. rewrite H by (left; reflexivity). rewrite IH by (intros b I; apply H; right; exact I). reflexivity. Qed.
Lemma nth_firstn_lt {A} (d : A) : forall n l j, (j < n)%nat -> nth j (firstn n l) d = nth j l d.
Proof. induction n as [|n IH]; intros [|a l] [|j] L; try lia; cbn; try reflexivity. apply IH. lia. Qed.
Lemma local_vector_form q S view k P v c g b : closest_sample q S view = Some c -> query_jacobian_at q S view None k P = Some g -> bg_local q S view k P None = Some b ->
  local_vector_at q S view k P v = v3_add (v3_scale (background_weight b) (vector_background P v)) (vsum (map (fun i => v3_scale (kernel_at k S q c i * agreement (direction (smp S i)) g * weight_sum_inv b)
    (m3_mulv (rodrigues_rotation (cross_matrix (v3_cross (direction (smp S i)) g)) (v3_dot (direction (smp S i)) g)) (s_vel (smp S i)))) view)).
Proof.
  intros EC EG EB. unfold local_vector_at. rewrite EB, EG. f_equal. apply vsum_ext. intros i I. unfold sample_contact_jacobian_product_at, sample_contact_jacobian_at. cbv zeta.
  rewrite mulv_scale, unit_direction, agree. assert (D : b_dist b = gap S q c) by (unfold bg_local in EB; rewrite EC in EB; injection EB as <-; reflexivity). rewrite D, weight_kernel. reflexivity.
Qed.
