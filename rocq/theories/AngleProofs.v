From Coq Require Import Reals ZArith List Arith Bool Lra Lia Psatz.
From Coquelicot Require Import Coquelicot.
From Verif Require Import Vec3 Mat3 Calc ElasticModel ElasticSpec AngleModel AngleSpec.
Import ListNotations.
Local Open Scope R_scope.

(** * atan2 *)
Lemma atan_inv_neg x : x < 0 -> atan (/ x) = - (PI / 2) - atan x.
Proof. intros H. replace (/ x) with (- / (- x)) by (field; lra). rewrite atan_opp, atan_inv by lra. rewrite atan_opp. ring. Qed.
Lemma atan2_up y x : 0 < y -> atan2 y x = PI / 2 - atan (x / y).
Proof.
  intros Hy. unfold atan2. destruct (Rlt_dec 0 x) as [H|H].
  - replace (y / x) with (/ (x / y)) by (field; lra). apply atan_inv. apply Rdiv_lt_0_compat; lra.
  - destruct (Rlt_dec x 0) as [H1|H1].
    + destruct (Rle_dec 0 y); [|lra]. replace (y / x) with (/ (x / y)) by (field; lra). rewrite atan_inv_neg; [lra|].
      apply Ropp_lt_cancel. rewrite Ropp_0. replace (- (x / y)) with ((- x) / y) by (field; lra). apply Rdiv_lt_0_compat; lra.
    + destruct (Rlt_dec 0 y); [|lra]. replace x with 0 by lra. replace (0 / y) with 0 by (field; lra). rewrite atan_0. ring.
Qed.
Lemma atan2_down y x : y < 0 -> atan2 y x = - (PI / 2) - atan (x / y).
Proof.
  intros Hy. unfold atan2. destruct (Rlt_dec 0 x) as [H|H].
  - replace (y / x) with (/ (x / y)) by (field; lra). apply atan_inv_neg.
    apply Ropp_lt_cancel. rewrite Ropp_0. replace (- (x / y)) with (x / (- y)) by (field; lra). apply Rdiv_lt_0_compat; lra.
  - destruct (Rlt_dec x 0) as [H1|H1].
    + destruct (Rle_dec 0 y); [lra|]. replace (y / x) with (/ (x / y)) by (field; lra). rewrite atan_inv; [lra|].
      replace (x / y) with ((- x) / (- y)) by (field; lra). apply Rdiv_lt_0_compat; lra.
    + destruct (Rlt_dec 0 y); [lra|]. destruct (Rlt_dec y 0); [|lra]. replace x with 0 by lra. replace (0 / y) with 0 by (field; lra). rewrite atan_0. ring.
Qed.
Lemma atan2_right y x : 0 < x -> atan2 y x = atan (y / x).
Proof. intros H. unfold atan2. destruct (Rlt_dec 0 x); [reflexivity|lra]. Qed.
Lemma atan2_left0 x : x < 0 -> atan2 0 x = PI.
Proof. intros H. unfold atan2. destruct (Rlt_dec 0 x); [lra|]. destruct (Rlt_dec x 0); [|lra]. destruct (Rle_dec 0 0); [|lra]. unfold Rdiv. rewrite Rmult_0_l, atan_0. ring. Qed.
Lemma atan2_range y x : - PI < atan2 y x <= PI.
Proof.
  pose proof PI_RGT_0 as P. destruct (Rlt_dec 0 y) as [H|H].
  - rewrite atan2_up by exact H. pose proof (atan_bound (x / y)). lra.
  - destruct (Rlt_dec y 0) as [H1|H1]; [rewrite atan2_down by exact H1; pose proof (atan_bound (x / y)); lra|]. replace y with 0 by lra. destruct (Rlt_dec 0 x) as [H2|H2].
    + rewrite atan2_right by exact H2. pose proof (atan_bound (0 / x)). lra.
    + destruct (Rlt_dec x 0) as [H3|H3]; [rewrite atan2_left0 by exact H3; lra|]. unfold atan2. destruct (Rlt_dec 0 x); [lra|]. destruct (Rlt_dec x 0); [lra|]. destruct (Rlt_dec 0 0); [lra|]. lra.
Qed.
Lemma atan2_open y x : y <> 0 \/ 0 < x -> - PI < atan2 y x < PI.
Proof.
  intros Hc. pose proof PI_RGT_0 as P. destruct (Rlt_dec 0 y) as [H|H]; [rewrite atan2_up by exact H; pose proof (atan_bound (x / y)); lra|].
  destruct (Rlt_dec y 0) as [H1|H1]; [rewrite atan2_down by exact H1; pose proof (atan_bound (x / y)); lra|]. rewrite atan2_right by lra. pose proof (atan_bound (y / x)). lra.
Qed.
(** Sine and cosine of the angle. *)
Lemma cos_atan_mul u : cos (atan u) * sqrt (1 + u * u) = 1.
Proof.
  assert (B := atan_bound u). assert (C : 0 < cos (atan u)) by (apply cos_gt_0; lra). assert (T : sin (atan u) = u * cos (atan u)).
  { rewrite <- (tan_atan u) at 2. unfold tan. field. lra. }
  pose proof (sin2_cos2 (atan u)) as S. unfold Rsqr in S. rewrite T in S. assert (E : (cos (atan u))² * (1 + u * u) = 1) by (unfold Rsqr; nra).
  assert (Q : 0 < sqrt (1 + u * u)) by (apply sqrt_lt_R0; nra). assert (Q2 : sqrt (1 + u * u) * sqrt (1 + u * u) = 1 + u * u) by (apply sqrt_sqrt; nra).
  apply Rsqr_inj; [apply Rmult_le_pos; lra|lra|]. unfold Rsqr in *. rewrite <- Q2 in E. nra.
Qed.
Lemma sin_atan_mul u : sin (atan u) * sqrt (1 + u * u) = u.
Proof.
  assert (B := atan_bound u). assert (C : 0 < cos (atan u)) by (apply cos_gt_0; lra). assert (T : sin (atan u) = u * cos (atan u)).
  { rewrite <- (tan_atan u) at 2. unfold tan. field. lra. }
  rewrite T. rewrite Rmult_assoc, cos_atan_mul. ring.
Qed.
Lemma sqrt_quot a b : 0 < b -> b * sqrt (1 + a / b * (a / b)) = sqrt (b * b + a * a).
Proof.
  intros H. replace (b * b + a * a) with (b * b * (1 + a / b * (a / b))) by (field; lra). rewrite sqrt_mult_alt by nra. rewrite sqrt_square by lra. reflexivity.
Qed.
Lemma atan2_polar y x : sqrt (x * x + y * y) * cos (atan2 y x) = x /\ sqrt (x * x + y * y) * sin (atan2 y x) = y.
Proof.
  destruct (Rlt_dec 0 y) as [H|H].
  - rewrite atan2_up by exact H. rewrite cos_shift, sin_shift. replace (x * x + y * y) with (y * y + x * x) by ring. rewrite <- (sqrt_quot x y) by exact H. split.
    + rewrite Rmult_assoc, (Rmult_comm _ (sin _)), sin_atan_mul. field. lra.
    + rewrite Rmult_assoc, (Rmult_comm _ (cos _)), cos_atan_mul. ring.
  - destruct (Rlt_dec y 0) as [H1|H1].
    + rewrite atan2_down by exact H1. replace (- (PI / 2) - atan (x / y)) with (- (PI / 2 - atan (- (x / y)))) by (rewrite atan_opp; ring). rewrite cos_neg, sin_neg, cos_shift, sin_shift.
      replace (- (x / y)) with (x / (- y)) by (field; lra). replace (x * x + y * y) with ((- y) * (- y) + x * x) by ring. rewrite <- (sqrt_quot x (- y)) by lra. split.
      * rewrite Rmult_assoc, (Rmult_comm _ (sin _)), sin_atan_mul. field. lra.
      * rewrite <- Ropp_mult_distr_r, Rmult_assoc, (Rmult_comm _ (cos _)), cos_atan_mul. ring.
    + replace y with 0 by lra. destruct (Rlt_dec 0 x) as [H2|H2].
      * rewrite atan2_right by exact H2. replace (0 / x) with 0 by (field; lra). rewrite atan_0, cos_0, sin_0. replace (x * x + 0 * 0) with (x * x) by ring. rewrite sqrt_square by lra. lra.
      * destruct (Rlt_dec x 0) as [H3|H3].
        -- rewrite atan2_left0 by exact H3. rewrite cos_PI, sin_PI. replace (x * x + 0 * 0) with ((- x) * (- x)) by ring. rewrite sqrt_square by lra. lra.
        -- replace x with 0 by lra. replace (0 * 0 + 0 * 0) with 0 by ring. rewrite sqrt_0. lra.
Qed.
(** The derivative away from the branch cut. *)
Lemma cont_pos (f : R -> R) (l : R) : is_derive f 0 l -> 0 < f 0 -> locally 0 (fun s : R => 0 < f s).
Proof.
  intros D H. assert (C : continuous f 0) by (apply (@ex_derive_continuous R_AbsRing R_NormedModule); exists l; exact D).
  apply (C (fun z : R => 0 < z)). exists (mkposreal (f 0) H). intros z Hz. cbv [ball] in Hz. simpl in Hz. cbv [AbsRing_ball abs minus plus opp] in Hz. simpl in Hz. apply Rabs_def2 in Hz. lra.
Qed.
Lemma derive_val0 (f : R -> R) (x a b : R) : is_derive f x a -> a = b -> is_derive f x b.
Proof. intros H <-. exact H. Qed.
Lemma derive_atan2 (y x : R -> R) (dy dx : R) : is_derive y 0 dy -> is_derive x 0 dx -> y 0 <> 0 \/ 0 < x 0 ->
  is_derive (fun s => atan2 (y s) (x s)) 0 ((dy * x 0 - dx * y 0) / (x 0 * x 0 + y 0 * y 0)).
Proof.
  intros Dy Dx Hc. assert (Xy : ex_derive (fun s : R => y s) 0) by (eexists; exact Dy). assert (Xx : ex_derive (fun s : R => x s) 0) by (eexists; exact Dx).
  pose proof (is_derive_unique (fun s : R => y s) 0 _ Dy) as Uy. pose proof (is_derive_unique (fun s : R => x s) 0 _ Dx) as Ux.
  destruct (Rlt_dec 0 (y 0)) as [H|H].
  - apply is_derive_ext_loc with (fun s => PI / 2 - atan (x s / y s)).
    + generalize (cont_pos y dy Dy H). apply filter_imp. intros s Hs. symmetry. apply atan2_up. exact Hs.
    + assert (N : y 0 <> 0) by lra. auto_derive; [repeat split; try exact Xx; try exact Xy; exact N|]. rewrite Ux, Uy. field. split; nra.
  - destruct (Rlt_dec (y 0) 0) as [H1|H1].
    + apply is_derive_ext_loc with (fun s => - (PI / 2) - atan (x s / y s)).
      * assert (L : locally 0 (fun s => 0 < (fun s => - y s) s)) by (apply (cont_pos (fun s => - y s) (- dy)); [auto_derive; [exact Xy|rewrite Uy; ring]|lra]).
        revert L. apply filter_imp. intros s Hs. symmetry. apply atan2_down. cbv beta in Hs. lra.
      * assert (N : y 0 <> 0) by lra. auto_derive; [repeat split; try exact Xx; try exact Xy; exact N|]. rewrite Ux, Uy. field. split; nra.
    + assert (H2 : 0 < x 0) by lra. apply is_derive_ext_loc with (fun s => atan (y s / x s)).
      * generalize (cont_pos x dx Dx H2). apply filter_imp. intros s Hs. symmetry. apply atan2_right. exact Hs.
      * assert (N : x 0 <> 0) by lra. auto_derive; [repeat split; try exact Xx; try exact Xy; exact N|]. rewrite Ux, Uy. field. split; nra.
Qed.
(** * Angles modulo full turns *)
Lemma same_angle_refl a : same_angle a a. Proof. exists 0%Z. ring. Qed.
Lemma same_angle_sym a b : same_angle a b -> same_angle b a. Proof. intros [k ->]. exists (- k)%Z. rewrite opp_IZR. ring. Qed.
Lemma same_angle_trans a b c : same_angle a b -> same_angle b c -> same_angle a c. Proof. intros [k ->] [l ->]. exists (k + l)%Z. rewrite plus_IZR. ring. Qed.
Lemma same_angle_close a b : same_angle a b -> - (2 * PI) < a - b < 2 * PI -> a = b.
Proof.
  intros [k ->] H. pose proof PI_RGT_0 as P. assert (K : -1 < IZR k < 1) by (split; nra). assert (E : k = 0%Z) by (destruct K as [K1 K2]; apply lt_IZR in K1; apply lt_IZR in K2; lia). rewrite E. ring.
Qed.
Lemma frem_bounds a b : 0 < b -> - b < frem a b < b /\ (0 <= a -> 0 <= frem a b) /\ (a <= 0 -> frem a b <= 0).
Proof.
  intros Hb. unfold frem, trunc. set (u := a / b). assert (Ea : a = b * u) by (unfold u; field; lra). rewrite Ea. clearbody u. destruct (Rle_dec 0 u) as [H|H].
  - pose proof (base_Int_part u) as [B1 B2]. split; [split; nra|]. split; [nra|]. intros Z. assert (u = 0) by nra. subst u. assert (I0 : Int_part 0 = 0%Z). { apply Z.le_antisymm; [apply le_IZR; lra|]. apply Z.lt_pred_le, lt_IZR. simpl. lra. } rewrite I0. lra.
  - pose proof (base_Int_part (- u)) as [B1 B2]. rewrite opp_IZR. split; [split; nra|]. split; [nra|]. intros _. nra.
Qed.
Lemma frem_same a : same_angle (frem a (2 * PI)) a.
Proof. exists (- trunc (a / (2 * PI)))%Z. unfold frem. rewrite opp_IZR. ring. Qed.
Lemma project_spec a : same_angle (project_angle a) a /\ - PI <= project_angle a < PI.
Proof.
  pose proof PI_RGT_0 as P. destruct (frem_bounds (a + PI) (2 * PI) ltac:(lra)) as ((B1 & B2) & B3 & B4). destruct (frem_same (a + PI)) as [k K]. unfold project_angle. destruct (Rlt_dec (frem (a + PI) (2 * PI) - PI) (- PI)) as [H|H].
  - split; [|lra]. exists (k + 1)%Z. rewrite plus_IZR, K. ring.
  - split; [|lra]. exists k. rewrite K. ring.
Qed.
Lemma edge_angle_range e pos faces : - PI <= edge_angle e pos faces < PI.
Proof. unfold edge_angle. match goal with |- context [atan2 ?y ?x] => pose proof (atan2_range y x) end. lra. Qed.
Lemma incremental_spec e r pos faces : same_angle (incremental_angle e r pos faces) (edge_angle e pos faces) /\ - PI <= incremental_angle e r pos faces - r <= PI.
Proof.
  pose proof PI_RGT_0 as P. pose proof (edge_angle_range e pos faces) as E. destruct (project_spec r) as [[k K] B]. unfold incremental_angle. set (p := project_angle r) in *. set (t := edge_angle e pos faces) in *.
  destruct (Rlt_dec (t - p) (- PI)) as [H|H]; [|destruct (Rlt_dec PI (t - p)) as [H1|H1]].
  - split; [exists (- k + 1)%Z; rewrite plus_IZR, opp_IZR; lra|lra].
  - split; [exists (- k + -1)%Z; rewrite plus_IZR, opp_IZR; lra|lra].
  - split; [exists (- k)%Z; rewrite opp_IZR; lra|lra].
Qed.
(** * Geometry of a valid edge *)
Lemma valid_normals e pos faces : valid_edge e faces ->
  area_normal0 e pos faces = normal0 (corners e pos faces) /\ area_normal1 e pos faces = normal1 (corners e pos faces) /\
  edge_vector e pos faces = along (corners e pos faces) /\ face0_tangent e pos faces = side0 (corners e pos faces) /\ face1_tangent e pos faces = side1 (corners e pos faces).
Proof.
  intros (S0 & S1 & Hne & HS). split; [|split; [|split; [reflexivity|split; [|reflexivity]]]].
  - unfold area_normal0, normal0, along, side0, corners, edge_vert, face_vert0, area_normal. cbn [t0 t1 t2 t3]. destruct (start_0 e) as [|[|[|k]]]; [| | |lia]; cbn [Nat.add]; cbv [Nat.modulo Nat.divmod Nat.sub fst snd];
      destruct (pos (faces (face_0 e) 0%nat)), (pos (faces (face_0 e) 1%nat)), (pos (faces (face_0 e) 2%nat)); unfold v3_cross, v3_sub; cbn; f_equal; ring.
  - unfold area_normal1, is_oriented. unfold normal1, along, side1, corners, edge_vert. cbn [t0 t1 t2 t3].
    assert (G : (face_vert1 e faces 0 = face_vert0 e faces 1 /\ face_vert1 e faces 1 = face_vert0 e faces 0 /\ Nat.eqb (face_vert0 e faces 0) (face_vert1 e faces 0) = false) \/
                (face_vert1 e faces 0 = face_vert0 e faces 0 /\ face_vert1 e faces 1 = face_vert0 e faces 1 /\ Nat.eqb (face_vert0 e faces 0) (face_vert1 e faces 0) = true)).
    { destruct HS as [[A B]|[A B]]; [left|right]; (split; [exact A|split; [exact B|]]); rewrite A; [apply Nat.eqb_neq; exact Hne|apply Nat.eqb_refl]. }
    destruct G as [(A & B & C)|(A & B & C)]; rewrite C; cbn [negb]; rewrite <- A, <- B; unfold face_vert1, area_normal;
      (destruct (start_1 e) as [|[|[|k]]]; [| | |lia]); cbn [Nat.add]; cbv [Nat.modulo Nat.divmod Nat.sub fst snd];
      destruct (pos (faces (face_1 e) 0%nat)), (pos (faces (face_1 e) 1%nat)), (pos (faces (face_1 e) 2%nat)); unfold v3_cross, v3_sub; cbn; f_equal; ring.
  - unfold face0_tangent, side0, corners, edge_vert. cbn [t0 t1 t2 t3]. unfold face_vert0 at 3. rewrite Nat.add_0_r, Nat.mod_small by exact S0. reflexivity.
Qed.
Definition sine (x : tet) : R := v3_norm (along x) * v3_dot (side1 x) (normal0 x).
Definition cosine (x : tet) : R := v3_dot (normal0 x) (normal1 x).
Lemma edge_angle_corners e pos faces : valid_edge e faces -> edge_angle e pos faces = - atan2 (sine (corners e pos faces)) (cosine (corners e pos faces)).
Proof. intros H. destruct (valid_normals e pos faces H) as (A & B & C & D & E). unfold edge_angle. rewrite A, B, C, E. reflexivity. Qed.
Lemma v3_dot_nonneg a : 0 <= v3_dot a a. Proof. unfold v3_dot. nra. Qed.
Lemma v3_dot_zero a : v3_dot a a = 0 -> a = v3_0.
Proof. destruct a as [x y z]. unfold v3_dot, v3_0. cbn. intros H. assert (x = 0 /\ y = 0 /\ z = 0) as (-> & -> & ->) by (split; [nra|split; nra]). reflexivity. Qed.
Lemma norm_sq a : v3_norm a * v3_norm a = v3_dot a a. Proof. apply sqrt_sqrt, v3_dot_nonneg. Qed.
Lemma nondegenerate_pos x : nondegenerate x -> 0 < v3_dot (normal0 x) (normal0 x) /\ 0 < v3_dot (normal1 x) (normal1 x) /\ 0 < v3_dot (along x) (along x).
Proof.
  intros [A B]. assert (P : forall a, a <> v3_0 -> 0 < v3_dot a a). { intros a Ha. destruct (v3_dot_nonneg a) as [H|H]; [exact H|]. exfalso. apply Ha, v3_dot_zero. symmetry. exact H. }
  split; [apply P, A|]. split; [apply P, B|]. apply P. intros Z. apply A. unfold normal0. rewrite Z. unfold v3_cross, v3_0. cbn. f_equal; ring.
Qed.
Lemma polar_square x : cosine x * cosine x + sine x * sine x = v3_dot (normal0 x) (normal0 x) * v3_dot (normal1 x) (normal1 x).
Proof.
  unfold sine. replace (v3_norm (along x) * v3_dot (side1 x) (normal0 x) * (v3_norm (along x) * v3_dot (side1 x) (normal0 x))) with (v3_norm (along x) * v3_norm (along x) * (v3_dot (side1 x) (normal0 x) * v3_dot (side1 x) (normal0 x))) by ring.
  rewrite norm_sq. unfold cosine, normal0, normal1. destruct (along x), (side0 x), (side1 x). unfold v3_dot, v3_cross. cbn. ring.
Qed.
(** Gradient with respect to the four corners. *)
Definition angle_gradient (x : tet) : tet :=
  let an0nn := v3_scale (/ v3_dot (normal0 x) (normal0 x)) (normal0 x) in
  let an1nn := v3_scale (/ v3_dot (normal1 x) (normal1 x)) (normal1 x) in
  let L := v3_norm (along x) in
  let e0n := v3_scale (/ L) (along x) in
  Tet (v3_add (v3_scale (L - v3_dot (side0 x) e0n) an0nn) (v3_scale (L - v3_dot (side1 x) e0n) an1nn))
      (v3_add (v3_scale (v3_dot (side0 x) e0n) an0nn) (v3_scale (v3_dot (side1 x) e0n) an1nn)) (v3_scale (- L) an0nn) (v3_scale (- L) an1nn).
Lemma gradient_corners e pos faces : valid_edge e faces -> nondegenerate (corners e pos faces) -> edge_angle_gradient e pos faces = angle_gradient (corners e pos faces).
Proof.
  intros H N. destruct (valid_normals e pos faces H) as (A & B & C & D & E). destruct (nondegenerate_pos _ N) as (P0 & P1 & _). unfold edge_angle_gradient. rewrite A, B, C, D, E.
  destruct (Req_EM_T _ 0); [lra|]. destruct (Req_EM_T (v3_dot (normal1 _) _) 0); [lra|]. reflexivity.
Qed.
(** Derivatives of the two components. *)
Definition d_sine (x d : tet) : R :=
  v3_dot (along x) (along d) / v3_norm (along x) * v3_dot (side1 x) (normal0 x) +
  v3_norm (along x) * (v3_dot (side1 d) (normal0 x) + v3_dot (side1 x) (v3_add (v3_cross (along d) (side0 x)) (v3_cross (along x) (side0 d)))).
Definition d_cosine (x d : tet) : R :=
  v3_dot (v3_add (v3_cross (along d) (side0 x)) (v3_cross (along x) (side0 d))) (normal1 x) + v3_dot (normal0 x) (v3_add (v3_cross (side1 d) (along x)) (v3_cross (side1 x) (along d))).
Lemma along_line x d s : along (tet_line x d s) = v3_line (along x) (along d) s.
Proof. destruct x as [[] [] [] []], d as [[] [] [] []]. unfold along, tet_line, tet_add, tet_scale, v3_line, v3_add, v3_sub, v3_scale. cbn. f_equal; ring. Qed.
Lemma side0_line x d s : side0 (tet_line x d s) = v3_line (side0 x) (side0 d) s.
Proof. destruct x as [[] [] [] []], d as [[] [] [] []]. unfold side0, tet_line, tet_add, tet_scale, v3_line, v3_add, v3_sub, v3_scale. cbn. f_equal; ring. Qed.
Lemma side1_line x d s : side1 (tet_line x d s) = v3_line (side1 x) (side1 d) s.
Proof. destruct x as [[] [] [] []], d as [[] [] [] []]. unfold side1, tet_line, tet_add, tet_scale, v3_line, v3_add, v3_sub, v3_scale. cbn. f_equal; ring. Qed.
Lemma sine_derive x d : nondegenerate x -> is_derive (fun s => sine (tet_line x d s)) 0 (d_sine x d).
Proof.
  intros N. destruct (nondegenerate_pos x N) as (_ & _ & P). apply is_derive_ext with (fun s => sqrt (v3_dot (v3_line (along x) (along d) s) (v3_line (along x) (along d) s)) * v3_dot (v3_line (side1 x) (side1 d) s) (v3_cross (v3_line (along x) (along d) s) (v3_line (side0 x) (side0 d) s))).
  { intros s. unfold sine, v3_norm, normal0. rewrite along_line, side0_line, side1_line. reflexivity. }
  unfold d_sine, v3_norm, normal0. destruct (along x) as [a1 a2 a3], (along d) as [b1 b2 b3], (side0 x) as [p1 p2 p3], (side0 d) as [q1 q2 q3], (side1 x) as [u1 u2 u3], (side1 d) as [w1 w2 w3].
  unfold v3_dot, v3_cross, v3_line, v3_add, v3_scale in *. cbn [vx vy vz] in *. auto_derive.
  - replace (_ + _) with (a1 * a1 + a2 * a2 + a3 * a3) by ring. exact P.
  - rewrite !Rmult_0_l, !Rplus_0_r. field. apply Rgt_not_eq, sqrt_lt_R0. exact P.
Qed.
Lemma cosine_derive x d : is_derive (fun s => cosine (tet_line x d s)) 0 (d_cosine x d).
Proof.
  apply is_derive_ext with (fun s => v3_dot (v3_cross (v3_line (along x) (along d) s) (v3_line (side0 x) (side0 d) s)) (v3_cross (v3_line (side1 x) (side1 d) s) (v3_line (along x) (along d) s))).
  { intros s. unfold cosine, normal0, normal1. rewrite along_line, side0_line, side1_line. reflexivity. }
  unfold d_cosine, normal0, normal1. destruct (along x) as [a1 a2 a3], (along d) as [b1 b2 b3], (side0 x) as [p1 p2 p3], (side0 d) as [q1 q2 q3], (side1 x) as [u1 u2 u3], (side1 d) as [w1 w2 w3].
  unfold v3_dot, v3_cross, v3_line, v3_add, v3_scale in *. cbn [vx vy vz] in *. auto_derive; [exact I|]. ring.
Qed.
Lemma gradient_identity x d : nondegenerate x ->
  tet_dot (angle_gradient x) d = - ((d_sine x d * cosine x - d_cosine x d * sine x) / (cosine x * cosine x + sine x * sine x)).
Proof.
  intros N. destruct (nondegenerate_pos x N) as (P0 & P1 & P). rewrite polar_square. set (A0 := v3_dot (normal0 x) (normal0 x)) in *. set (A1 := v3_dot (normal1 x) (normal1 x)) in *.
  assert (PL : 0 < v3_norm (along x)) by (apply sqrt_lt_R0; exact P). pose proof (norm_sq (along x)) as SQ. set (L := v3_norm (along x)) in *.
  assert (E : tet_dot (angle_gradient x) d * (A0 * A1 * L) = A1 * (v3_dot (normal0 x) (along d) * v3_dot (side0 x) (along x) - v3_dot (along x) (along x) * v3_dot (normal0 x) (side0 d)) + A0 * (v3_dot (normal1 x) (along d) * v3_dot (side1 x) (along x) - v3_dot (along x) (along x) * v3_dot (normal1 x) (side1 d))).
  { unfold tet_dot, angle_gradient. fold A0 A1 L. cbn [t0 t1 t2 t3]. rewrite <- SQ.
    assert (D0 : forall u, v3_dot u (v3_scale (/ L) (along x)) = v3_dot u (along x) / L) by (intros u; unfold v3_dot, v3_scale; cbn; field; lra). rewrite !D0.
    assert (DL : forall s a b, v3_dot (v3_scale s a) b = s * v3_dot a b) by (intros; unfold v3_dot, v3_scale; cbn; ring). assert (DA : forall a b c, v3_dot (v3_add a b) c = v3_dot a c + v3_dot b c) by (intros; unfold v3_dot, v3_add; cbn; ring).
    assert (DS : forall a b c, v3_dot a (v3_sub b c) = v3_dot a b - v3_dot a c) by (intros; unfold v3_dot, v3_sub; cbn; ring). assert (K0 : forall a, v3_dot a (along d) = v3_dot a (t1 d) - v3_dot a (t0 d)) by (intros; apply DS).
    assert (K1 : forall a, v3_dot a (side0 d) = v3_dot a (t2 d) - v3_dot a (t0 d)) by (intros; apply DS). assert (K2 : forall a, v3_dot a (side1 d) = v3_dot a (t3 d) - v3_dot a (t0 d)) by (intros; apply DS).
    rewrite !DA, !DL, !K0, !K1, !K2. field. split; [lra|split; lra]. }
  assert (E2 : - (d_sine x d * cosine x - d_cosine x d * sine x) * L = A1 * (v3_dot (normal0 x) (along d) * v3_dot (side0 x) (along x) - v3_dot (along x) (along x) * v3_dot (normal0 x) (side0 d)) + A0 * (v3_dot (normal1 x) (along d) * v3_dot (side1 x) (along x) - v3_dot (along x) (along x) * v3_dot (normal1 x) (side1 d))).
  { unfold d_sine, sine. fold L. transitivity (- ((v3_dot (along x) (along d) * v3_dot (side1 x) (normal0 x) + L * L * (v3_dot (side1 d) (normal0 x) + v3_dot (side1 x) (v3_add (v3_cross (along d) (side0 x)) (v3_cross (along x) (side0 d))))) * cosine x - d_cosine x d * (L * L * v3_dot (side1 x) (normal0 x)))); [field; lra|].
    rewrite SQ. unfold A0, A1, cosine, d_cosine, normal0, normal1. clear. destruct (along x), (along d), (side0 x), (side0 d), (side1 x), (side1 d). unfold v3_dot, v3_cross, v3_add. cbn. ring. }
  apply Rmult_eq_reg_r with (A0 * A1 * L); [|apply Rgt_not_eq; repeat apply Rmult_lt_0_compat; lra]. rewrite E, <- E2. field. split; lra.
Qed.
Lemma folded_sine x : nondegenerate x -> ~ folded x -> sine x <> 0 \/ 0 < cosine x.
Proof.
  intros N F. destruct (nondegenerate_pos x N) as (P0 & P1 & P). destruct (Req_dec (sine x) 0) as [Z|Z]; [|left; exact Z]. right. destruct (Rlt_le_dec 0 (cosine x)) as [H|H]; [exact H|]. exfalso. apply F.
  assert (PL : 0 < v3_norm (along x)) by (apply sqrt_lt_R0; exact P). unfold sine in Z. apply Rmult_integral in Z. destruct Z as [Z|Z]; [lra|]. pose proof (polar_square x) as Q. assert (SZ : sine x = 0) by (unfold sine; rewrite Z; ring). rewrite SZ in Q.
  split; [unfold v3_dot in *; lra|]. fold (cosine x). assert (0 < v3_dot (normal0 x) (normal0 x) * v3_dot (normal1 x) (normal1 x)) by (apply Rmult_lt_0_compat; assumption). nra.
Qed.
Lemma corners_move e pos d faces s : corners e (move pos d s) faces = tet_line (corners e pos faces) (corners e d faces) s.
Proof. reflexivity. Qed.
Lemma edge_angle_derive e pos d faces : valid_edge e faces -> nondegenerate (corners e pos faces) -> ~ folded (corners e pos faces) ->
  is_derive (fun s => edge_angle e (move pos d s) faces) 0 (tet_dot (edge_angle_gradient e pos faces) (corners e d faces)).
Proof.
  intros V N F. rewrite gradient_corners by assumption. rewrite gradient_identity by exact N. apply is_derive_ext with (fun s => - atan2 (sine (tet_line (corners e pos faces) (corners e d faces) s)) (cosine (tet_line (corners e pos faces) (corners e d faces) s))).
  { intros s. rewrite edge_angle_corners by exact V. rewrite corners_move. reflexivity. }
  set (X := corners e pos faces) in *. set (D := corners e d faces). assert (Z : tet_line X D 0 = X) by (destruct X as [[] [] [] []], D as [[] [] [] []]; unfold tet_line, tet_add, tet_scale, v3_add, v3_scale; cbn; repeat f_equal; ring).
  pose proof (derive_atan2 (fun s => sine (tet_line X D s)) (fun s => cosine (tet_line X D s)) _ _ (sine_derive X D N) (cosine_derive X D)) as H. cbv beta in H. rewrite Z in H. specialize (H (folded_sine X N F)).
  apply (is_derive_opp _ _ _ H).
Qed.
(** * The tracked angle *)
Lemma sin_period_Z x k : sin (x + 2 * PI * IZR k) = sin x /\ cos (x + 2 * PI * IZR k) = cos x.
Proof.
  destruct k as [|p|p].
  - rewrite Rmult_0_r, Rplus_0_r. split; reflexivity.
  - rewrite <- (positive_nat_Z p), <- INR_IZR_INZ. replace (x + 2 * PI * INR (Pos.to_nat p)) with (x + 2 * INR (Pos.to_nat p) * PI) by ring. split; [apply sin_period|apply cos_period].
  - assert (E : IZR (Z.neg p) = - INR (Pos.to_nat p)) by (rewrite INR_IZR_INZ, positive_nat_Z, <- opp_IZR; reflexivity). rewrite E. set (z := x + 2 * PI * - INR (Pos.to_nat p)). split.
    + rewrite <- (sin_period z (Pos.to_nat p)). f_equal. unfold z. ring.
    + rewrite <- (cos_period z (Pos.to_nat p)). f_equal. unfold z. ring.
Qed.
(** An angle within a half turn is recovered from its sine and cosine. *)
Lemma atan2_unique r w : 0 < r -> - PI < w < PI -> atan2 (r * sin w) (r * cos w) = w.
Proof.
  intros Hr Hw. pose proof PI_RGT_0 as P. destruct (Rlt_dec 0 w) as [H|H].
  - assert (S : 0 < sin w) by (apply sin_gt_0; lra). rewrite atan2_up by nra. replace (r * cos w / (r * sin w)) with (tan (PI / 2 - w)) by (unfold tan; rewrite sin_shift, cos_shift; field; lra). rewrite atan_tan by lra. ring.
  - destruct (Rlt_dec w 0) as [H1|H1].
    + assert (S : sin w < 0) by (apply sin_lt_0_var; lra). rewrite atan2_down by nra. replace (r * cos w / (r * sin w)) with (tan (- (PI / 2) - w)).
      * rewrite atan_tan by lra. ring.
      * replace (- (PI / 2) - w) with (- (PI / 2 - (- w))) by ring. rewrite tan_neg. unfold tan. rewrite sin_shift, cos_shift, cos_neg, sin_neg. field. lra.
    + replace w with 0 by lra. rewrite sin_0, cos_0, Rmult_0_r, Rmult_1_r. rewrite atan2_right by exact Hr. unfold Rdiv. rewrite Rmult_0_l. apply atan_0.
Qed.
(** The increment, as a smooth function of the corners. *)
Definition inc_sine (p : R) (x : tet) : R := - sine x * cos p - cosine x * sin p.
Definition inc_cosine (p : R) (x : tet) : R := cosine x * cos p - sine x * sin p.
Lemma increment_polar e r pos faces : valid_edge e faces -> let x := corners e pos faces in let R0 := sqrt (cosine x * cosine x + sine x * sine x) in
  let w := incremental_angle e r pos faces - r in R0 * sin w = inc_sine r x /\ R0 * cos w = inc_cosine r x.
Proof.
  intros V x R0 w. destruct (incremental_spec e r pos faces) as [[k K] _]. assert (W : w = edge_angle e pos faces - r + 2 * PI * IZR k) by (unfold w; lra). rewrite W. destruct (sin_period_Z (edge_angle e pos faces - r) k) as [-> ->].
  rewrite edge_angle_corners by exact V. fold x. destruct (atan2_polar (sine x) (cosine x)) as [A B]. fold R0 in A, B. rewrite sin_minus, cos_minus, sin_neg, cos_neg. unfold inc_sine, inc_cosine. set (a := atan2 (sine x) (cosine x)) in *. clearbody a R0. rewrite <- A, <- B. split; ring.
Qed.
Lemma inc_square p x : inc_cosine p x * inc_cosine p x + inc_sine p x * inc_sine p x = cosine x * cosine x + sine x * sine x.
Proof. unfold inc_cosine, inc_sine. pose proof (sin2_cos2 p) as S. unfold Rsqr in S. replace (_ + _) with ((cosine x * cosine x + sine x * sine x) * (sin p * sin p + cos p * cos p)) by ring. rewrite S. ring. Qed.
Lemma increment_atan2 e r pos faces : valid_edge e faces -> nondegenerate (corners e pos faces) -> inc_sine r (corners e pos faces) <> 0 \/ 0 < inc_cosine r (corners e pos faces) ->
  incremental_angle e r pos faces = r + atan2 (inc_sine r (corners e pos faces)) (inc_cosine r (corners e pos faces)).
Proof.
  intros V N C. destruct (increment_polar e r pos faces V) as [A B]. set (x := corners e pos faces) in *. set (w := incremental_angle e r pos faces - r) in *. cbv zeta in A, B.
  destruct (nondegenerate_pos x N) as (P0 & P1 & P). assert (Q : 0 < cosine x * cosine x + sine x * sine x) by (rewrite polar_square; apply Rmult_lt_0_compat; assumption). apply sqrt_lt_R0 in Q. set (R0 := sqrt _) in *.
  destruct (incremental_spec e r pos faces) as [_ W]. fold w in W. assert (W2 : - PI < w < PI).
  { split.
    - destruct (Rle_lt_or_eq_dec (- PI) w (proj1 W)) as [H|H]; [exact H|]. exfalso. rewrite <- H in A, B. rewrite sin_neg, sin_PI in A. rewrite cos_neg, cos_PI in B. destruct C as [C|C]; lra.
    - destruct (Rle_lt_or_eq_dec w PI (proj2 W)) as [H|H]; [exact H|]. exfalso. rewrite H in A, B. rewrite sin_PI in A. rewrite cos_PI in B. destruct C as [C|C]; lra. }
  rewrite <- A, <- B. rewrite atan2_unique by assumption. unfold w. ring.
Qed.
Lemma locally_and_corners x d : nondegenerate x -> locally 0 (fun s => nondegenerate (tet_line x d s)).
Proof.
  intros N. destruct (nondegenerate_pos x N) as (P0 & P1 & P).
  assert (Q : 0 < cosine x * cosine x + sine x * sine x) by (rewrite polar_square; apply Rmult_lt_0_compat; assumption).
  assert (Z : tet_line x d 0 = x) by (destruct x as [[] [] [] []], d as [[] [] [] []]; unfold tet_line, tet_add, tet_scale, v3_add, v3_scale; cbn; repeat f_equal; ring).
  set (f := fun s => cosine (tet_line x d s) * cosine (tet_line x d s) + sine (tet_line x d s) * sine (tet_line x d s)).
  assert (D : exists l : R, is_derive f 0 l).
  { assert (G : forall c q : R -> R, ex_derive (fun s : R => c s) 0 -> ex_derive (fun s : R => q s) 0 -> ex_derive (fun s : R => c s * c s + q s * q s) 0) by (intros c q X Y; auto_derive; repeat split; assumption).
    exact (G (fun s => cosine (tet_line x d s)) (fun s => sine (tet_line x d s)) (ex_intro _ _ (cosine_derive x d)) (ex_intro _ _ (sine_derive x d N))). }
  destruct D as [l D]. assert (F0 : 0 < f 0) by (unfold f; rewrite Z; exact Q). generalize (cont_pos f l D F0). apply filter_imp. intros s Hs. unfold f in Hs. rewrite polar_square in Hs. split; intros E; rewrite E in Hs; unfold v3_dot, v3_0 in Hs; cbn in Hs; lra.
Qed.
Lemma tracked_derive e r pos d faces : valid_edge e faces -> nondegenerate (corners e pos faces) -> - PI < incremental_angle e r pos faces - r < PI ->
  is_derive (fun s => incremental_angle e r (move pos d s) faces) 0 (tet_dot (edge_angle_gradient e pos faces) (corners e d faces)).
Proof.
  intros V N W. rewrite gradient_corners by assumption. rewrite gradient_identity by exact N. destruct (increment_polar e r pos faces V) as [A B]. cbv zeta in A, B. set (x := corners e pos faces) in *. set (D := corners e d faces).
  destruct (nondegenerate_pos x N) as (P0 & P1 & P). assert (Q : 0 < cosine x * cosine x + sine x * sine x) by (rewrite polar_square; apply Rmult_lt_0_compat; assumption). pose proof (sqrt_lt_R0 _ Q) as QR. set (w := incremental_angle e r pos faces - r) in *.
  assert (C : inc_sine r x <> 0 \/ 0 < inc_cosine r x).
  { rewrite <- A, <- B. pose proof PI_RGT_0. destruct (Rlt_dec 0 w) as [H1|H1]; [left; apply Rgt_not_eq, Rmult_lt_0_compat; [exact QR|apply sin_gt_0; lra]|]. destruct (Rlt_dec w 0) as [H2|H2].
    - left. apply Rlt_not_eq. assert (sin w < 0) by (apply sin_lt_0_var; lra). nra.
    - right. replace w with 0 by lra. rewrite cos_0. lra. }
  assert (Z : tet_line x D 0 = x) by (destruct x as [[] [] [] []], D as [[] [] [] []]; unfold tet_line, tet_add, tet_scale, v3_add, v3_scale; cbn; repeat f_equal; ring).
  set (ys := fun s => inc_sine r (tet_line x D s)). set (xs := fun s => inc_cosine r (tet_line x D s)).
  assert (G : forall (c q : R -> R) (dc dq a b : R), is_derive c 0 dc -> is_derive q 0 dq -> is_derive (fun s : R => a * q s + b * c s) 0 (a * dq + b * dc)).
  { intros c q dc dq a b Hc Hq. assert (X : ex_derive (fun s : R => c s) 0) by (exists dc; exact Hc). assert (Y : ex_derive (fun s : R => q s) 0) by (exists dq; exact Hq). auto_derive; [repeat split; assumption|]. rewrite (is_derive_unique (fun s : R => c s) 0 _ Hc), (is_derive_unique (fun s : R => q s) 0 _ Hq). ring. }
  assert (Dy : is_derive ys 0 (- d_sine x D * cos r - d_cosine x D * sin r)).
  { apply is_derive_ext with (fun s => - cos r * sine (tet_line x D s) + - sin r * cosine (tet_line x D s)); [intros s; unfold ys, inc_sine; ringR|]. eapply derive_val0; [apply (G (fun s => cosine (tet_line x D s)) (fun s => sine (tet_line x D s))); [apply cosine_derive|apply (sine_derive x D N)]|]. ring. }
  assert (Dx : is_derive xs 0 (d_cosine x D * cos r - d_sine x D * sin r)).
  { apply is_derive_ext with (fun s => - sin r * sine (tet_line x D s) + cos r * cosine (tet_line x D s)); [intros s; unfold xs, inc_cosine; ringR|]. eapply derive_val0; [apply (G (fun s => cosine (tet_line x D s)) (fun s => sine (tet_line x D s))); [apply cosine_derive|apply (sine_derive x D N)]|]. ring. }
  assert (C0 : ys 0 <> 0 \/ 0 < xs 0) by (unfold ys, xs; rewrite Z; exact C).
  apply is_derive_ext_loc with (fun s => r + atan2 (ys s) (xs s)).
  - assert (L1 : locally 0 (fun s => ys s <> 0 \/ 0 < xs s)).
    { destruct (Rlt_dec 0 (ys 0)) as [H1|H1]; [generalize (cont_pos ys _ Dy H1); apply filter_imp; intros s Hs; left; lra|]. destruct (Rlt_dec (ys 0) 0) as [H2|H2].
      - assert (Dn : is_derive (fun s => - ys s) 0 (- (- d_sine x D * cos r - d_cosine x D * sin r))) by (apply (is_derive_opp _ _ _ Dy)). generalize (cont_pos _ _ Dn ltac:(cbv beta; lra)). apply filter_imp. intros s Hs. left. lra.
      - generalize (cont_pos xs _ Dx ltac:(lra)). apply filter_imp. intros s Hs. right. exact Hs. }
    generalize (filter_and _ _ L1 (locally_and_corners x D N)). apply filter_imp. intros s [H1 H2]. symmetry. apply (increment_atan2 e r (move pos d s) faces V); rewrite corners_move; [exact H2|exact H1].
  - pose proof (derive_atan2 ys xs _ _ Dy Dx C0) as H. apply (is_derive_plus (fun _ => r) _ 0 0 _ (is_derive_const r 0)) in H. eapply derive_val0; [exact H|]. unfold ys, xs. rewrite Z, inc_square. unfold inc_sine, inc_cosine.
    unfold plus. simpl. rewrite Rplus_0_l. unfold Rdiv. rewrite Ropp_mult_distr_l. f_equal. pose proof (sin2_cos2 r) as S2. unfold Rsqr in S2.
    transitivity (- (d_sine x D * cosine x - d_cosine x D * sine x) * (sin r * sin r + cos r * cos r)); [ring|]. rewrite S2. ring.
Qed.
