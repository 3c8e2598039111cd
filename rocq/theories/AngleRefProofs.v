From Coq Require Import Reals ZArith List Arith Bool Lra Lia Psatz.
From Coquelicot Require Import Coquelicot.
From Verif Require Import Vec3 Mat3 Calc ElasticModel ElasticSpec AngleModel AngleSpec AngleProofs AngleHessProofs.
Import ListNotations.
Local Open Scope R_scope.

(** * Meaning of the angle *)
Lemma edge_angle_polar e pos faces : valid_edge e faces -> let x := corners e pos faces in let A := v3_norm (normal0 x) * v3_norm (normal1 x) in
  A * cos (edge_angle e pos faces) = v3_dot (normal0 x) (normal1 x) /\ A * sin (edge_angle e pos faces) = - (v3_norm (along x) * v3_dot (side1 x) (normal0 x)).
Proof.
  intros V x A. rewrite (edge_angle_corners e pos faces V). fold x. rewrite cos_neg, sin_neg. destruct (atan2_polar (sine x) (cosine x)) as [C S].
  rewrite polar_square, sqrt_mult in C, S by (unfold v3_dot; nra). change (sqrt (v3_dot (normal0 x) (normal0 x)) * sqrt (v3_dot (normal1 x) (normal1 x))) with A in *. split; [exact C|]. change (v3_norm (along x) * v3_dot (side1 x) (normal0 x)) with (sine x). lra.
Qed.
(** * Reference angle *)
Lemma v3_eqb_refl a : v3_eqb a a = true.
Proof. unfold v3_eqb. destruct (Req_EM_T (vx a) (vx a)); [|congruence]. destruct (Req_EM_T (vy a) (vy a)); [|congruence]. destruct (Req_EM_T (vz a) (vz a)); [|congruence]. reflexivity. Qed.
Lemma cross_norm x : v3_norm (v3_cross (normal0 x) (normal1 x)) = v3_norm (along x) * Rabs (v3_dot (side1 x) (normal0 x)).
Proof.
  unfold v3_norm. rewrite <- sqrt_Rsqr_abs, <- sqrt_mult; [|apply v3_dot_nonneg|apply Rle_0_sqr]. f_equal. unfold Rsqr, normal0, normal1. generalize (along x), (side0 x), (side1 x). intros [] [] []. unv. ring.
Qed.
Lemma triple x : v3_dot (normal1 x) (side0 x) = v3_dot (side1 x) (normal0 x).
Proof. unfold normal0, normal1. generalize (along x), (side0 x), (side1 x). intros [] [] []. unv. ring. Qed.
Lemma ref_angle_oriented e pos faces : valid_edge e faces -> face_vert1 e faces 0 = face_vert0 e faces 1 -> face_vert1 e faces 1 = face_vert0 e faces 0 ->
  ref_edge_angle e (fun f i => pos (faces f i)) = edge_angle e pos faces.
Proof.
  intros V E1 E2. rewrite (edge_angle_corners e pos faces V). destruct (valid_normals e pos faces V) as (A & B & C & D & E). set (x := corners e pos faces) in *.
  assert (O : is_oriented e faces = true). { unfold is_oriented. rewrite E1. destruct V as (_ & _ & Hne & _). apply Nat.eqb_neq in Hne. rewrite Hne. reflexivity. }
  unfold ref_edge_angle. change (area_normal (pos (faces (face_0 e) 0%nat)) (pos (faces (face_0 e) 1%nat)) (pos (faces (face_0 e) 2%nat))) with (area_normal0 e pos faces).
  assert (B' : area_normal (pos (faces (face_1 e) 0%nat)) (pos (faces (face_1 e) 1%nat)) (pos (faces (face_1 e) 2%nat)) = normal1 x). { rewrite <- B. unfold area_normal1. rewrite O. reflexivity. }
  rewrite A, B'. cbv zeta.
  assert (T : v3_sub (face_vert0 e (fun f i => pos (faces f i)) 2) (face_vert0 e (fun f i => pos (faces f i)) 0) = side0 x) by reflexivity.
  rewrite T. assert (G : (v3_eqb (face_vert0 e (fun f i => pos (faces f i)) 0) (face_vert1 e (fun f i => pos (faces f i)) 1) && v3_eqb (face_vert0 e (fun f i => pos (faces f i)) 1) (face_vert1 e (fun f i => pos (faces f i)) 0)) = true).
  { change (v3_eqb (pos (face_vert0 e faces 0)) (pos (face_vert1 e faces 1)) && v3_eqb (pos (face_vert0 e faces 1)) (pos (face_vert1 e faces 0)) = true). rewrite E1, E2, !v3_eqb_refl. reflexivity. }
  rewrite G, orb_true_r. rewrite triple, cross_norm. change (v3_dot (normal0 x) (normal1 x)) with (cosine x). unfold sine. set (w := v3_dot (side1 x) (normal0 x)). unfold signum.
  assert (NP : 0 <= v3_norm (along x)) by apply sqrt_pos. destruct (Rlt_dec w 0) as [W|W].
  - rewrite (Rabs_left w W). destruct (Req_dec (v3_norm (along x)) 0) as [Z|Z].
    + assert (al : along x = v3_0). { apply v3_dot_zero. rewrite <- norm_sq, Z. ring. } exfalso. unfold w, normal0 in W. rewrite al in W. revert W. generalize (side0 x), (side1 x). intros [] []. unv. lra.
    + assert (P : 0 < v3_norm (along x) * - w) by (apply Rmult_lt_0_compat; lra). rewrite (atan2_up _ _ P). assert (P' : v3_norm (along x) * w < 0) by lra. rewrite (atan2_down _ _ P').
      replace (cosine x / (v3_norm (along x) * w)) with (- (cosine x / (v3_norm (along x) * - w))) by (field; lra). rewrite atan_opp. ring.
  - rewrite Rabs_right by lra. ring.
Qed.
(** * Balance of the gradient *)
Lemma angle_gradient_balance e pos faces : valid_edge e faces -> let g := edge_angle_gradient e pos faces in let x := corners e pos faces in
  v3_add (v3_add (v3_add (t0 g) (t1 g)) (t2 g)) (t3 g) = v3_0 /\
  v3_add (v3_add (v3_add (v3_cross (t0 x) (t0 g)) (v3_cross (t1 x) (t1 g))) (v3_cross (t2 x) (t2 g))) (v3_cross (t3 x) (t3 g)) = v3_0.
Proof.
  intros V g x. assert (ZB : g = zero_tet \/ nondegenerate x).
  { destruct (valid_normals e pos faces V) as (A & B & _). fold x in A, B. unfold g, edge_angle_gradient. rewrite A, B. cbv zeta. destruct (Req_EM_T (v3_dot (normal0 x) (normal0 x)) 0) as [Z|Z]; [left; reflexivity|]. destruct (Req_EM_T (v3_dot (normal1 x) (normal1 x)) 0) as [Z'|Z']; [left; reflexivity|].
    right. split; intros F; [apply Z; rewrite F|apply Z'; rewrite F]; unv; ring. }
  destruct ZB as [->|N].
  - cbn [t0 t1 t2 t3 zero_tet]. split; [unv; f_equal; ring|]. generalize (t0 x), (t1 x), (t2 x), (t3 x). intros [] [] [] []. unv. f_equal; ring.
  - unfold g. rewrite (gradient_corners e pos faces V N). fold x. destruct (nondegenerate_pos x N) as (P0 & P1 & P). pose proof (len_pos x N) as HL. pose proof (len_sq x) as SQ. clearbody x. unfold angle_gradient. cbv zeta. cbn [t0 t1 t2 t3]. split.
    + generalize (normal0 x), (normal1 x). intros n0 n1. unfold v3_add, v3_scale, v3_0. cbn [vx vy vz]. f_equal; ring.
    + destruct x as [x0 x1 x2 x3]. unfold normal0, normal1 in *. cbn [t0 t1 t2 t3] in *. unfold along, side0, side1 in *. cbn [t0 t1 t2 t3] in *.
      set (u := v3_sub x1 x0) in *. set (v := v3_sub x2 x0) in *. set (w := v3_sub x3 x0) in *.
      assert (X1 : x1 = v3_add x0 u) by (unfold u; destruct x0, x1; unv; f_equal; ring). assert (X2 : x2 = v3_add x0 v) by (unfold v; destruct x0, x2; unv; f_equal; ring). assert (X3 : x3 = v3_add x0 w) by (unfold w; destruct x0, x3; unv; f_equal; ring).
      rewrite X1, X2, X3. clearbody u v w. clear X1 X2 X3. set (L := v3_norm u) in *. assert (PL : L <> 0) by lra. set (q0 := v3_dot (v3_cross u v) (v3_cross u v)) in *. set (q1 := v3_dot (v3_cross w u) (v3_cross w u)) in *.
      assert (Q0 : q0 = L * L * v3_dot v v - v3_dot u v * v3_dot u v) by (rewrite SQ; unfold q0; destruct u, v; unv; ring).
      assert (Q1 : q1 = L * L * v3_dot w w - v3_dot u w * v3_dot u w) by (rewrite SQ; unfold q1; destruct u, w; unv; ring).
      (* forces on the two faces *)
      assert (F0 : v3_add (v3_cross u (v3_scale (v3_dot v (v3_scale (/ L) u)) (per_area (v3_cross u v)))) (v3_cross v (v3_scale (- L) (per_area (v3_cross u v)))) = v3_scale (- / L) u).
      { unfold per_area. fold q0. transitivity (v3_scale (/ q0) (v3_add (v3_scale (v3_dot u v / L) (v3_sub (v3_scale (v3_dot u v) u) (v3_scale (v3_dot u u) v))) (v3_scale (- L) (v3_sub (v3_scale (v3_dot v v) u) (v3_scale (v3_dot u v) v))))).
        - clear SQ Q0. clearbody L q0. destruct u, v. unv. f_equal; field; split; lra.
        - rewrite <- SQ. transitivity (v3_scale (- / q0 / L * (L * L * v3_dot v v - v3_dot u v * v3_dot u v)) u); [|rewrite <- Q0; clear SQ Q0; clearbody q0 L; unfold v3_scale; f_equal; field; split; lra].
          generalize (v3_dot u v), (v3_dot v v). intros a b. clear SQ Q0. clearbody L q0. destruct u, v. unv. f_equal; field; split; lra. }
      assert (F1 : v3_add (v3_cross u (v3_scale (v3_dot w (v3_scale (/ L) u)) (per_area (v3_cross w u)))) (v3_cross w (v3_scale (- L) (per_area (v3_cross w u)))) = v3_scale (/ L) u).
      { unfold per_area. fold q1. transitivity (v3_scale (- / q1) (v3_add (v3_scale (v3_dot u w / L) (v3_sub (v3_scale (v3_dot u w) u) (v3_scale (v3_dot u u) w))) (v3_scale (- L) (v3_sub (v3_scale (v3_dot w w) u) (v3_scale (v3_dot u w) w))))).
        - clear SQ Q1. clearbody L q1. destruct u, w. unv. f_equal; field; split; lra.
        - rewrite <- SQ. transitivity (v3_scale (/ q1 / L * (L * L * v3_dot w w - v3_dot u w * v3_dot u w)) u); [|rewrite <- Q1; clear SQ Q1; clearbody q1 L; unfold v3_scale; f_equal; field; split; lra].
          generalize (v3_dot u w), (v3_dot w w). intros a b. clear SQ Q1. clearbody L q1. destruct u, w. unv. f_equal; field; split; lra. }
      change (v3_scale (/ q0) (v3_cross u v)) with (per_area (v3_cross u v)). change (v3_scale (/ q1) (v3_cross w u)) with (per_area (v3_cross w u)).
      set (a0 := per_area (v3_cross u v)) in *. set (a1 := per_area (v3_cross w u)) in *. set (b0 := v3_dot v (v3_scale (/ L) u)) in *. set (b1 := v3_dot w (v3_scale (/ L) u)) in *.
      transitivity (v3_add (v3_add (v3_cross u (v3_scale b0 a0)) (v3_cross v (v3_scale (- L) a0))) (v3_add (v3_cross u (v3_scale b1 a1)) (v3_cross w (v3_scale (- L) a1)))).
      * clearbody a0 a1 b0 b1. clear. clearbody L. destruct u, v, w, x0, a0, a1. unv. f_equal; ring.
      * rewrite F0, F1. clear. clearbody L. destruct u. unv. f_equal; ring.
Qed.
