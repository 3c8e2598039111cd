(** Proofs about the mixed second derivatives, in the query point and the vertices of the surface. *)
From Coq Require Import Reals List Bool Lra Lia Psatz FunctionalExtensionality.
From Coquelicot Require Import Coquelicot.
From Verif Require Import Vec3 Mat3 RList Calc KernelModel KernelSpec KernelProofs FieldModel FieldSpec FieldProofs FieldDerivProofs
  NeighborModel NeighborSpec NeighborProofs UpdateProps SurfJacModel SurfJacSpec SurfJacProofs ContactMapProofs HessModel HessSpec HessProofs.
Import ListNotations.
Local Open Scope R_scope.

(** ** Lists of vertices *)
Lemma existsb_in v l : existsb (Nat.eqb v) l = true <-> In v l.
Proof. rewrite existsb_exists. split; [intros (x & I & E); apply Nat.eqb_eq in E; subst; exact I|intros I; exists v; split; [exact I|apply Nat.eqb_refl]]. Qed.
Lemma unseen_in l : forall seen v, In v (unseen seen l) <-> In v l /\ ~ In v seen.
Proof.
  induction l as [|a l IH]; intros seen v; cbn [unseen]; [cbn; tauto|]. destruct (existsb (Nat.eqb a) seen) eqn:E.
  - apply existsb_in in E. rewrite IH. cbn [In]. split; [tauto|]. intros [[->|I] N]; tauto.
  - assert (NA : ~ In a seen) by (rewrite <- existsb_in, E; discriminate). cbn [In]. rewrite IH. cbn [In]. destruct (Nat.eq_dec a v) as [->|N]; [tauto|]. split; [intros [->|(A & B)]; [tauto|split; [right; exact A|tauto]]|intros [[->|A] B]; [tauto|right; split; [exact A|tauto]]].
Qed.
Lemma unseen_nodup l : forall seen, NoDup (unseen seen l).
Proof.
  induction l as [|a l IH]; intros seen; cbn [unseen]; [constructor|]. destruct (existsb (Nat.eqb a) seen); [apply IH|]. constructor; [|apply IH].
  rewrite unseen_in. cbn [In]. tauto.
Qed.
Lemma pick_one (f : nat -> R) w L : NoDup L -> In w L -> rsum (map (fun v => if Nat.eqb w v then f v else 0) L) = f w.
Proof.
  induction L as [|a L IH]; intros N I; [destruct I|]. inversion N as [|? ? N1 N2]; subst. cbn [map]. rewrite rsum_cons. destruct I as [->|I].
  - rewrite Nat.eqb_refl. rewrite rsum_zero; [ring|]. intros v Hv. destruct (Nat.eqb_spec w v) as [->|]; [contradiction|reflexivity].
  - destruct (Nat.eqb_spec w a) as [->|]; [contradiction|]. rewrite IH by assumption. ring.
Qed.
Lemma corner_pick (F : m3 -> nat -> R) G0 G1 G2 (t : triangle) L : distinct_corners t -> NoDup L -> (forall v, In v (tri_verts t) -> In v L) ->
  rsum (map (fun v => match (match position v t with Some j => nth_error [G0; G1; G2] j | None => None end) with None => 0 | Some G => F G v end) L)
  = let '(a, b, c) := t in F G0 a + F G1 b + F G2 c.
Proof.
  destruct t as [[a b] c]. intros D N I. unfold distinct_corners in D. cbn [tri_verts] in D. inversion D as [|? ? D1 D2]; subst. inversion D2 as [|? ? D3 _]; subst. cbn [In] in D1, D3.
  rewrite <- (pick_one (F G0) a L N), <- (pick_one (F G1) b L N), <- (pick_one (F G2) c L N) by (apply I; cbn; tauto).
  rewrite <- !rsum_plus. apply rsum_ext. intros v _. unfold position.
  destruct (Nat.eqb_spec a v) as [->|]; destruct (Nat.eqb_spec b v) as [->|]; destruct (Nat.eqb_spec c v) as [->|]; try (exfalso; tauto); cbn [nth_error]; ring.
Qed.

(** ** Scattering to corners *)
Definition at_v (tr : nat -> triangle) (y : nat -> R) (v : nat) (view : list nat) : R :=
  rsum (map (fun i => rsum (map (fun w => if Nat.eqb w v then y i else 0) (tri_verts (tr i)))) view).
Lemma subtract_spec {A} (sub : A -> A -> A) d (x : A) : forall l i, (i < length l)%nat -> exists l', subtract_at sub l i x = Some l' /\ length l' = length l /\
  forall phi : A -> R, (forall a b, phi (sub a b) = phi a - phi b) -> forall v, phi (nth v l' d) = phi (nth v l d) - if Nat.eqb i v then phi x else 0.
Proof.
  induction l as [|a l IH]; intros i Hi; [cbn in Hi; lia|]. destruct i as [|i]; cbn [subtract_at].
  - eexists. split; [reflexivity|]. split; [reflexivity|]. intros phi L [|v]; cbn [nth Nat.eqb]; [apply L|ring].
  - destruct (IH i) as (l' & E & EL & N); [cbn in Hi; lia|]. rewrite E. eexists. split; [reflexivity|]. split; [cbn; congruence|].
    intros phi L [|v]; cbn [nth Nat.eqb]; [ring|apply N; exact L].
Qed.
Lemma scatter_inner {A} (sub : A -> A -> A) d (x : A) : forall ws l, (forall w, In w ws -> (w < length l)%nat) -> exists l',
  fold_left (fun acc v => match acc with None => None | Some l => subtract_at sub l v x end) ws (Some l) = Some l' /\ length l' = length l /\
  forall phi : A -> R, (forall a b, phi (sub a b) = phi a - phi b) -> forall v, phi (nth v l' d) = phi (nth v l d) - rsum (map (fun w => if Nat.eqb w v then phi x else 0) ws).
Proof.
  induction ws as [|w ws IH]; intros l R; cbn [fold_left].
  - exists l. split; [reflexivity|]. split; [reflexivity|]. intros phi L v. cbn [map]. rewrite rsum_nil. ring.
  - destruct (subtract_spec sub d x l w (R w (or_introl eq_refl))) as (l1 & E1 & L1 & N1). rewrite E1.
    destruct (IH l1) as (l2 & E2 & L2 & N2); [intros w' Hw; rewrite L1; apply R; right; exact Hw|]. exists l2. split; [exact E2|]. split; [congruence|].
    intros phi L v. rewrite (N2 phi L), (N1 phi L). cbn [map]. rewrite rsum_cons. ring.
Qed.
Lemma scatter_spec {A} (sub : A -> A -> A) d topo (x : nat -> A) (tr : nat -> triangle) : forall view l,
  (forall i, In i view -> nth_error topo i = Some (tr i) /\ forall w, In w (tri_verts (tr i)) -> (w < length l)%nat) -> exists l',
  scatter sub topo x view l = Some l' /\ length l' = length l /\
  forall phi : A -> R, (forall a b, phi (sub a b) = phi a - phi b) -> forall v, phi (nth v l' d) = phi (nth v l d) - at_v tr (fun i => phi (x i)) v view.
Proof.
  unfold scatter. induction view as [|i view IH]; intros l R; cbn [fold_left].
  - exists l. split; [reflexivity|]. split; [reflexivity|]. intros phi L v. unfold at_v. cbn [map]. rewrite rsum_nil. ring.
  - destruct (R i (or_introl eq_refl)) as [T W]. rewrite T. destruct (scatter_inner sub d (x i) (tri_verts (tr i)) l W) as (l1 & E1 & L1 & N1). rewrite E1.
    destruct (IH l1) as (l2 & E2 & L2 & N2); [intros j Hj; rewrite L1; apply R; right; exact Hj|]. exists l2. split; [exact E2|]. split; [congruence|].
    intros phi L v. rewrite (N2 phi L), (N1 phi L). unfold at_v. cbn [map]. rewrite rsum_cons. ring.
Qed.
Lemma at_v_sum (tr : nat -> triangle) (y : nat -> nat -> R) L view : NoDup L -> (forall i w, In i view -> In w (tri_verts (tr i)) -> In w L) ->
  rsum (map (fun v => at_v tr (fun i => y v i) v view) L) = rsum (map (fun i => rsum (map (fun w => y w i) (tri_verts (tr i)))) view).
Proof.
  intros N I. unfold at_v. rewrite rsum_swap. apply rsum_ext. intros i Hi. rewrite rsum_swap. apply rsum_ext. intros w Hw. apply (pick_one (fun v => y v i)); [exact N|]. apply (I i); assumption.
Qed.

(** ** Linearity of the rate *)
Lemma curve_add a b d x u u' : curve a b d x (v3_add u u') = curve a b d x u + curve a b d x u'.
Proof. unfold curve. cbv zeta. rewrite !dot_add_r. unfold Rdiv. ring. Qed.
Lemma nrate_add n a b y : nrate n (v3_add a b) y = nrate n a y + nrate n b y.
Proof. unfold nrate. rewrite dot_add_l, dot_add_r. unfold Rdiv. ring. Qed.
Lemma rate_add k k0 P v view c d n val e e' dn dn' x :
  r_J k k0 P v view c d n val (fun i => v3_add (e i) (e' i)) (fun i => v3_add (dn i) (dn' i)) x
  = r_J k k0 P v view c d n val e dn x + r_J k k0 P v view c d n val e' dn' x.
Proof.
  assert (EW : r_W k k0 P view c d (fun i => v3_add (e i) (e' i)) = r_W k k0 P view c d e + r_W k k0 P view c d e').
  { unfold r_W, r_w, r_bw. rewrite dot_add_r. rewrite (rsum_ext _ (fun i => v3_dot (wgrad k0 (d 0 i)) (e i) + v3_dot (wgrad k0 (d 0 i)) (e' i))) by (intros i _; apply dot_add_r). rewrite rsum_plus. ring. }
  assert (EG : r_G k k0 P v view c d n val (fun i => v3_add (e i) (e' i)) (fun i => v3_add (dn i) (dn' i)) = r_G k k0 P v view c d n val e dn + r_G k k0 P v view c d n val e' dn').
  { unfold r_G. rewrite EW. unfold r_fv, r_bw, r_w, r_psi. rewrite !dot_add_r.
    rewrite (rsum_ext _ (fun i => (v3_dot (wgrad k0 (d 0 i)) (e i) * q_psi d n val 0 i + q_w k0 d 0 i * (v3_dot (unit_of (n 0 i)) (e i) + nrate (n 0 i) (dn i) (d 0 i))) + (v3_dot (wgrad k0 (d 0 i)) (e' i) * q_psi d n val 0 i + q_w k0 d 0 i * (v3_dot (unit_of (n 0 i)) (e' i) + nrate (n 0 i) (dn' i) (d 0 i))))).
    - rewrite rsum_plus. ring.
    - intros i _. rewrite !dot_add_r, nrate_add. ring. }
  unfold r_J. rewrite EW, EG. unfold r_fv, r_bw, r_beta, r_gam, bcurve, fcurve. rewrite !dot_add_r.
  set (g1 := r_G k k0 P v view c d n val e dn). set (g2 := r_G k k0 P v view c d n val e' dn').
  assert (ES : rsum (map (fun i => (r_psi d n (fun i => v3_add (e i) (e' i)) (fun i => v3_add (dn i) (dn' i)) i - (g1 + g2)) * q_g k0 d x 0 i + (q_psi d n val 0 i - q_G k k0 P v view c d n val 0) * r_g k0 d (fun i => v3_add (e i) (e' i)) x i
      + (r_w k0 d (fun i => v3_add (e i) (e' i)) i * q_m n x 0 i + q_w k0 d 0 i * r_m n (fun i => v3_add (dn i) (dn' i)) x i)) view)
    = rsum (map (fun i => (r_psi d n e dn i - g1) * q_g k0 d x 0 i + (q_psi d n val 0 i - q_G k k0 P v view c d n val 0) * r_g k0 d e x i + (r_w k0 d e i * q_m n x 0 i + q_w k0 d 0 i * r_m n dn x i)) view)
    + rsum (map (fun i => (r_psi d n e' dn' i - g2) * q_g k0 d x 0 i + (q_psi d n val 0 i - q_G k k0 P v view c d n val 0) * r_g k0 d e' x i + (r_w k0 d e' i * q_m n x 0 i + q_w k0 d 0 i * r_m n dn' x i)) view)).
  { rewrite <- rsum_plus. apply rsum_ext. intros i _. unfold r_psi, r_w, r_g, r_m. rewrite !dot_add_r, !nrate_add, curve_add. ring. }
  rewrite ES. destruct (p_type P); destruct (k_radius k) as [r|]; try destruct (Rlt_dec r _); try destruct (negb _); rewrite ?curve_add; ring.
Qed.

(** ** The mixed Hessian of the code *)
Lemma combine_maps {A B C} (f : A -> B) (g : A -> C) l : combine l (combine (map f l) (map g l)) = map (fun i => (i, (f i, g i))) l.
Proof. induction l as [|a l IH]; [reflexivity|]. cbn. rewrite IH. reflexivity. Qed.
Lemma bil_add_r A x u u' : bil A x (v3_add u u') = bil A x u + bil A x u'.
Proof. unfold bil. destruct A as [[a0 a1 a2] [b0 b1 b2] [c0 c1 c2]], x as [x0 x1 x2], u as [u0 u1 u2], u' as [w0 w1 w2]. unfold m3_mulv, v3_add, v3_dot. cbn [vx vy vz r0 r1 r2]. ring. Qed.
Lemma bil_scale_r A x s u : bil A x (v3_scale s u) = s * bil A x u.
Proof. unfold bil. destruct A as [[a0 a1 a2] [b0 b1 b2] [c0 c1 c2]], x as [x0 x1 x2], u as [u0 u1 u2]. unfold m3_mulv, v3_scale, v3_dot. cbn [vx vy vz r0 r1 r2]. ring. Qed.
Lemma bil_0_r A x : bil A x v3_0 = 0.
Proof. unfold bil. destruct A as [[a0 a1 a2] [b0 b1 b2] [c0 c1 c2]], x as [x0 x1 x2]. unfold m3_mulv, v3_0, v3_dot. cbn [vx vy vz r0 r1 r2]. ring. Qed.
Lemma dot_scale_r a s u : v3_dot a (v3_scale s u) = s * v3_dot a u.
Proof. rewrite (dot_comm a (v3_scale s u)), dot_scale_l, (dot_comm u). reflexivity. Qed.
Lemma dot_0_r a : v3_dot a v3_0 = 0.
Proof. rewrite dot_comm. apply dot_0_l. Qed.
(** The gradients of the unit normal in the three corners. *)
Lemma normal_gradients V topo i s (t : triangle) : nth_error topo i = Some t -> (forall v, In v (tri_verts t) -> (v < length V)%nat) -> s_nml s <> v3_0 ->
  exists G0 G1 G2, face_unit_normal_gradients V topo i s = Some [G0; G1; G2] /\
    forall U y, (let '(a, b, c) := t in v3_dot (m3_mulv G0 y) (U a) + v3_dot (m3_mulv G1 y) (U b) + v3_dot (m3_mulv G2 y) (U c)) = nrate (s_nml s) (tri_rate V U t) y.
Proof.
  intros T R N. unfold face_unit_normal_gradients. rewrite T. pose proof (tri_at_some V t R) as TA. destruct t as [[a b] c]. rewrite TA. cbv zeta. cbn [option_map map].
  eexists _, _, _. split; [reflexivity|]. intros U y. rewrite !neg_mul_dot.
  assert (X := corner_sum V U (a, b, c) _ (m3_mulv (scaled_tangent_projection (v3_scale (1 / v3_norm (s_nml s)) (s_nml s)) (1 / v3_norm (s_nml s))) y) TA R).
  cbn [combine tri_verts map fst snd] in X. rewrite !rsum_cons, rsum_nil in X.
  transitivity (v3_dot (m3_mulv (scaled_tangent_projection (v3_scale (1 / v3_norm (s_nml s)) (s_nml s)) (1 / v3_norm (s_nml s))) y) (tri_rate V U (a, b, c))); [rewrite X; ring|].
  rewrite projection_same by exact N. apply v3_norm_pos in N. unfold nrate. generalize (tri_rate V U (a, b, c)). set (n := s_nml s) in *. set (r := v3_norm n) in *. clearbody r n. clear -N. intros z.
  destruct n as [n0 n1 n2], y as [d0 d1 d2], z as [z0 z1 z2]. unfold m3_mulv, m3_sub, m3_I, outer, v3_scale, v3_sub, v3_dot, v3_scale. cbn [vx vy vz r0 r1 r2]. field. lra.
Qed.

Section Mixed.
Variables (t : query_topo) (q : v3) (view : list nat) (c : nat) (U : nat -> v3).
Let B := q_base t.
Let S := sb_samples B.
Let k := q_kernel t.
Let P := sb_bg B.
Hypothesis TY : sb_type B = SFace.
Hypothesis WF : well_formed B.
Hypothesis DC : forall tr, In tr (sb_topo B) -> distinct_corners tr.
Hypothesis LEN : forall i, In i view -> (i < length S)%nat.
Hypothesis ND : NoDup view.
Hypothesis Vk : valid_kernel k.
Hypothesis NE : nearest S q view c.
Hypothesis RV : regular_view k S q view.
Hypothesis SB : smooth_background k P 0 S q c.
Hypothesis QB : quiet_background k P S q c.
Let dd (s : R) (i : nat) := away S q i.
Let nn (s : R) (i : nat) := s_nml (smp S i).
Let val (i : nat) := s_value (smp S i).
Let d0 := v3_norm (away S q c).
Let k0 := with_closest k d0.
Let b := bg_new_impl q S view (Local c) k P None.
Let tr (i : nat) : triangle := nth i (sb_topo B) (0, 0, 0)%nat.
Let L := unseen [] (flat_map tri_verts (map tr view)).
Let W := q_W k k0 P view c dd 0.
Let e (i : nat) := v3_scale (-1) (pos_rate B U i).
Let dn (i : nat) := nml_rate B U i.

Lemma m_topo i : In i view -> nth_error (sb_topo B) i = Some (tr i) /\ (forall w, In w (tri_verts (tr i)) -> (w < length (sb_verts B))%nat) /\ distinct_corners (tr i).
Proof.
  intros Hi. pose proof (LEN i Hi) as Li. destruct WF as [W1 W2]. rewrite TY in W2. unfold S in Li. rewrite W2 in Li. split; [apply nth_error_nth'; exact Li|].
  assert (I : In (tr i) (sb_topo B)) by (apply nth_In; exact Li). split; [intros w; apply W1; exact I|apply DC; exact I].
Qed.
Lemma m_bg_grad i u : v3_dot (background_weight_gradient b (Some i)) u = if Nat.eqb i c then - v3_dot (bgw_grad k (p_weighted P) d0 (dd 0 c)) u else 0.
Proof.
  unfold background_weight_gradient, bgw_grad. change (b_kernel b) with k. change (b_dist b) with d0. change (b_weighted b) with (p_weighted P).
  change (b_index b) with (Local c). change (b_disp b) with (dd 0 c).
  destruct (k_radius k) as [r|]; [|rewrite dot_0_l; destruct (Nat.eqb i c); ring].
  destruct (Rlt_dec r d0); [rewrite dot_0_l; destruct (Nat.eqb i c); ring|].
  destruct (negb (p_weighted P)); [rewrite dot_0_l; destruct (Nat.eqb i c); ring|]. cbv zeta.
  destruct (Nat.eqb i c); [rewrite !dot_scale_l, dot_neg_l; ring|apply dot_0_l].
Qed.
Lemma m_wsi : weight_sum_inv b = 1 / W.
Proof. exact (c_wsi k P view c (fun _ => q) (fun _ => S) Vk NE RV). Qed.
Lemma m_rate i : pos_rate B U i = v3_scale (1 / 3) (vsum (map U (tri_verts (tr i)))).
Proof. unfold pos_rate. rewrite TY. reflexivity. Qed.
Lemma corners_dot a i : rsum (map (fun w => v3_dot a (U w)) (tri_verts (tr i))) = - 3 * v3_dot a (e i).
Proof.
  unfold e. rewrite m_rate, !dot_scale_r, dot_vsum_r. field.
Qed.
Lemma corners_bil A x i : rsum (map (fun w => bil A x (U w)) (tri_verts (tr i))) = - 3 * bil A x (e i).
Proof.
  unfold e. rewrite m_rate, !bil_scale_r. destruct (tr i) as [[a1 a2] a3]. cbn [tri_verts map]. rewrite !rsum_cons, rsum_nil. unfold vsum. cbn [fold_right].
  rewrite !bil_add_r, bil_0_r. field.
Qed.
Lemma in_L i w : In i view -> In w (tri_verts (tr i)) -> In w L.
Proof. intros Hi Hw. unfold L. apply unseen_in. split; [|intros []]. apply in_flat_map. exists (tr i). split; [apply in_map; exact Hi|exact Hw]. Qed.
Lemma pick_nodup (f : nat -> R) : rsum (map (fun i => if Nat.eqb i c then f i else 0) view) = f c.
Proof. rewrite <- (pick_one f c view ND (proj1 NE)). apply rsum_ext. intros i _. rewrite Nat.eqb_sym. reflexivity. Qed.

Lemma m_gradients : exists dwdq, vertex_weight_gradients b (length (sb_verts B)) (sb_topo B) = Some dwdq /\
  rsum (map (fun v => v3_dot (nth v dwdq v3_0) (U v)) L) = 1 / W * r_W k k0 P view c dd e.
Proof.
  unfold vertex_weight_gradients. change (b_view b) with view. set (y := fun i => v3_scale _ _).
  destruct (scatter_spec v3_sub v3_0 (sb_topo B) y tr view (repeat v3_0 (length (sb_verts B)))) as (l & E & _ & N).
  { intros i Hi. destruct (m_topo i Hi) as (T & R & _). split; [exact T|]. rewrite repeat_length. exact R. }
  exists l. split; [exact E|].
  rewrite (rsum_ext _ (fun v => -1 * at_v tr (fun i => v3_dot (y i) (U v)) v view)).
  2:{ intros v _. rewrite (N (fun z => v3_dot z (U v))) by (intros; apply dot_sub_l). rewrite nth_repeat, dot_0_l. ring. }
  rewrite rsum_scale, (at_v_sum tr (fun v i => v3_dot (y i) (U v)) L view (unseen_nodup _ _) in_L).
  unfold r_W. change (r_bw k P c dd e) with (v3_dot (bgw_grad k (p_weighted P) d0 (dd 0 c)) (e c)). rewrite <- (pick_nodup (fun i => v3_dot (bgw_grad k (p_weighted P) d0 (dd 0 c)) (e i))), <- rsum_plus, <- !rsum_scale. apply rsum_ext. intros i Hi.
  rewrite corners_dot. unfold y. rewrite dot_scale_l, dot_sub_l, m_bg_grad, m_wsi. change (b_kernel b) with k. change (b_dist b) with d0. change (b_q b) with q. change (b_all b) with S.
  assert (G : s_weight_grad k d0 q (smp S i) = wgrad k0 (dd 0 i)) by exact (the_weight_grad k view c (fun _ => q) (fun _ => S) RV i Hi). rewrite G. unfold r_w. destruct (Nat.eqb i c); field; apply (c_W_ne k P view c (fun _ => q) (fun _ => S) Vk NE RV).
Qed.
Lemma m_hessians x : exists ddwdq, vertex_weight_hessians b (length (sb_verts B)) (sb_topo B) = Some ddwdq /\
  rsum (map (fun v => bil (nth v ddwdq m3_0) x (U v)) L) = 1 / W * (rsum (map (r_g k0 dd e x) view) + r_beta k P c dd e x).
Proof.
  unfold vertex_weight_hessians. change (b_view b) with view. set (y := fun i => m3_scale _ _).
  destruct (scatter_spec m3_sub m3_0 (sb_topo B) y tr view (repeat m3_0 (length (sb_verts B)))) as (l & E & _ & N).
  { intros i Hi. destruct (m_topo i Hi) as (T & R & _). split; [exact T|]. rewrite repeat_length. exact R. }
  exists l. split; [exact E|].
  rewrite (rsum_ext _ (fun v => -1 * at_v tr (fun i => bil (y i) x (U v)) v view)).
  2:{ intros v _. rewrite (N (fun z => bil z x (U v))) by (intros; apply bil_sub). rewrite nth_repeat, bil_0. ring. }
  rewrite rsum_scale, (at_v_sum tr (fun v i => bil (y i) x (U v)) L view (unseen_nodup _ _) in_L).
  unfold r_beta. rewrite <- (pick_nodup (fun i => bcurve k (p_weighted P) (dd 0 c) x (e i))), <- rsum_plus, <- !rsum_scale. apply rsum_ext. intros i Hi.
  rewrite corners_bil. unfold y. rewrite bil_scale, bil_add, m_wsi. change (b_kernel b) with k. change (b_dist b) with d0. change (b_q b) with q. change (b_all b) with S.
  assert (G : bil (s_weight_hess k d0 q (smp S i)) x (e i) = r_g k0 dd e x i) by exact (c_hess k view c (fun _ => q) (fun _ => S) RV i x (e i) Hi). rewrite G.
  assert (H : bil (background_weight_hessian b (Some i)) x (e i) = if Nat.eqb i c then bcurve k (p_weighted P) (dd 0 c) x (e i) else 0) by exact (c_bg_hess_at k P view c (fun _ => q) (fun _ => S) NE RV i x (e i)).
  rewrite H. destruct (Nat.eqb i c); field; apply (c_W_ne k P view c (fun _ => q) (fun _ => S) Vk NE RV).
Qed.
Let w (i : nat) := q_w k0 dd 0 i.
Let psi (i : nat) := q_psi dd nn val 0 i.
Let g (i : nat) := wgrad k0 (dd 0 i).
Let m (i : nat) := unit_of (nn 0 i).
Let beta := bgw_grad k (p_weighted P) d0 (dd 0 c).
Lemma m_component i corner dw_neigh ddv dv x u : In i view ->
  bil (sample_query_component q (smp S i) k corner dw_neigh ddv dv (weight_sum_inv b) d0) x u =
  - (psi i * (1 / W * (v3_dot (g i) x - w i * v3_dot dw_neigh x)) + 1 / W * (w i * v3_dot (m i) x)) * v3_dot dv u
  + 1 / W * (psi i * (w i * (v3_dot dw_neigh x * v3_dot dv u - bil ddv x u)))
  + match corner with
    | None => 0
    | Some G => 1 / W * (v3_dot (g i) x - w i * v3_dot dw_neigh x) * (v3_dot (m3_mulv G (dd 0 i)) u - 1 / 3 * v3_dot (m i) u)
        + 1 / W * (1 / 3 * (psi i * (- bil (s_weight_hess k d0 q (smp S i)) x u + v3_dot dw_neigh x * v3_dot (g i) u)) - v3_dot (m i) x * (1 / 3 * v3_dot (g i) u)
            + w i * v3_dot (m3_mulv G x) u)
    end.
Proof.
  intros Hi. unfold sample_query_component. cbv zeta.
  assert (Ep : s_value (smp S i) + v3_dot (unit_of (s_nml (smp S i))) (v3_sub q (s_pos (smp S i))) = psi i) by exact (c_psi k view (fun _ => q) (fun _ => S) RV i Hi).
  assert (Eg : s_weight_grad k d0 q (smp S i) = g i) by exact (the_weight_grad k view c (fun _ => q) (fun _ => S) RV i Hi).
  rewrite Ep, Eg, m_wsi. change (s_weight k d0 q (smp S i)) with (w i). change (unit_of (s_nml (smp S i))) with (m i). change (v3_sub q (s_pos (smp S i))) with (dd 0 i).
  destruct corner as [G|].
  - rewrite !bil_add, !bil_scale, !bil_add, !bil_sub, !bil_scale, !bil_add, bil_neg, !bil_outer, bil_transpose, !dot_neg_l, !dot_add_l, !dot_scale_l, !dot_sub_l, !dot_scale_l.
    unfold bil at 3. rewrite (dot_comm u). ring.
  - rewrite !bil_add, !bil_scale, !bil_sub, !bil_outer, !dot_neg_l, !dot_add_l, !dot_scale_l, !dot_sub_l, !dot_scale_l. ring.
Qed.
Lemma quiet_zero x : q_fv P 0 c dd nn 0 * q_bw k P c dd 0 = 0 /\ r_fv P c dd nn e * q_bw k P c dd 0 = 0 /\ q_fv P 0 c dd nn 0 * r_bw k P c dd e = 0 /\
  r_bw k P c dd e * q_gam P c dd nn x 0 = 0 /\ q_bw k P c dd 0 * r_gam P c dd nn e x = 0 /\ r_fv P c dd nn e * q_beta k P c dd x 0 = 0 /\ q_fv P 0 c dd nn 0 * r_beta k P c dd e x = 0 /\
  q_bw k P c dd 0 * q_gam P c dd nn x 0 = 0 /\ q_fv P 0 c dd nn 0 * q_beta k P c dd x 0 = 0.
Proof.
  destruct QB as [T|[U0 R0]].
  - assert (E1 : q_fv P 0 c dd nn 0 = 0) by (unfold q_fv, fval; destruct (p_type P); congruence).
    assert (E2 : r_fv P c dd nn e = 0) by (unfold r_fv, fgrad; destruct (p_type P); try congruence; apply dot_0_l).
    assert (E3 : q_gam P c dd nn x 0 = 0) by (unfold q_gam, fgrad; destruct (p_type P); try congruence; apply dot_0_l).
    assert (E4 : r_gam P c dd nn e x = 0) by (unfold r_gam, fcurve; destruct (p_type P); congruence).
    rewrite E1, E2, E3, E4. repeat split; ring.
  - assert (E1 : q_bw k P c dd 0 = 0). { unfold q_bw, bgw. destruct (k_radius k) as [r|]; [|reflexivity]. rewrite U0. destruct (Rlt_dec r (v3_norm (dd 0 c))) as [H|H]; [exfalso; exact (Rlt_not_le _ _ H R0)|reflexivity]. }
    assert (E2 : r_bw k P c dd e = 0). { unfold r_bw, bgw_grad. rewrite U0. destruct (k_radius k); [|apply dot_0_l]. destruct (Rlt_dec _ _); apply dot_0_l. }
    assert (E3 : q_beta k P c dd x 0 = 0). { unfold q_beta, bgw_grad. rewrite U0. destruct (k_radius k); [|apply dot_0_l]. destruct (Rlt_dec _ _); apply dot_0_l. }
    assert (E4 : r_beta k P c dd e x = 0). { unfold r_beta, bcurve. rewrite U0. destruct (k_radius k); [|reflexivity]. destruct (Rlt_dec _ _); reflexivity. }
    rewrite E1, E2, E3, E4. repeat split; ring.
Qed.
Lemma sum_code (rp rg rw rm gx mx ww pp : nat -> R) (I D RW RG : R) l :
  rsum (map (fun i => - (pp i * (I * (gx i - ww i * D)) + I * (ww i * mx i)) * (I * RW) + I * (pp i * (ww i * (D * (I * RW) - I * RG)))
     + (I * (gx i - ww i * D) * rp i + I * (pp i * (rg i - D * rw i) + mx i * rw i + ww i * rm i))) l)
  = - I * I * RW * (rsum (map (fun i => pp i * gx i) l) + rsum (map (fun i => ww i * mx i) l)) + 2 * I * I * RW * D * rsum (map (fun i => ww i * pp i) l) - I * I * RG * rsum (map (fun i => ww i * pp i) l)
    + I * (rsum (map (fun i => rp i * gx i) l) - D * rsum (map (fun i => ww i * rp i) l) + rsum (map (fun i => pp i * rg i) l) - D * rsum (map (fun i => rw i * pp i) l) + rsum (map (fun i => rw i * mx i) l) + rsum (map (fun i => ww i * rm i) l)).
Proof. induction l as [|a l IH]; cbn [map]; [rewrite !rsum_nil; ring|]. rewrite !rsum_cons, IH. ring. Qed.
Lemma sum_rates (rp rg rw rm gx mx ww pp : nat -> R) (G G' : R) l :
  rsum (map (fun i => (rp i - G') * gx i + (pp i - G) * rg i + (rw i * mx i + ww i * rm i)) l)
  = rsum (map (fun i => rp i * gx i) l) - G' * rsum (map gx l) + rsum (map (fun i => pp i * rg i) l) - G * rsum (map rg l) + rsum (map (fun i => rw i * mx i) l) + rsum (map (fun i => ww i * rm i) l).
Proof. induction l as [|a l IH]; cbn [map]; [rewrite !rsum_nil; ring|]. rewrite !rsum_cons, IH. ring. Qed.

Lemma mixed_rate : exists row, sample_query_row t q view = Some row /\ map fst row = L /\
  forall x, rsum (map (fun p => bil (snd p) x (U (fst p))) row) = r_J k k0 P 0 view c dd nn val e dn x.
Proof.
  unfold sample_query_row. cbv zeta. fold B. fold S k P. assert (EB : bg_local q S view k P None = Some b) by exact (the_background k P view c (fun _ => q) (fun _ => S) NE). rewrite EB.
  destruct m_gradients as (dwdq & E1 & G1). destruct (m_hessians v3_0) as (ddwdq & E2 & _). rewrite E1, E2.
  assert (EG : exists Gs : nat -> m3 * m3 * m3, forall i, In i view ->
    face_unit_normal_gradients (sb_verts B) (sb_topo B) i (smp S i) = Some (let '(A0, A1, A2) := Gs i in [A0; A1; A2]) /\
  forall y, (let '(A0, A1, A2) := Gs i in let '(v0, v1, v2) := tr i in v3_dot (m3_mulv A0 y) (U v0) + v3_dot (m3_mulv A1 y) (U v1) + v3_dot (m3_mulv A2 y) (U v2)) = nrate (nn 0 i) (dn i) y).
  { exists (fun i => match face_unit_normal_gradients (sb_verts B) (sb_topo B) i (smp S i) with Some [A0; A1; A2] => (A0, A1, A2) | _ => (m3_0, m3_0, m3_0) end).
    intros i Hi. destruct (m_topo i Hi) as (T & R & _). destruct (normal_gradients (sb_verts B) (sb_topo B) i (smp S i) (tr i) T R) as (A0 & A1 & A2 & EA & NA); [apply (RV i Hi)|].
    rewrite EA. split; [reflexivity|]. intros y. specialize (NA U y). unfold dn, nml_rate. rewrite TY. fold (tr i). exact NA. }
  destruct EG as (Gs & HG).
  rewrite (all_some_each _ (fun i => let '(A0, A1, A2) := Gs i in [A0; A1; A2])) by (intros i Hi; apply HG; exact Hi).
  rewrite (all_some_each (nth_error (sb_topo B)) tr) by (intros i Hi; apply (m_topo i Hi)).
  rewrite combine_maps. eexists. split; [reflexivity|]. split; [rewrite map_map; apply map_id|]. intros x. rewrite map_map. cbn [fst snd]. fold L.
  destruct (m_hessians x) as (dd2 & E2' & G2). rewrite E2 in E2'. injection E2' as <-.
  change (b_dist b) with d0. set (Dn := neighbor_weight_gradient b).
  set (D := v3_dot Dn x). set (I := 1 / W).
  transitivity (rsum (map (fun i => rsum (map (fun v => bil (sample_query_component q (smp S i) k (match position v (tr i) with Some j => nth_error (let '(A0, A1, A2) := Gs i in [A0; A1; A2]) j | None => None end) Dn (nth v ddwdq m3_0) (nth v dwdq v3_0) (weight_sum_inv b) d0) x (U v)) L)) view)).
  { rewrite rsum_swap. apply rsum_ext. intros v _. rewrite map_map, bil_msum. reflexivity. }
  rewrite (rsum_ext _ (fun i => - (psi i * (I * (v3_dot (g i) x - w i * D)) + I * (w i * v3_dot (m i) x)) * (I * r_W k k0 P view c dd e) + I * (psi i * (w i * (D * (I * r_W k k0 P view c dd e) - I * (rsum (map (r_g k0 dd e x) view) + r_beta k P c dd e x))))
     + (I * (v3_dot (g i) x - w i * D) * r_psi dd nn e dn i + I * (psi i * (r_g k0 dd e x i - D * r_w k0 dd e i) + v3_dot (m i) x * r_w k0 dd e i + w i * r_m nn dn x i)))).
  2:{ intros i Hi. rewrite (rsum_ext _ (fun v => (- (psi i * (I * (v3_dot (g i) x - w i * D)) + I * (w i * v3_dot (m i) x)) + I * (psi i * (w i * D))) * v3_dot (nth v dwdq v3_0) (U v) + (- I * (psi i * w i) * bil (nth v ddwdq m3_0) x (U v)
        + match (match position v (tr i) with Some j => nth_error (let '(A0, A1, A2) := Gs i in [A0; A1; A2]) j | None => None end) with None => 0 | Some G =>
            (fun G v => I * (v3_dot (g i) x - w i * D) * (v3_dot (m3_mulv G (dd 0 i)) (U v) - 1 / 3 * v3_dot (m i) (U v))
              + I * (1 / 3 * (psi i * (- bil (s_weight_hess k d0 q (smp S i)) x (U v) + D * v3_dot (g i) (U v))) - v3_dot (m i) x * (1 / 3 * v3_dot (g i) (U v)) + w i * v3_dot (m3_mulv G x) (U v))) G v end))).
      2:{ intros v _. rewrite (m_component i _ _ _ _ _ _ Hi). fold D. fold I. destruct (match position v (tr i) with Some j => _ | None => None end); ring. }
      rewrite rsum_plus, rsum_scale, rsum_plus, rsum_scale, G1, G2. fold I.
      destruct (HG i Hi) as [_ NR]. destruct (m_topo i Hi) as (_ & _ & DI).
      assert (CB : forall a, rsum (map (fun w => v3_dot a (U w)) (tri_verts (tr i))) = - 3 * v3_dot a (e i)) by (intros; apply corners_dot).
      assert (CH : forall A x, rsum (map (fun w => bil A x (U w)) (tri_verts (tr i))) = - 3 * bil A x (e i)) by (intros; apply corners_bil).
      assert (IN : forall v, In v (tri_verts (tr i)) -> In v L) by (intros v; apply in_L; exact Hi).
      destruct (Gs i) as [[A0 A1] A2]. rewrite (corner_pick _ A0 A1 A2 (tr i) L DI (unseen_nodup _ _) IN). clear DI IN.
      assert (EH : bil (s_weight_hess k d0 q (smp S i)) x (e i) = r_g k0 dd e x i) by exact (c_hess k view c (fun _ => q) (fun _ => S) RV i x (e i) Hi).
      assert (Em := CB (m i)). assert (Eg := CB (g i)). assert (Eh := CH (s_weight_hess k d0 q (smp S i)) x). rewrite EH in Eh.
      assert (N1 := NR (dd 0 i)). assert (N2 := NR x). destruct (tr i) as [[v0 v1] v2]. cbn [tri_verts map] in Em, Eg, Eh. rewrite !rsum_cons, rsum_nil in Em, Eg, Eh. cbv beta.
      unfold r_psi, r_m, r_w. rewrite <- N1, <- N2. fold (m i) (g i).
      replace (v3_dot (m i) (e i)) with (- (1 / 3) * (v3_dot (m i) (U v0) + (v3_dot (m i) (U v1) + (v3_dot (m i) (U v2) + 0)))) by (rewrite Em; field).
      replace (v3_dot (g i) (e i)) with (- (1 / 3) * (v3_dot (g i) (U v0) + (v3_dot (g i) (U v1) + (v3_dot (g i) (U v2) + 0)))) by (rewrite Eg; field).
      replace (psi i * (r_g k0 dd e x i - _)) with (psi i * (- (1 / 3) * (bil (s_weight_hess k d0 q (smp S i)) x (U v0) + (bil (s_weight_hess k d0 q (smp S i)) x (U v1) + (bil (s_weight_hess k d0 q (smp S i)) x (U v2) + 0)))
        - D * (- (1 / 3) * (v3_dot (g i) (U v0) + (v3_dot (g i) (U v1) + (v3_dot (g i) (U v2) + 0)))))) by (rewrite Eh; f_equal; f_equal; field).
      ring. }
  rewrite sum_code.
  destruct (quiet_zero x) as (Z1 & Z2 & Z3 & Z4 & Z5 & Z6 & Z7 & Z8 & Z9).
  assert (ED : D = I * (rsum (map (fun i => v3_dot (g i) x) view) + v3_dot beta x)) by exact (c_neighbor k P view c (fun _ => q) (fun _ => S) Vk NE RV x).
  unfold r_J. rewrite (sum_rates (r_psi dd nn e dn) (r_g k0 dd e x) (r_w k0 dd e) (r_m nn dn x) (q_g k0 dd x 0) (q_m nn x 0) (q_w k0 dd 0) (q_psi dd nn val 0)).
  assert (EJ : q_J k k0 P 0 view c dd nn val x 0 = I * (rsum (map (fun i => psi i * v3_dot (g i) x) view) - q_G k k0 P 0 view c dd nn val 0 * rsum (map (fun i => v3_dot (g i) x) view) + rsum (map (fun i => w i * v3_dot (m i) x) view)
     - q_G k k0 P 0 view c dd nn val 0 * v3_dot beta x)).
  { unfold q_J. rewrite (sum_grad (q_g k0 dd x 0) (q_w k0 dd 0) (q_psi dd nn val 0) (q_m nn x 0) (q_G k k0 P 0 view c dd nn val 0) view), Z8, Rmult_minus_distr_r, Z9.
    change (q_beta k P c dd x 0) with (v3_dot beta x). fold W. fold I.
    change (fun i => psi i * v3_dot (g i) x) with (fun i => q_psi dd nn val 0 i * q_g k0 dd x 0 i). change (fun i => v3_dot (g i) x) with (q_g k0 dd x 0). change (fun i => w i * v3_dot (m i) x) with (fun i => q_w k0 dd 0 i * q_m nn x 0 i). ring. }
  rewrite EJ.
  assert (EGV : q_G k k0 P 0 view c dd nn val 0 = I * rsum (map (fun i => w i * psi i) view)) by (unfold q_G; rewrite Z1; fold W; fold I; unfold w, psi; ring).
  assert (ERG : r_G k k0 P 0 view c dd nn val e dn = I * (rsum (map (fun i => r_w k0 dd e i * psi i) view) + rsum (map (fun i => w i * r_psi dd nn e dn i) view) - q_G k k0 P 0 view c dd nn val 0 * r_W k k0 P view c dd e)).
  { unfold r_G. rewrite Z2, Z3. fold W. fold I. rewrite rsum_plus. unfold w, psi. ring. }
  rewrite ERG, EGV. fold W. fold I. rewrite Z4, Z5.
  replace ((r_fv P c dd nn e - I * (rsum (map (fun i => r_w k0 dd e i * psi i) view) + rsum (map (fun i => w i * r_psi dd nn e dn i) view) - I * rsum (map (fun i => w i * psi i) view) * r_W k k0 P view c dd e)) * q_beta k P c dd x 0)
    with (- (I * (rsum (map (fun i => r_w k0 dd e i * psi i) view) + rsum (map (fun i => w i * r_psi dd nn e dn i) view) - I * rsum (map (fun i => w i * psi i) view) * r_W k k0 P view c dd e)) * v3_dot beta x).
  2:{ change (q_beta k P c dd x 0) with (v3_dot beta x) in *. rewrite Rmult_minus_distr_r, Z6. ring. }
  rewrite (Rmult_minus_distr_r (q_fv P 0 c dd nn 0)), Z7, ED.
  unfold w, psi. change (fun i => v3_dot (g i) x) with (q_g k0 dd x 0). change (fun i => v3_dot (m i) x) with (q_m nn x 0). change (fun i => q_psi dd nn val 0 i * v3_dot (g i) x) with (fun i => q_psi dd nn val 0 i * q_g k0 dd x 0 i).
  change (fun i => q_w k0 dd 0 i * v3_dot (m i) x) with (fun i => q_w k0 dd 0 i * q_m nn x 0 i). change (fun i => r_psi dd nn e dn i * v3_dot (g i) x) with (fun i => r_psi dd nn e dn i * q_g k0 dd x 0 i).
  change (fun i => r_w k0 dd e i * v3_dot (m i) x) with (fun i => r_w k0 dd e i * q_m nn x 0 i).
  unfold r_W. ring.
Qed.
End Mixed.

(** ** Symmetry *)
Definition symmetric_form (A : m3) : Prop := forall x u, bil A x u = bil A u x.
Lemma symmetric_form_transpose A : symmetric_form A -> m3_transpose A = A.
Proof. intros H. apply bil_ext. intros x u. rewrite bil_transpose. apply H. Qed.
Lemma sf_add A B : symmetric_form A -> symmetric_form B -> symmetric_form (m3_add A B).
Proof. intros HA HB x u. rewrite !bil_add, (HA x u), (HB x u). reflexivity. Qed.
Lemma sf_sub A B : symmetric_form A -> symmetric_form B -> symmetric_form (m3_sub A B).
Proof. intros HA HB x u. rewrite !bil_sub, (HA x u), (HB x u). reflexivity. Qed.
Lemma sf_scale s A : symmetric_form A -> symmetric_form (m3_scale s A).
Proof. intros HA x u. rewrite !bil_scale, (HA x u). reflexivity. Qed.
Lemma sf_outer s d : symmetric_form (outer d (v3_scale s d)).
Proof. intros x u. rewrite !bil_outer, !dot_scale_l. ring. Qed.
Lemma sf_outer_l s d : symmetric_form (outer (v3_scale s d) d).
Proof. intros x u. rewrite !bil_outer, !dot_scale_l. ring. Qed.
Lemma sf_outer_1 d : symmetric_form (outer d d).
Proof. intros x u. rewrite !bil_outer. ring. Qed.
Lemma sf_sym a b : symmetric_form (sym_outer a b).
Proof. intros x u. rewrite !bil_sym_outer. ring. Qed.
Lemma sf_I : symmetric_form m3_I.
Proof. intros x u. rewrite !bil_I. apply dot_comm. Qed.
Lemma sf_0 : symmetric_form m3_0.
Proof. intros x u. rewrite !bil_0. reflexivity. Qed.
Lemma sf_msum {A} (f : A -> m3) l : (forall a, In a l -> symmetric_form (f a)) -> symmetric_form (msum (map f l)).
Proof. intros H x u. rewrite !bil_msum. apply rsum_ext. intros a Ha. apply H, Ha. Qed.
Lemma sf_k_hess k x p : symmetric_form (k_hess k x p).
Proof. unfold k_hess. cbv zeta. destruct (Rlt_dec _ _); [|apply sf_0]. apply sf_add; apply sf_scale; [apply sf_sub; [apply sf_I|]|]; apply sf_outer. Qed.
Lemma sf_background b i : symmetric_form (background_weight_hessian b i).
Proof.
  unfold background_weight_hessian. destruct (k_radius _); [|apply sf_0]. destruct (Rlt_dec _ _); [apply sf_0|]. destruct (negb _); [apply sf_0|]. cbv zeta.
  assert (H : symmetric_form (m3_sub (outer (v3_scale (k_ddf (b_kernel b) (r - b_dist b)) (v3_scale (1 / b_dist b) (b_disp b))) (v3_scale (1 / b_dist b) (b_disp b)))
    (m3_scale (k_df (b_kernel b) (r - b_dist b) / b_dist b) (m3_sub m3_I (outer (v3_scale (1 / b_dist b) (b_disp b)) (v3_scale (1 / b_dist b) (b_disp b))))))).
  { apply sf_sub; [apply sf_outer_l|]. apply sf_scale, sf_sub; [apply sf_I|apply sf_outer_1]. }
  destruct i as [i|]; [|exact H]. destruct (b_index b); [|apply sf_0]. destruct (Nat.eqb _ _); [exact H|apply sf_0].
Qed.
Lemma sf_field b : symmetric_form (field_hessian b).
Proof. unfold field_hessian. destruct (b_value b); [apply sf_0|]. destruct (Req_EM_T _ _); [apply sf_0|]. cbv zeta. apply sf_sub; [apply sf_scale, sf_I|apply sf_outer]. Qed.
Lemma sf_total b : symmetric_form (total_hessian b).
Proof. apply sf_add; [apply sf_msum; intros; apply sf_k_hess|apply sf_background]. Qed.
Lemma sf_query q S view k P H : query_hessian_at q S view k P = Some H -> symmetric_form H.
Proof.
  unfold query_hessian_at. destruct (bg_local q S view k P None) as [b|]; [|discriminate]. intros E. injection E as <-.
  apply sf_add.
  - apply sf_scale, sf_msum. intros i _. unfold sample_hessian_term. cbv zeta. apply sf_add; [|apply sf_scale, sf_add; [apply sf_outer|apply sf_k_hess]].
    apply sf_sub; [|apply sf_scale, sf_scale, sf_total]. apply sf_sub; [|apply sf_scale, sf_sym]. apply sf_sub; [apply sf_sym|apply sf_scale, sf_sym].
  - unfold bg_query_hessian. cbv zeta. apply sf_scale. destruct (b_weighted b); [|apply sf_scale, sf_field]. apply sf_add; [apply sf_scale, sf_field|].
    apply sf_sub; [|apply sf_scale, sf_total]. apply sf_add; [|apply sf_scale, sf_background]. apply sf_add; [|apply sf_outer].
    apply sf_sub; [|apply sf_scale, sf_sym]. apply sf_sub; [apply sf_sym|apply sf_scale, sf_sym].
Qed.

(** ** Velocities of samples do not enter *)
Definition strip (s : sample) : sample := Sample (s_pos s) (s_nml s) v3_0 (s_value s).
Lemma smp_strip S : smp (map strip S) = fun i => strip (smp S i).
Proof. apply functional_extensionality. intros i. unfold smp. change sample0 with (strip sample0) at 1. apply map_nth. Qed.
Lemma jacobian_strip q S view k P : query_jacobian_at q (map strip S) view None k P = query_jacobian_at q S view None k P.
Proof.
  unfold query_jacobian_at, bg_new, bg_local. replace (closest_sample q (map strip S) view) with (closest_sample q S view).
  2:{ unfold closest_sample, dist2. rewrite smp_strip. reflexivity. }
  destruct (closest_sample q S view) as [c|]; [|reflexivity]. f_equal.
  unfold neighbor_weight_gradient, bg_query_jacobian, weight_sum_inv, field_value, field_gradient, background_weight_gradient, background_weight, orientation, bg_new_impl.
  cbn [b_q b_all b_view b_value b_weighted b_sum b_kernel b_dist b_disp b_index]. unfold background_weight. rewrite smp_strip. reflexivity.
Qed.
Lemma jacobian_keep q S T view k P : length T = length S -> query_jacobian_at q (keep S T) view None k P = query_jacobian_at q T view None k P.
Proof.
  intros L. rewrite <- jacobian_strip, <- (jacobian_strip q T). f_equal. unfold keep. rewrite map_map. unfold strip at 1. cbn [s_pos s_nml s_value].
  revert T L. induction S as [|a S IH]; intros [|x T] L; try discriminate; [reflexivity|]. cbn [combine map snd]. rewrite IH by (cbn in L; lia). reflexivity.
Qed.

(** ** The derivative of the gradient *)
Lemma bil_dot A u x : v3_dot (m3_mulv A u) x = bil A x u.
Proof. unfold bil. apply dot_comm. Qed.
Lemma query_gradient_derive k P v view c (q : R -> v3) S dq : valid_kernel k -> moves q dq -> nearest S (q 0) view c -> regular_view k S (q 0) view -> smooth_background k P v S (q 0) c ->
  exists H J, query_hessian_at (q 0) S view k P = Some H /\ locally 0 (fun s => query_jacobian_at (q s) S view None k P = Some (J s)) /\ moves J (m3_mulv H dq).
Proof.
  intros Vk Mq NE RV SB.
  destruct (query_hessian_rate k P v view c q (fun _ => S) Vk NE RV SB) as (H & EH & RH). exists H.
  assert (MS : moving_samples (fun _ => S) view (fun _ => v3_0) (fun _ => v3_0)).
  { intros i _. split; [apply moves_const|split; [apply moves_const|reflexivity]]. }
  destruct (gradient_derive k P v view c q (fun _ => S) dq (fun _ => v3_0) (fun _ => v3_0) Vk Mq MS NE RV SB (m3_mulv H dq)) as (J & EJ & MJ).
  { intros x. rewrite bil_dot, RH. unfold v3_sub. f_equal. apply functional_extensionality. intros _. apply v3_eq; unv; ring. }
  exists J. auto.
Qed.
Lemma mixed_gradient_derive t U rebuild (q : R -> v3) dq view c : let b := q_base t in let k := q_kernel t in let P := sb_bg b in
  sb_type b = SFace -> well_formed b -> (forall tr, In tr (sb_topo b) -> distinct_corners tr) -> in_place b -> (forall i, In i view -> (i < length (sb_samples b))%nat) -> NoDup view ->
  valid_kernel k -> moves q dq -> nearest (sb_samples b) (q 0) view c -> regular_view k (sb_samples b) (q 0) view -> smooth_background k P 0 (sb_samples b) (q 0) c ->
  quiet_background k P (sb_samples b) (q 0) c ->
  exists H row J, query_hessian_at (q 0) (sb_samples b) view k P = Some H /\ sample_query_row t (q 0) view = Some row /\
    map fst row = unseen [] (flat_map tri_verts (map (fun i => nth i (sb_topo b) (0, 0, 0)%nat) view)) /\
    locally 0 (fun s => query_jacobian_at (q s) (sb_samples (moved b U rebuild s)) view None k P = Some (J s)) /\
    moves J (v3_add (m3_mulv H dq) (block_row_product row U)).
Proof.
  intros b k P TY WF DC IP LEN ND Vk Mq NE RV SB QB.
  destruct (mixed_rate t (q 0) view c U TY WF DC LEN ND Vk NE RV QB) as (row & ER & FR & RR).
  destruct (query_hessian_rate k P 0 view c q (fun _ => sb_samples b) Vk NE RV SB) as (H & EH & RH). exists H, row.
  destruct (moving_mesh b U rebuild view WF DC IP LEN) as (S0 & MS & _). cbv zeta in S0, MS. set (S := fun s => keep (sb_samples b) (sb_samples (moved b U rebuild s))) in *. change (keep _ _) with (S 0) in S0. cbv beta in MS.
  rewrite <- S0 in NE, RV, SB.
  destruct (gradient_derive k P 0 view c q S dq (pos_rate b U) (nml_rate b U) Vk Mq MS NE RV SB (v3_add (m3_mulv H dq) (block_row_product row U))) as (J & EJ & MJ).
  { intros x. rewrite dot_add_l, bil_dot, RH.
    assert (EB : v3_dot (block_row_product row U) x = rsum (map (fun p => bil (snd p) x (U (fst p))) row)).
    { unfold block_row_product. change (fold_right v3_add v3_0) with vsum. rewrite dot_vsum. apply rsum_ext. intros p _. apply bil_dot. }
    rewrite EB, RR. fold b k P. rewrite S0.
    change (v3_norm (away (sb_samples b) (q 0) c)) with (v3_norm (away ((fun _ => sb_samples b) 0) (q 0) c)).
    etransitivity; [symmetry; exact (rate_add k (with_closest k (v3_norm (away (sb_samples b) (q 0) c))) P 0 view c (fun _ i => away (sb_samples b) (q 0) i) (fun _ i => s_nml (smp (sb_samples b) i)) (fun i => s_value (smp (sb_samples b) i))
      (fun _ => dq) (fun i => v3_scale (-1) (pos_rate b U i)) (fun _ => v3_0) (fun i => nml_rate b U i) x)|].
    assert (E1 : (fun i => v3_add dq (v3_scale (-1) (pos_rate b U i))) = fun i => v3_sub dq (pos_rate b U i)) by (apply functional_extensionality; intros i; apply v3_eq; unv; ring).
    assert (E2 : (fun i => v3_add v3_0 (nml_rate b U i)) = nml_rate b U) by (apply functional_extensionality; intros i; apply v3_eq; unv; ring).
    cbv beta. rewrite E1, E2.
    assert (E3 : forall d0 val T, T = S 0 -> r_J k d0 P 0 view c (fun _ i => away T (q 0) i) (fun _ i => s_nml (smp T i)) val (fun i => v3_sub dq (pos_rate b U i)) (nml_rate b U) x
       = r_J k d0 P 0 view c (fun s i => away (S s) (q s) i) (fun s i => s_nml (smp (S s) i)) val (fun i => v3_sub dq (pos_rate b U i)) (nml_rate b U) x) by (intros d1 v1 T ->; reflexivity).
    apply E3. symmetry. exact S0. }
  exists J. rewrite S0 in *. split; [exact EH|]. split; [exact ER|]. split; [exact FR|]. split; [|exact MJ].
  eapply filter_imp; [|exact EJ]. intros s Hs. cbv beta in Hs. unfold S in Hs. rewrite jacobian_keep in Hs by apply moved_length. exact Hs.
Qed.
