(** Proofs about the Jacobian of the potential in the vertices of the surface. *)
From Coq Require Import Reals List Bool Lra Lia Psatz Permutation.
From Coquelicot Require Import Coquelicot.
From Verif Require Import Vec3 Mat3 RList Calc KernelModel KernelSpec KernelProofs FieldModel FieldSpec FieldProofs FieldDerivProofs FieldAvgProofs
  NeighborModel NeighborSpec NeighborProofs UpdateProps SurfJacModel SurfJacSpec.
Import ListNotations.
Local Open Scope R_scope.

(** ** Vectors and sums *)
Lemma skew_dot e x u : v3_dot (m3_mulv (cross_matrix e) x) u = - v3_dot x (v3_cross e u).
Proof. destruct e as [e0 e1 e2], x as [x0 x1 x2], u as [u0 u1 u2]. unfold v3_dot, m3_mulv, cross_matrix, v3_cross, v3_dot. cbn [vx vy vz r0 r1 r2]. ring. Qed.
Lemma vsum_dot l u : v3_dot (vsum l) u = rsum (map (fun x => v3_dot x u) l).
Proof. rewrite <- (map_id l) at 1. apply dot_vsum. Qed.
Lemma dot_add_r a b u : v3_dot u (v3_add a b) = v3_dot u a + v3_dot u b.
Proof. rewrite !(dot_comm u). apply dot_add_l. Qed.
Lemma dot_vsum_r {A} (f : A -> v3) l u : v3_dot u (vsum (map f l)) = rsum (map (fun x => v3_dot u (f x)) l).
Proof. rewrite dot_comm, dot_vsum. apply rsum_ext. intros. apply dot_comm. Qed.
Lemma moves_add f g l m : moves f l -> moves g m -> moves (fun s => v3_add (f s) (g s)) (v3_add l m).
Proof. intros (A & B & C) (A' & B' & C'). split; [|split]; unfold v3_add; cbn [vx vy vz]; apply @is_derive_plus; assumption. Qed.
Lemma moves_scale c f l : moves f l -> moves (fun s => v3_scale c (f s)) (v3_scale c l).
Proof. intros (A & B & C). split; [|split]; unfold v3_scale; cbn [vx vy vz]; apply is_derive_scal; assumption. Qed.
Lemma moves_cross f g l m : moves f l -> moves g m -> moves (fun s => v3_cross (f s) (g s)) (v3_add (v3_cross l (g 0)) (v3_cross (f 0) m)).
Proof.
  intros (A & B & C) (A' & B' & C'). unfold v3_cross, v3_add.
  assert (M : forall a b a' b' : R -> R, forall da db da' db', is_derive a 0 da -> is_derive b 0 db -> is_derive a' 0 da' -> is_derive b' 0 db' ->
    is_derive (fun s => a s * b' s - b s * a' s) 0 ((da * b' 0 - db * a' 0) + (a 0 * db' - b 0 * da'))).
  { intros. evar_last.
    - apply @is_derive_minus; (apply @is_derive_mult; [eassumption|eassumption|intros; apply Rmult_comm]).
    - cbv [minus plus opp mult]; cbn. ring. }
  split; [|split]; cbn [vx vy vz]; apply M; assumption.
Qed.
Lemma moves_vsum {A} (f : R -> A -> v3) (d : A -> v3) l : (forall a, In a l -> moves (fun s => f s a) (d a)) -> moves (fun s => vsum (map (f s) l)) (vsum (map d l)).
Proof.
  induction l as [|a l IH]; intros H; cbn [map vsum fold_right]; [apply moves_const|].
  apply moves_add; [apply H; left; reflexivity|apply IH; intros b B; apply H; right; exact B].
Qed.

(** Sums over members of two lists. *)
Definition memb (l : list nat) (i : nat) : bool := existsb (Nat.eqb i) l.
Lemma memb_in l i : memb l i = true <-> In i l.
Proof. unfold memb. rewrite existsb_exists. split; [intros (x & I & E); apply Nat.eqb_eq in E; subst; exact I|intros I; exists i; split; [exact I|apply Nat.eqb_refl]]. Qed.
Lemma rsum_filter {A} (p : A -> bool) (f : A -> R) l : rsum (map (fun a => if p a then f a else 0) l) = rsum (map f (filter p l)).
Proof. induction l as [|a l IH]; [reflexivity|]. cbn [map filter]. rewrite rsum_cons, IH. destruct (p a); cbn [map]; rewrite ?rsum_cons; ring. Qed.
Lemma rsum_members (l m : list nat) (f : nat -> R) : NoDup l -> NoDup m ->
  rsum (map (fun i => if memb m i then f i else 0) l) = rsum (map (fun i => if memb l i then f i else 0) m).
Proof.
  intros L M. rewrite !rsum_filter. apply rsum_perm, Permutation_map, NoDup_Permutation; try (apply NoDup_filter; assumption).
  intros i. rewrite !filter_In, !memb_in. tauto.
Qed.
Lemma rsum_swap {A B} (f : A -> B -> R) l m : rsum (map (fun a => rsum (map (f a) m)) l) = rsum (map (fun b => rsum (map (fun a => f a b) l)) m).
Proof.
  induction l as [|a l IH]; cbn [map].
  - rewrite rsum_nil. symmetry. apply rsum_zero. intros. apply rsum_nil.
  - rewrite rsum_cons, IH, <- rsum_plus. apply rsum_ext. intros b _. rewrite rsum_cons. reflexivity.
Qed.
Lemma map_nth_seq {A B} (g : A -> B) d : forall l, map (fun t => g (nth t l d)) (seq 0 (length l)) = map g l.
Proof.
  intros l. transitivity (map g (map (fun t => nth t l d) (seq 0 (length l)))); [rewrite map_map; reflexivity|]. f_equal.
  induction l as [|a l IH]; [reflexivity|]. cbn [length seq map]. f_equal. rewrite <- seq_shift, map_map. exact IH.
Qed.

(** ** The derivative through sample positions and normals *)
Lemma unit_normal_rate b i dn : s_nml (smp (b_all b) i) <> v3_0 -> v3_dot (unit_normal_product b i) dn =
  s_weight (b_kernel b) (b_dist b) (b_q b) (smp (b_all b) i) * weight_sum_inv b *
  nrate (s_nml (smp (b_all b) i)) dn (v3_sub (b_q b) (s_pos (smp (b_all b) i))).
Proof.
  intros N. apply v3_norm_pos in N. unfold unit_normal_product, weighted_displacement. cbv zeta. set (n := s_nml _) in *. set (d := v3_sub _ _). set (w := _ * weight_sum_inv b).
  unfold nrate. set (r := v3_norm n) in *. clearbody r n d w. destruct n as [n0 n1 n2], d as [d0 d1 d2], dn as [z0 z1 z2]. unfold m3_mulv, m3_sub, m3_I, outer, v3_scale, v3_sub, v3_dot, v3_scale. cbn [vx vy vz r0 r1 r2]. field. lra.
Qed.
Lemma surface_derive k P v view c q (S : R -> list sample) dp dn : valid_kernel k -> NoDup view -> moving_samples S view dp dn ->
  nearest (S 0) q view c -> regular_view k (S 0) q view -> smooth_background k P v (S 0) q c ->
  exists b, bg_local q (S 0) view k P None = Some b /\ b_all b = S 0 /\ b_q b = q /\ b_view b = view /\ b_kernel b = k /\ b_dist b = v3_norm (away (S 0) q c) /\
    (exists sj, sample_jacobian_at b = map sj view /\
     is_derive (fun s => potential_at q (S s) view k P v) 0
       (rsum (map (fun i => v3_dot (sj i) (dp i)) view) + rsum (map (fun i => v3_dot (unit_normal_product b i) (dn i)) view))).
Proof.
  intros V ND MS NE RV (SD & WK & WI).
  assert (WI' : p_weighted P = true -> match k with Interpolating _ _ => False | _ => True end) by (intros H; specialize (WK H); destruct k; auto).
  assert (D := potential_jacobian_derive k P v view c (fun _ => q) S v3_0 dp dn V (moves_const q) MS NE RV SD WI' WI ND).
  destruct D as (J & EJ & D). exists (bg_new_impl q (S 0) view (Local c) k P None).
  split; [unfold bg_local; rewrite (nearest_closest _ _ _ _ NE); reflexivity|]. split; [reflexivity|]. split; [reflexivity|]. split; [reflexivity|]. split; [reflexivity|]. split; [reflexivity|].
  exists (sj k P view c (fun _ => q) S). split; [exact (sj_list k P view c (fun _ => q) S V NE RV)|].
  evar_last; [exact D|]. rewrite (dot_comm J), dot_0_l, Rplus_0_l. f_equal. rewrite <- rsum_scale. apply rsum_ext. intros i Hi.
  destruct (RV i Hi) as (_ & N & _). rewrite unit_normal_rate by exact N.
  assert (W := the_wsi k P view c (fun _ => q) S V NE RV). assert (X := the_weight k c (fun _ => q) S i). cbv beta in W, X.
  rewrite W. change (b_all (bg_new_impl q (S 0) view (Local c) k P None)) with (S 0) in *.
  change (s_weight (b_kernel (bg_new_impl q (S 0) view (Local c) k P None)) (b_dist (bg_new_impl q (S 0) view (Local c) k P None)) (b_q (bg_new_impl q (S 0) view (Local c) k P None)) (smp (S 0) i))
    with (s_weight k (v3_norm (away (S 0) q c)) q (smp (S 0) i)). rewrite X. unfold away. cbn [bg_new_impl b_q]. ring.
Qed.

(** ** Moving meshes *)
Lemma mesh_length V U s : length (mesh_line V U s) = length V.
Proof. unfold mesh_line. rewrite map_length, combine_length, seq_length, Nat.min_id. reflexivity. Qed.
Lemma mesh_pt V U s i : (i < length V)%nat -> pt (mesh_line V U s) i = v3_line (pt V i) (U i) s.
Proof.
  intros L. unfold pt, mesh_line. set (f := fun p : nat * v3 => _). rewrite (nth_indep _ v3_0 (f (O, v3_0))) by (rewrite map_length, combine_length, seq_length, Nat.min_id; exact L).
  rewrite map_nth, combine_nth by apply seq_length. rewrite seq_nth by exact L. reflexivity.
Qed.
Lemma mesh_0 V U : mesh_line V U 0 = V.
Proof.
  apply (nth_ext _ _ v3_0 v3_0); [apply mesh_length|]. intros i L. rewrite mesh_length in L. change (pt (mesh_line V U 0) i = pt V i). rewrite mesh_pt by exact L.
  apply v3_eq; unv; ring.
Qed.
(** Rate of the area normal. *)
Definition tri_rate (V : list v3) (U : nat -> v3) (t : triangle) : v3 :=
  let '(a, b, c) := t in
  v3_add (v3_cross (v3_sub (U b) (U a)) (v3_sub (pt V c) (pt V a))) (v3_cross (v3_sub (pt V b) (pt V a)) (v3_sub (U c) (U a))).
Lemma area_moves V U t : (forall v, In v (tri_verts t) -> (v < length V)%nat) -> moves (fun s => area_vector (mesh_line V U s) t) (tri_rate V U t).
Proof.
  destruct t as [[a b] c]. intros L. assert (a < length V /\ b < length V /\ c < length V)%nat as (LA & LB & LC) by (repeat split; apply L; cbn; tauto).
  apply (moves_ext (fun s => v3_cross (v3_sub (v3_line (pt V b) (U b) s) (v3_line (pt V a) (U a) s)) (v3_sub (v3_line (pt V c) (U c) s) (v3_line (pt V a) (U a) s)))).
  { intros s. unfold area_vector. rewrite !mesh_pt by assumption. reflexivity. }
  assert (Z : forall p u, v3_line p u 0 = p) by (intros p u; apply v3_eq; unv; ring).
  assert (M : forall x y, moves (fun s => v3_sub (v3_line (pt V x) (U x) s) (v3_line (pt V y) (U y) s)) (v3_sub (U x) (U y))) by (intros x y; apply moves_sub; apply moves_line).
  assert (E := moves_cross _ _ _ _ (M b a) (M c a)). cbv beta in E. rewrite !Z in E. exact E.
Qed.
Lemma centroid_moves V U t : (forall v, In v (tri_verts t) -> (v < length V)%nat) ->
  moves (fun s => tri_centroid (mesh_line V U s) t) (v3_scale (1 / 3) (vsum (map U (tri_verts t)))).
Proof.
  destruct t as [[a b] c]. intros L. assert (a < length V /\ b < length V /\ c < length V)%nat as (LA & LB & LC) by (repeat split; apply L; cbn; tauto).
  apply (moves_ext (fun s => v3_scale (1 / 3) (v3_add (v3_add (v3_line (pt V a) (U a) s) (v3_line (pt V b) (U b) s)) (v3_line (pt V c) (U c) s)))).
  { intros s. unfold tri_centroid, centroid. rewrite !mesh_pt by assumption. reflexivity. }
  replace (v3_scale (1 / 3) (vsum (map U (tri_verts (a, b, c))))) with (v3_scale (1 / 3) (v3_add (v3_add (U a) (U b)) (U c))).
  - apply moves_scale, moves_add; [apply moves_add|]; apply moves_line.
  - cbn [tri_verts map]. f_equal. apply v3_eq; unfold vsum; cbn [fold_right]; unfold v3_add, v3_0; cbn [vx vy vz]; ring.
Qed.
(** The gradients of the area normal, corner by corner. *)
Lemma tri_at_some V t : (forall v, In v (tri_verts t) -> (v < length V)%nat) -> let '(a, b, c) := t in tri_at V t = Some (pt V a, pt V b, pt V c).
Proof.
  destruct t as [[a b] c]. intros L. unfold tri_at, pt. rewrite !(nth_error_nth' V v3_0) by (apply L; cbn; tauto). reflexivity.
Qed.
Lemma corner_sum V U t tri x : tri_at V t = Some tri -> (forall v, In v (tri_verts t) -> (v < length V)%nat) ->
  v3_dot x (tri_rate V U t) = - rsum (map (fun p => v3_dot (m3_mulv (area_normal_gradient tri (fst p)) x) (U (snd p))) (combine [0; 1; 2]%nat (tri_verts t))).
Proof.
  intros T L. pose proof (tri_at_some V t L) as E. destruct t as [[a b] c]. rewrite E in T. injection T as <-. cbn [combine tri_verts map fst snd area_normal_gradient].
  rewrite !rsum_cons, rsum_nil, !skew_dot. unfold tri_rate. generalize (pt V a) (pt V b) (pt V c) (U a) (U b) (U c). clear. intros A B C Ua Ub Uc.
  destruct A as [a0 a1 a2], B as [b0 b1 b2], C as [c0 c1 c2], Ua as [u0 u1 u2], Ub as [v0 v1 v2], Uc as [w0 w1 w2], x as [x0 x1 x2].
  unfold v3_dot, v3_cross, v3_sub, v3_add. cbn [vx vy vz]. ring.
Qed.

(** ** Face samples *)
Lemma neg_mul_dot G Q x u : v3_dot (m3_mulv (m3_mul (m3_neg G) Q) x) u = - v3_dot (m3_mulv G (m3_mulv Q x)) u.
Proof.
  destruct G as [[g0 g1 g2] [g3 g4 g5] [g6 g7 g8]], Q as [[q0 q1 q2] [q3 q4 q5] [q6 q7 q8]], x as [x0 x1 x2], u as [u0 u1 u2].
  unfold v3_dot, m3_mulv, m3_mul, m3_neg, m3_scale, m3_transpose, m3_mulv, v3_dot, v3_scale. cbn [vx vy vz r0 r1 r2]. ring.
Qed.
Lemma projection_same n x : n <> v3_0 -> m3_mulv (scaled_tangent_projection (v3_scale (1 / v3_norm n) n) (1 / v3_norm n)) x =
  m3_mulv (m3_sub m3_I (outer n (v3_scale (1 / v3_norm n * (1 / v3_norm n)) n))) (v3_scale (1 / v3_norm n) x).
Proof.
  intros N. apply v3_norm_pos in N. set (r := v3_norm n) in *. clearbody r. destruct n as [n0 n1 n2], x as [x0 x1 x2].
  unfold scaled_tangent_projection, m3_mulv, m3_sub, m3_I, m3_diag, m3_scale, outer, v3_scale, v3_sub, v3_dot, m3_I, v3_scale. cbn [vx vy vz r0 r1 r2]. apply v3_eq; cbn [vx vy vz]; field; lra.
Qed.
Lemma face_products V topo b i : (i < length topo)%nat -> (forall v, In v (tri_verts (nth i topo (0, 0, 0)%nat)) -> (v < length V)%nat) ->
  exists l, face_normal_products V topo b i = Some l /\ length l = 3%nat /\
    (s_nml (smp (b_all b) i) <> v3_0 -> forall U, v3_dot (unit_normal_product b i) (tri_rate V U (nth i topo (0, 0, 0)%nat)) =
       rsum (map (fun p => v3_dot (snd p) (U (fst p))) (combine (tri_verts (nth i topo (0, 0, 0)%nat)) l))).
Proof.
  intros L R. unfold face_normal_products, face_unit_normal_gradients. cbv zeta. rewrite (nth_error_nth' topo (0, 0, 0)%nat) by exact L. set (t := nth i topo (0, 0, 0)%nat) in *.
  pose proof (tri_at_some V t R) as TA. destruct t as [[x y] z]. rewrite TA. cbn [option_map map]. eexists. split; [reflexivity|]. split; [reflexivity|].
  intros N U. rewrite (corner_sum V U (x, y, z) _ _ TA R). cbn [combine tri_verts map fst snd]. rewrite !rsum_cons, rsum_nil, !neg_mul_dot.
  assert (P : m3_mulv (scaled_tangent_projection (v3_scale (1 / v3_norm (s_nml (smp (b_all b) i))) (s_nml (smp (b_all b) i))) (1 / v3_norm (s_nml (smp (b_all b) i)))) (weighted_displacement b i) = unit_normal_product b i)
    by (rewrite projection_same by exact N; reflexivity).
  rewrite P. ring.
Qed.
Definition paired (U : nat -> v3) (cols : list nat) (blocks : list v3) : R := rsum (map (fun p => v3_dot (snd p) (U (fst p))) (combine cols blocks)).
Lemma paired_app U a b c d : length a = length b -> paired U (a ++ c) (b ++ d) = paired U a b + paired U c d.
Proof.
  revert b. induction a as [|x a IH]; intros [|y b] L; try discriminate; cbn [app].
  - change (paired U [] []) with (rsum []). rewrite rsum_nil. ring.
  - unfold paired in *. cbn [combine map]. rewrite !rsum_cons. rewrite IH by (cbn in L; lia). ring.
Qed.
Lemma combine_app_eq {A B} : forall (a c : list A) (b d : list B), length a = length b -> combine (a ++ c) (b ++ d) = combine a b ++ combine c d.
Proof. induction a as [|x a IH]; intros c [|y b] d L; try discriminate; cbn; [reflexivity|]. f_equal. apply IH. cbn in L. lia. Qed.
Lemma face_sum V topo b sj U view : (forall i, In i view -> (i < length topo)%nat /\ s_nml (smp (b_all b) i) <> v3_0 /\ forall v, In v (tri_verts (nth i topo (0, 0, 0)%nat)) -> (v < length V)%nat) ->
  exists nml, all_some (map (face_normal_products V topo b) view) = Some nml /\
    paired U (concat (map (fun i => tri_verts (nth i topo (0, 0, 0)%nat)) view))
      (map (fun p => v3_add (v3_scale (1 / 3) (fst p)) (snd p)) (combine (flat_map (fun m => repeat m 3) (map sj view)) (concat nml))) =
    rsum (map (fun i => v3_dot (sj i) (v3_scale (1 / 3) (vsum (map U (tri_verts (nth i topo (0, 0, 0)%nat)))))) view) +
    rsum (map (fun i => v3_dot (unit_normal_product b i) (tri_rate V U (nth i topo (0, 0, 0)%nat))) view).
Proof.
  induction view as [|i view IH]; intros H.
  - exists []. split; [reflexivity|]. unfold paired. cbn. ring.
  - destruct IH as (nml & E & S); [intros j J; apply H; right; exact J|]. destruct (H i (or_introl eq_refl)) as (L & N & R).
    destruct (face_products V topo b i L R) as (l & F & LL & SP). specialize (SP N U). exists (l :: nml). cbn [map all_some]. rewrite F, E. split; [reflexivity|].
    cbn [flat_map concat]. rewrite combine_app_eq by (rewrite repeat_length; symmetry; exact LL). rewrite map_app.
    assert (TL : forall t, length (tri_verts t) = 3%nat) by (intros [[? ?] ?]; reflexivity).
    rewrite paired_app by (rewrite map_length, combine_length, repeat_length, LL, TL; reflexivity).
    rewrite S, !rsum_cons, SP. clear S SP E F. change (@nth (nat * nat * nat) i topo) with (@nth triangle i topo). generalize (@nth triangle i topo (0, 0, 0)%nat). intros [[x y] z].
    destruct l as [|l0 [|l1 [|l2 [|? ?]]]]; try discriminate. unfold paired. cbn [repeat combine map tri_verts fst snd]. rewrite !rsum_cons, !rsum_nil, !dot_add_l, !dot_scale_l.
    unfold vsum. cbn [fold_right]. rewrite (dot_comm (sj i) (v3_scale _ _)), dot_scale_l, !dot_add_l, dot_0_l. rewrite !(dot_comm (U _) (sj i)). ring.
Qed.

(** ** Vertex samples *)
Lemma mulv_add A x y : m3_mulv A (v3_add x y) = v3_add (m3_mulv A x) (m3_mulv A y).
Proof. unfold m3_mulv. rewrite !dot_add_r. reflexivity. Qed.
Lemma mulv_0 A : m3_mulv A v3_0 = v3_0.
Proof. unfold m3_mulv. rewrite !(dot_comm _ v3_0), !dot_0_l. reflexivity. Qed.
Lemma vsum_zero {A} (f : A -> v3) l : (forall a, In a l -> f a = v3_0) -> vsum (map f l) = v3_0.
Proof. induction l as [|a l IH]; intros H; [reflexivity|]. cbn [map]. change (vsum (f a :: map f l)) with (v3_add (f a) (vsum (map f l))). rewrite IH by (intros b B; apply H; right; exact B). rewrite (H a (or_introl eq_refl)). apply v3_eq; unv; ring. Qed.
Lemma own_and_others (f : nat -> v3) j t : distinct_corners t -> In j (tri_verts t) ->
  v3_add (f j) (vsum (map f (filter (fun i => negb (Nat.eqb i j)) (tri_verts t)))) = vsum (map f (tri_verts t)).
Proof.
  destruct t as [[a b] c]. unfold distinct_corners, tri_verts. intros N I. inversion N as [|? ? N1 N2]; subst. inversion N2 as [|? ? N3 _]; subst. cbn [In] in N1, N3, I.
  cbn [filter]. destruct (Nat.eqb_spec a j), (Nat.eqb_spec b j), (Nat.eqb_spec c j); subst; cbn [negb]; try (exfalso; tauto); try (exfalso; intuition congruence);
    unfold vsum; cbn [map fold_right]; apply v3_eq; unfold v3_add, v3_0; cbn [vx vy vz]; ring.
Qed.
(** What a vertex receives from one of its triangles. *)
Definition share (V : list v3) (t : triangle) (j : nat) (x u : v3) : R :=
  match tri_at V t, position j t with Some tri, Some p => - v3_dot (m3_mulv (area_normal_gradient tri p) x) u | _, _ => 0 end.
Lemma shares V U t x : distinct_corners t -> (forall v, In v (tri_verts t) -> (v < length V)%nat) ->
  rsum (map (fun j => share V t j x (U j)) (tri_verts t)) = v3_dot x (tri_rate V U t).
Proof.
  intros D L. pose proof (tri_at_some V t L) as E. rewrite (corner_sum V U t (let '(a, b, c) := t in (pt V a, pt V b, pt V c)) x) by (try exact L; destruct t as [[a b] c]; exact E).
  destruct t as [[a b] c]. unfold distinct_corners, tri_verts in *. inversion D as [|? ? N1 N2]; subst. inversion N2 as [|? ? N3 _]; subst. cbn [In] in N1, N3.
  unfold share. rewrite E. cbn [map combine fst snd position]. rewrite !Nat.eqb_refl.
  destruct (Nat.eqb_spec a b), (Nat.eqb_spec a c), (Nat.eqb_spec b c); try (exfalso; intuition congruence). rewrite !rsum_cons, rsum_nil. ring.
Qed.
Lemma rsum_opp {A} (f : A -> R) l : rsum (map (fun a => - f a) l) = - rsum (map f l).
Proof. rewrite <- (Rmult_1_l (rsum (map f l))), Ropp_mult_distr_l, <- rsum_scale. apply rsum_ext. intros. ring. Qed.
Lemma vertex_product B b j u : sb_type B = SVertex -> well_formed B -> proper_mesh B -> map s_pos (b_all b) = sb_verts B -> (j < length (sb_verts B))%nat ->
  exists x, vertex_normal_product (sb_topo B) (sb_dual B) b j = Some x /\
    v3_dot x u = rsum (map (fun t => if has_corner j t then share (sb_verts B) t j (vsum (map (unit_normal_product b) (tri_verts t))) u else 0) (sb_topo B)).
Proof.
  intros TY [WT W] [PC PD] PO LJ. rewrite TY in W. destruct W as (_ & _ & W). destruct (PD TY) as [LD ND]. specialize (ND j).
  assert (MEM : forall t, In t (nth j (sb_dual B) []) <-> (t < length (sb_topo B))%nat /\ has_corner j (nth t (sb_topo B) (0, 0, 0)%nat) = true).
  { intros t. rewrite W. unfold has_corner. change (existsb (Nat.eqb j) ?l) with (memb l j). rewrite memb_in. rewrite LD. tauto. }
  unfold vertex_normal_product. rewrite (nth_error_nth' (sb_dual B) []) by (rewrite LD; exact LJ).
  set (g := fun t => share (sb_verts B) t j (vsum (map (unit_normal_product b) (tri_verts t))) u).
  assert (EACH : forall t, In t (nth j (sb_dual B) []) -> exists y, vertex_tri_product (sb_topo B) b j t = Some y /\ - v3_dot y u = g (nth t (sb_topo B) (0, 0, 0)%nat)).
  { intros t IT. apply MEM in IT. destruct IT as [LT HC]. unfold vertex_tri_product. rewrite (nth_error_nth' (sb_topo B) (0, 0, 0)%nat) by exact LT.
    assert (IN : In (nth t (sb_topo B) (0, 0, 0)%nat) (sb_topo B)) by (apply nth_In; exact LT). rewrite PO. set (tr := nth t (sb_topo B) (0, 0, 0)%nat) in *.
    assert (HJ : In j (tri_verts tr)) by (apply memb_in; exact HC).
    assert (TA : exists tri, tri_at (sb_verts B) tr = Some tri) by (pose proof (tri_at_some (sb_verts B) tr (fun v => WT tr v IN)) as E; destruct tr as [[? ?] ?]; eauto).
    assert (PJ : exists p, position j tr = Some p).
    { destruct tr as [[x y] z]. unfold position. cbn in HJ. destruct (Nat.eqb_spec x j); [eauto|]. destruct (Nat.eqb_spec y j); [eauto|]. destruct (Nat.eqb_spec z j); [eauto|]. exfalso. intuition. }
    destruct TA as [tri TA], PJ as [p PJ]. rewrite TA, PJ. eexists. split; [reflexivity|]. unfold g, share. rewrite TA, PJ. rewrite own_and_others by (try apply PC; assumption). reflexivity. }
  assert (ALL : forall l, (forall t, In t l -> In t (nth j (sb_dual B) [])) -> exists ys, all_some (map (vertex_tri_product (sb_topo B) b j) l) = Some ys /\
    v3_dot (v3_neg (vsum ys)) u = rsum (map (fun t => g (nth t (sb_topo B) (0, 0, 0)%nat)) l)).
  { induction l as [|t l IH]; intros H; [exists []; split; [reflexivity|]; rewrite dot_neg_l; unfold vsum; cbn [fold_right map]; rewrite dot_0_l, rsum_nil; ring|].
    destruct IH as (ys & E & S); [intros s I; apply H; right; exact I|]. destruct (EACH t (H t (or_introl eq_refl))) as (y & EY & SY). exists (y :: ys). cbn [map all_some]. rewrite EY, E. split; [reflexivity|].
    rewrite rsum_cons, <- S, <- SY. unfold vsum. cbn [fold_right]. fold (vsum ys). rewrite !dot_neg_l, dot_add_l. ring. }
  destruct (ALL _ (fun _ H => H)) as (ys & E & S). rewrite E. eexists. split; [reflexivity|]. rewrite S.
  etransitivity; [|apply (f_equal rsum), (map_nth_seq (fun t : triangle => if has_corner j t then g t else 0) (0, 0, 0)%nat (sb_topo B))]. cbv beta. rewrite rsum_filter. apply rsum_perm, Permutation_map, NoDup_Permutation; [exact ND|apply NoDup_filter, seq_NoDup|].
  intros t. rewrite filter_In, in_seq, MEM. intuition lia.
Qed.
Lemma vertex_sum B b U view : sb_type B = SVertex -> well_formed B -> proper_mesh B -> map s_pos (b_all b) = sb_verts B -> NoDup view ->
  (forall j, In j view -> (j < length (sb_verts B))%nat) ->
  (forall k t j, In t (sb_topo B) -> In k (tri_verts t) -> In j (tri_verts t) -> ~ In j view -> unit_normal_product b k = v3_0) ->
  exists nml, all_some (map (vertex_normal_product (sb_topo B) (sb_dual B) b) view) = Some nml /\ length nml = length view /\
    paired U view nml = rsum (map (fun k => v3_dot (unit_normal_product b k) (vsum (map (tri_rate (sb_verts B) U) (filter (has_corner k) (sb_topo B))))) view).
Proof.
  intros TY WF PM PO ND LV Z. set (V := sb_verts B) in *. set (topo := sb_topo B) in *. set (unp := unit_normal_product b) in *.
  set (c := fun j t => share V t j (vsum (map unp (tri_verts t))) (U j)).
  assert (E : exists nml, all_some (map (vertex_normal_product topo (sb_dual B) b) view) = Some nml /\ length nml = length view /\
    paired U view nml = rsum (map (fun j => rsum (map (fun t => if has_corner j t then c j t else 0) topo)) view)).
  { clear Z ND. induction view as [|j view IH]; [exists []; repeat split; unfold paired; cbn; ring|].
    destruct IH as (nml & E & L & S); [intros i I; apply LV; right; exact I|]. destruct (vertex_product B b j (U j) TY WF PM PO (LV j (or_introl eq_refl))) as (x & EX & SX).
    exists (x :: nml). cbn [map all_some]. fold topo in EX. rewrite EX, E. split; [reflexivity|]. split; [cbn; lia|]. unfold paired in *. cbn [combine map fst snd]. rewrite !rsum_cons, S, SX. reflexivity. }
  destruct E as (nml & E & L & S). exists nml. split; [exact E|]. split; [exact L|]. rewrite S. clear S E L nml.
  destruct PM as [PC _]. destruct WF as [WT _]. fold topo in PC, WT. fold V in WT.
  rewrite rsum_swap. transitivity (rsum (map (fun t => rsum (map (fun k => v3_dot (unp k) (tri_rate V U t)) (tri_verts t))) topo)).
  - apply rsum_ext. intros t T. change (fun a : nat => if has_corner a t then c a t else 0) with (fun a : nat => if memb (tri_verts t) a then c a t else 0).
    rewrite (rsum_members view (tri_verts t) (fun j => c j t) ND (PC t T)). rewrite <- dot_vsum. rewrite <- (shares V U t _ (PC t T) (fun v => WT t v T)). apply rsum_ext. intros j J.
    destruct (memb view j) eqn:M; [reflexivity|]. assert (NJ : ~ In j view) by (intros I; apply memb_in in I; congruence).
    symmetry. fold (c j t). unfold c, share. rewrite vsum_zero by (intros k K; apply (Z k t j T K J NJ)). destruct (tri_at V t); [|reflexivity]. destruct (position j t); [|reflexivity]. rewrite mulv_0, dot_0_l. ring.
  - transitivity (rsum (map (fun k => rsum (map (fun t => if has_corner k t then v3_dot (unp k) (tri_rate V U t) else 0) topo)) view)).
    + rewrite (rsum_swap (fun k t => if has_corner k t then v3_dot (unp k) (tri_rate V U t) else 0)). apply rsum_ext. intros t T.
      etransitivity; [|exact (eq_sym (rsum_members view (tri_verts t) (fun k => v3_dot (unp k) (tri_rate V U t)) ND (PC t T)))]. apply rsum_ext. intros k K.
      destruct (memb view k) eqn:M; [reflexivity|]. assert (NK : ~ In k view) by (intros I; apply memb_in in I; congruence). rewrite (Z k t k T K K NK). apply dot_0_l.
    + apply rsum_ext. intros k _. rewrite dot_vsum_r. rewrite <- rsum_filter. reflexivity.
Qed.

(** ** Rows *)
Lemma surface_row_total t q nbrs : well_formed (q_base t) -> proper_mesh (q_base t) -> (sb_type (q_base t) = SVertex -> map s_pos (sb_samples (q_base t)) = sb_verts (q_base t)) ->
  (forall i, In i nbrs -> (i < length (sb_samples (q_base t)))%nat) -> nbrs <> [] -> exists blocks, surface_row t q nbrs = Some blocks.
Proof.
  intros WF PM PO LEN NE. unfold surface_row. destruct (closest_some q (sb_samples (q_base t)) nbrs NE) as [c C]. destruct (sb_type (q_base t)) eqn:TY.
  - unfold vertex_jacobian_at, bg_local. rewrite C. match goal with |- context [all_some (map ?f ?l)] => destruct (all_some_total f l) as [r ->] end; [|eexists; reflexivity].
    intros j J. destruct (vertex_product (q_base t) (bg_new_impl q (sb_samples (q_base t)) nbrs (Local c) (q_kernel t) (sb_bg (q_base t)) None) j v3_0 TY WF PM) as (x & X & _); [apply PO; reflexivity| |eauto].
    rewrite <- (PO eq_refl), map_length. apply LEN, J.
  - unfold face_jacobian_at, bg_local. rewrite C. match goal with |- context [all_some (map ?f ?l)] => destruct (all_some_total f l) as [r ->] end; [|eexists; reflexivity].
    destruct WF as [WT W]. rewrite TY in W. intros i I. pose proof (LEN i I) as L. rewrite W in L.
    destruct (face_products (sb_verts (q_base t)) (sb_topo (q_base t)) (bg_new_impl q (sb_samples (q_base t)) nbrs (Local c) (q_kernel t) (sb_bg (q_base t)) None) i L) as (l & F & _); [|eauto].
    intros v. apply WT, nth_In. exact L.
Qed.
Lemma columns_total t nbrs : well_formed (q_base t) -> (forall i, In i nbrs -> (i < length (sb_samples (q_base t)))%nat) ->
  all_some (map (columns (q_base t)) nbrs) = Some (map (fun i => match sb_type (q_base t) with SVertex => [i] | SFace => tri_verts (nth i (sb_topo (q_base t)) (0, 0, 0)%nat) end) nbrs).
Proof.
  intros [_ W] LEN. apply all_some_forall2. induction nbrs as [|i nbrs IH]; cbn [map]; constructor; [|apply IH; intros j J; apply LEN; right; exact J].
  pose proof (LEN i (or_introl eq_refl)) as L. unfold columns. destruct (sb_type (q_base t)); [reflexivity|]. rewrite W in L. rewrite (nth_error_nth' _ (0, 0, 0)%nat) by exact L. reflexivity.
Qed.
Lemma row_of_concat {A} (f : nat * A -> option (list (nat * nat * v3))) U r (a : A) cols blocks : forall l ls,
  (forall p m, f p = Some m -> forall e, In e m -> fst (fst e) = fst p) -> NoDup (map fst l) -> In (r, a) l -> all_some (map f l) = Some ls ->
  f (r, a) = Some (map (fun cb => (r, fst cb, snd cb)) (combine cols blocks)) -> row_product (concat ls) U r = paired U cols blocks.
Proof.
  intros l ls LAB. revert ls.
  assert (APP : forall x y, row_product (x ++ y) U r = row_product x U r + row_product y U r) by (intros x y; unfold row_product; rewrite map_app, rsum_app; reflexivity).
  assert (OTHER : forall l ls, ~ In r (map fst l) -> all_some (map f l) = Some ls -> row_product (concat ls) U r = 0).
  { induction l0 as [|p l0 IH]; intros ls N E; cbn [map all_some] in E; [injection E as <-; unfold row_product; cbn; reflexivity|].
    destruct (f p) as [m|] eqn:F; [|discriminate]. destruct (all_some (map f l0)) as [ls'|]; [|discriminate]. injection E as <-. cbn [concat]. rewrite APP, (IH ls') by (try reflexivity; intros I; apply N; right; exact I).
    assert (M : row_product m U r = 0). { unfold row_product. apply rsum_zero. intros [[row col] J] I. destruct (Nat.eqb_spec row r) as [->|]; [|reflexivity]. exfalso. apply N. left. symmetry. exact (LAB p m F _ I). }
    rewrite M. ring. }
  induction l as [|p l IH]; intros ls ND I E F; [destruct I|]. cbn [map] in ND. inversion ND as [|? ? N1 N2]; subst. cbn [map all_some] in E. destruct (f p) as [m|] eqn:FP; [|discriminate].
  destruct (all_some (map f l)) as [ls'|] eqn:ES; [|discriminate]. injection E as <-. cbn [concat]. rewrite APP. destruct I as [->|I].
  - rewrite (OTHER l ls' N1 ES), Rplus_0_r. rewrite F in FP. injection FP as <-. unfold row_product, paired. rewrite map_map. apply rsum_ext. intros [c J] _. cbn [fst snd]. rewrite Nat.eqb_refl. reflexivity.
  - rewrite (IH ls' N2 I eq_refl F).
    assert (M : row_product m U r = 0). { unfold row_product. apply rsum_zero. intros [[row col] J] I'. destruct (Nat.eqb_spec row r) as [->|]; [|reflexivity]. exfalso. apply N1. rewrite <- (LAB p m FP _ I'). cbn [fst]. apply (in_map fst) in I. exact I. }
    rewrite M. ring.
Qed.

(** ** Samples of a moving mesh *)
Lemma potential_ext q S S' view k P v : (forall i, In i view -> s_pos (smp S' i) = s_pos (smp S i) /\ s_nml (smp S' i) = s_nml (smp S i) /\ s_value (smp S' i) = s_value (smp S i)) ->
  potential_at q S' view k P v = potential_at q S view k P v.
Proof.
  intros E. assert (A : forall i, In i view -> away S' q i = away S q i) by (intros i Hi; unfold away; destruct (E i Hi) as (-> & _); reflexivity).
  assert (D : forall i, In i view -> dist2 S' q i = dist2 S q i) by (intros i Hi; unfold dist2; destruct (E i Hi) as (-> & _); reflexivity).
  destruct (closest_sample q S view) as [c|] eqn:C.
  - assert (C' : closest_sample q S' view = Some c) by (rewrite <- C; apply closest_ext; exact D).
    rewrite (potential_form _ _ _ _ _ _ _ C), (potential_form _ _ _ _ _ _ _ C'). assert (IC : In c view) by (apply (closest_in _ _ _ _ C)). apply form_ext; auto.
    + intros i Hi. rewrite A by exact Hi. reflexivity.
    + intros i Hi. unfold plane_value. rewrite A by exact Hi. destruct (E i Hi) as (_ & -> & ->). reflexivity.
    + rewrite A by exact IC. destruct (E c IC) as (_ & -> & _). reflexivity.
  - assert (C' : closest_sample q S' view = None) by (rewrite <- C; apply closest_ext; exact D).
    unfold potential_at, bg_local. rewrite C, C'. reflexivity.
Qed.
Definition moved (b : base) (U : nat -> v3) (rebuild : bool) (s : R) : base := fst (update_base b (mesh_line (sb_verts b) U s) rebuild).
Lemma moved_sample b U rebuild s i : well_formed b -> (forall t, In t (sb_topo b) -> distinct_corners t) -> (i < length (sb_samples b))%nat ->
  let x := smp (sb_samples (moved b U rebuild s)) i in let V := mesh_line (sb_verts b) U s in
  s_value x = s_value (smp (sb_samples b) i) /\
  match sb_type b with
  | SFace => s_pos x = tri_centroid V (nth i (sb_topo b) (0, 0, 0)%nat) /\ s_nml x = area_vector V (nth i (sb_topo b) (0, 0, 0)%nat)
  | SVertex => s_pos x = v3_line (pt (sb_verts b) i) (U i) s /\ s_nml x = vsum (map (area_vector V) (filter (has_corner i) (sb_topo b)))
  end.
Proof.
  intros WF DC L. cbv zeta. unfold moved. destruct (update_base b (mesh_line (sb_verts b) U s) rebuild) as [b' k] eqn:E. cbn [fst].
  destruct (surface_update_exact _ _ _ _ _ WF E) as ((K & LV & V1 & _) & _ & _ & SM & _). rewrite mesh_length, Nat.min_id in K.
  assert (EV : sb_verts b' = mesh_line (sb_verts b) U s).
  { apply (nth_ext _ _ v3_0 v3_0); [rewrite LV, mesh_length; reflexivity|]. intros j J. rewrite LV in J. specialize (V1 j). rewrite K in V1. specialize (V1 J).
    rewrite (nth_error_nth' _ v3_0), (nth_error_nth' (mesh_line _ _ _) v3_0) in V1 by (rewrite ?LV, ?mesh_length; exact J). congruence. }
  specialize (SM i L). cbv zeta in SM. rewrite EV in SM. destruct SM as [SV SM]. split; [exact SV|]. destruct (sb_type b) eqn:TY.
  - destruct SM as [SP SN]. split; [|apply SN, DC]. rewrite SP. apply mesh_pt. destruct WF as [_ W]. rewrite TY in W. destruct W as [W _]. rewrite <- W. exact L.
  - change (@nth (nat * nat * nat) i (sb_topo b)) with (@nth triangle i (sb_topo b)) in *. revert SM. generalize (@nth triangle i (sb_topo b) (0, 0, 0)%nat). intros [[x y] z] [SP SN]. split; [|exact SN].
    unfold tri_centroid, centroid. rewrite <- SP. apply v3_eq; unfold v3_scale; cbn [vx vy vz]; field.
Qed.
Lemma in_place_moved b U rebuild i : well_formed b -> (forall t, In t (sb_topo b) -> distinct_corners t) -> in_place b -> (i < length (sb_samples b))%nat ->
  s_pos (smp (sb_samples (moved b U rebuild 0)) i) = s_pos (smp (sb_samples b) i) /\ s_nml (smp (sb_samples (moved b U rebuild 0)) i) = s_nml (smp (sb_samples b) i).
Proof.
  intros WF DC IP L. destruct (moved_sample b U rebuild 0 i WF DC L) as [_ M]. specialize (IP i L). cbv zeta in IP. rewrite mesh_0 in M. destruct (sb_type b); destruct M as [-> ->], IP as [-> ->].
  - split; [apply v3_eq; unv; ring|reflexivity].
  - split; reflexivity.
Qed.
Lemma moved_length b U rebuild s : length (sb_samples (moved b U rebuild s)) = length (sb_samples b).
Proof. unfold moved. cbn [fst update_base sb_samples]. unfold update_samples. cbn [sb_type]. destruct (sb_type b); cbv zeta; cbn [sb_samples sb_verts]; rewrite !zip_update_length; reflexivity. Qed.
(** The same samples with the velocities they had. *)
Definition keep (S T : list sample) : list sample := map (fun p => Sample (s_pos (snd p)) (s_nml (snd p)) (s_vel (fst p)) (s_value (snd p))) (combine S T).
Lemma keep_smp S T i : length T = length S -> (i < length S)%nat -> smp (keep S T) i = Sample (s_pos (smp T i)) (s_nml (smp T i)) (s_vel (smp S i)) (s_value (smp T i)).
Proof.
  intros L I. unfold smp at 1, keep. set (f := fun p : sample * sample => _). rewrite (nth_indep _ sample0 (f (sample0, sample0))) by (rewrite map_length, combine_length, L, Nat.min_id; exact I).
  rewrite map_nth, combine_nth by (symmetry; exact L). reflexivity.
Qed.
(** Rates of positions and normals. *)
Definition pos_rate (b : base) (U : nat -> v3) (i : nat) : v3 :=
  match sb_type b with SVertex => U i | SFace => v3_scale (1 / 3) (vsum (map U (tri_verts (nth i (sb_topo b) (0, 0, 0)%nat)))) end.
Definition nml_rate (b : base) (U : nat -> v3) (i : nat) : v3 :=
  match sb_type b with
  | SVertex => vsum (map (tri_rate (sb_verts b) U) (filter (has_corner i) (sb_topo b)))
  | SFace => tri_rate (sb_verts b) U (nth i (sb_topo b) (0, 0, 0)%nat)
  end.
Lemma moving_mesh b U rebuild view : well_formed b -> (forall t, In t (sb_topo b) -> distinct_corners t) -> in_place b -> (forall i, In i view -> (i < length (sb_samples b))%nat) ->
  let S s := keep (sb_samples b) (sb_samples (moved b U rebuild s)) in
  S 0 = sb_samples b /\ moving_samples S view (pos_rate b U) (nml_rate b U) /\
  forall q k P v s, potential_at q (sb_samples (moved b U rebuild s)) view k P v = potential_at q (S s) view k P v.
Proof.
  intros WF DC IP LEN S.
  assert (SM : forall s i, (i < length (sb_samples b))%nat -> smp (S s) i = Sample (s_pos (smp (sb_samples (moved b U rebuild s)) i)) (s_nml (smp (sb_samples (moved b U rebuild s)) i)) (s_vel (smp (sb_samples b) i)) (s_value (smp (sb_samples b) i))).
  { intros s i L. unfold S. rewrite keep_smp by (try exact L; apply moved_length). destruct (moved_sample b U rebuild s i WF DC L) as [-> _]. reflexivity. }
  split; [|split].
  - apply (nth_ext _ _ sample0 sample0).
    + unfold S, keep. rewrite map_length, combine_length, moved_length. apply Nat.min_id.
    + intros i L. unfold S, keep in L. rewrite map_length, combine_length, moved_length, Nat.min_id in L. change (smp (S 0) i = smp (sb_samples b) i). rewrite SM by exact L.
      destruct (in_place_moved b U rebuild i WF DC IP L) as [-> ->]. destruct (smp (sb_samples b) i); reflexivity.
  - intros i Hi. pose proof (LEN i Hi) as L. unfold pos_rate, nml_rate. destruct (sb_type b) eqn:TY; refine (conj _ (conj _ _)); try (intros s; rewrite !SM by exact L; reflexivity).
    + apply (moves_ext (v3_line (pt (sb_verts b) i) (U i))); [|apply moves_line]. intros s. rewrite SM by exact L. destruct (moved_sample b U rebuild s i WF DC L) as [_ M]. rewrite TY in M. destruct M as [M _]. symmetry. exact M.
    + apply (moves_ext (fun s => vsum (map (area_vector (mesh_line (sb_verts b) U s)) (filter (has_corner i) (sb_topo b))))).
      * intros s. rewrite SM by exact L. destruct (moved_sample b U rebuild s i WF DC L) as [_ M]. rewrite TY in M. destruct M as [_ M]. symmetry. exact M.
      * apply (moves_vsum (fun s t => area_vector (mesh_line (sb_verts b) U s) t)). intros t T. apply filter_In in T. apply area_moves. intros v. apply (proj1 WF), T.
    + apply (moves_ext (fun s => tri_centroid (mesh_line (sb_verts b) U s) (nth i (sb_topo b) (0, 0, 0)%nat))).
      * intros s. rewrite SM by exact L. destruct (moved_sample b U rebuild s i WF DC L) as [_ M]. rewrite TY in M. destruct M as [M _]. symmetry. exact M.
      * apply centroid_moves. intros v. apply (proj1 WF), nth_In. destruct WF as [_ W]. rewrite TY in W. rewrite <- W. exact L.
    + apply (moves_ext (fun s => area_vector (mesh_line (sb_verts b) U s) (nth i (sb_topo b) (0, 0, 0)%nat))).
      * intros s. rewrite SM by exact L. destruct (moved_sample b U rebuild s i WF DC L) as [_ M]. rewrite TY in M. destruct M as [_ M]. symmetry. exact M.
      * apply area_moves. intros v. apply (proj1 WF), nth_In. destruct WF as [_ W]. rewrite TY in W. rewrite <- W. exact L.
  - intros q k P v s. apply potential_ext. intros i Hi. rewrite SM by (apply LEN; exact Hi). cbn [s_pos s_nml s_value]. split; [reflexivity|]. split; [reflexivity|].
    apply (moved_sample b U rebuild s i WF DC (LEN i Hi)).
Qed.

(** ** One row is the derivative *)
Definition cols_of (b : base) (i : nat) : list nat := match sb_type b with SVertex => [i] | SFace => tri_verts (nth i (sb_topo b) (0, 0, 0)%nat) end.
Lemma no_weight k d q s r : support k = Some r -> r < v3_norm (v3_sub q (s_pos s)) -> s_weight k d q s = 0.
Proof.
  intros K L. assert (H : forall x, r < x -> k_f (with_closest k d) x = 0) by (intros x X; apply (kernel_support (with_closest k d) r); [destruct k; exact K|exact X]). unfold s_weight, k_eval. apply H. exact L.
Qed.
Lemma sample_positions b : well_formed b -> in_place b -> sb_type b = SVertex -> map s_pos (sb_samples b) = sb_verts b.
Proof.
  intros WF IP TY. destruct WF as [_ W]. rewrite TY in W. destruct W as [W _]. apply (nth_ext _ _ v3_0 v3_0); [rewrite map_length; exact W|]. intros i L. rewrite map_length in L.
  change v3_0 with (s_pos sample0) at 1. rewrite map_nth. specialize (IP i L). cbv zeta in IP. rewrite TY in IP. apply IP.
Qed.
Lemma surface_row_derive t U rebuild q nbrs c v : let b := q_base t in let k := q_kernel t in
  well_formed b -> proper_mesh b -> in_place b -> valid_kernel k -> NoDup nbrs -> (forall i, In i nbrs -> (i < length (sb_samples b))%nat) ->
  nearest (sb_samples b) q nbrs c -> regular_view k (sb_samples b) q nbrs -> smooth_background k (sb_bg b) v (sb_samples b) q c ->
  (sb_type b = SVertex -> rings_covered b k q nbrs) ->
  exists blocks, surface_row t q nbrs = Some blocks /\
    is_derive (fun s => potential_at q (sb_samples (fst (update_base b (mesh_line (sb_verts b) U s) rebuild))) nbrs k (sb_bg b) v) 0 (paired U (concat (map (cols_of b) nbrs)) blocks).
Proof.
  intros b k WF PM IP VK ND LEN NE RV SB RC. pose proof (proj1 PM) as DC.
  destruct (moving_mesh b U rebuild nbrs WF DC IP LEN) as (S0 & MS & EXT). cbv zeta in S0, MS, EXT. set (S := fun s => keep (sb_samples b) (sb_samples (moved b U rebuild s))) in *. change (keep _ _) with (S 0) in S0. cbv beta in MS.
  rewrite <- S0 in NE, RV, SB.
  destruct (surface_derive k (sb_bg b) v nbrs c q S (pos_rate b U) (nml_rate b U) VK ND MS NE RV SB) as (B & EB & BA & BQ & BV & BK & BD & sj & SJ & D).
  rewrite S0 in EB, BA, RV.
  assert (DD : forall d, d = rsum (map (fun i => v3_dot (sj i) (pos_rate b U i)) nbrs) + rsum (map (fun i => v3_dot (unit_normal_product B i) (nml_rate b U i)) nbrs) ->
    is_derive (fun s => potential_at q (sb_samples (fst (update_base b (mesh_line (sb_verts b) U s) rebuild))) nbrs k (sb_bg b) v) 0 d).
  { intros d ->. eapply is_derive_ext; [|exact D]. intros s. symmetry. apply EXT. }
  destruct (sb_type b) eqn:TY.
  - assert (PO : map s_pos (b_all B) = sb_verts b) by (rewrite BA; apply sample_positions; assumption).
    assert (SL : length (sb_samples b) = length (sb_verts b)) by (destruct WF as [_ W]; rewrite TY in W; apply W).
    destruct (vertex_sum b B U nbrs TY WF PM PO ND) as (nml & EN & LN & SN).
    { intros j J. rewrite <- SL. apply LEN, J. }
    { intros x tr j T X J NJ. assert (LX : (x < length (sb_samples b))%nat) by (rewrite SL; apply (proj1 WF tr); assumption).
      assert (Z : s_weight (b_kernel B) (b_dist B) (b_q B) (smp (b_all B) x) = 0).
      { rewrite BK, BQ, BA. specialize (RC eq_refl x LX). unfold in_reach in RC. destruct (support k) as [r|] eqn:SK.
        - destruct (Rle_dec (gap (sb_samples b) q x) r) as [LE|GT]; [exfalso; apply NJ; exact (proj2 (RC LE) tr j T X J)|]. apply (no_weight k _ q _ r SK). apply Rnot_le_lt in GT. exact GT.
        - exfalso. apply NJ. exact (proj2 (RC Logic.I) tr j T X J). }
      unfold unit_normal_product, weighted_displacement. cbv zeta. rewrite Z. match goal with |- m3_mulv ?M _ = _ => transitivity (m3_mulv M v3_0); [f_equal|apply mulv_0] end. apply v3_eq; unv; ring. }
    exists (map (fun p => v3_add (fst p) (snd p)) (combine (sample_jacobian_at B) nml)). split.
    + unfold surface_row. fold b. rewrite TY. unfold vertex_jacobian_at. fold k. rewrite EB, EN. reflexivity.
    + apply DD. rewrite SJ. unfold pos_rate, nml_rate, cols_of. rewrite TY. rewrite <- SN. clear -LN. revert nml LN. induction nbrs as [|i nbrs IH]; intros [|x nml] LN; try discriminate; [unfold paired; cbn; ring|].
      cbn in LN. injection LN as LN. unfold paired in *. cbn [map concat app combine fst snd]. rewrite !rsum_cons. rewrite (IH nml LN). rewrite dot_add_l. ring.
  - destruct (face_sum (sb_verts b) (sb_topo b) B sj U nbrs) as (nml & EN & SN).
    { intros i I. pose proof (LEN i I) as L. destruct WF as [WT W]. rewrite TY in W. rewrite W in L. split; [exact L|]. split; [rewrite BA; apply (RV i I)|]. intros w. apply WT, nth_In. exact L. }
    eexists. split.
    + unfold surface_row. fold b. rewrite TY. unfold face_jacobian_at. fold k. rewrite EB, EN. reflexivity.
    + apply DD. unfold pos_rate, nml_rate. rewrite TY. etransitivity; [|exact SN]. rewrite SJ. unfold cols_of. rewrite TY. reflexivity.
Qed.

(** ** The neighbourhood used for derivatives and the one used for values *)
Lemma dist2_line S q i p u : (forall s, s_pos (smp (S s) i) = v3_line p u s) -> exists l, is_derive (fun s => dist2 (S s) q i) 0 l.
Proof.
  intros E. eexists. eapply (is_derive_ext (fun s => (vx q - (vx p + s * vx u)) * (vx q - (vx p + s * vx u)) + (vy q - (vy p + s * vy u)) * (vy q - (vy p + s * vy u)) + (vz q - (vz p + s * vz u)) * (vz q - (vz p + s * vz u)))).
  - intros s. unfold dist2. rewrite E. unfold norm2, v3_sub, v3_line, v3_add, v3_scale, v3_dot. cbn [vx vy vz]. reflexivity.
  - auto_derive; [exact Logic.I|reflexivity].
Qed.
Lemma view_locally_irrelevant b U rebuild k q triv ext c r v : well_formed b -> proper_mesh b -> in_place b -> sb_type b = SVertex -> k_radius k = Some r -> 0 <= r ->
  NoDup triv -> NoDup ext -> (forall i, In i triv -> In i ext) -> (forall i, In i ext -> (i < length (sb_samples b))%nat) ->
  (forall i, (i < length (sb_samples b))%nat -> gap (sb_samples b) q i <= r -> In i triv) -> nearest (sb_samples b) q ext c -> gap (sb_samples b) q c < r ->
  locally 0 (fun s => potential_at q (sb_samples (moved b U rebuild s)) triv k (sb_bg b) v = potential_at q (sb_samples (moved b U rebuild s)) ext k (sb_bg b) v).
Proof.
  intros WF PM IP TY KR RP ND1 ND2 SUB LEN COV NE NR. set (N := length (sb_samples b)) in *. pose proof (proj1 PM) as DC.
  assert (POS : forall i, (i < N)%nat -> forall s, s_pos (smp (sb_samples (moved b U rebuild s)) i) = v3_line (pt (sb_verts b) i) (U i) s).
  { intros i L s. destruct (moved_sample b U rebuild s i WF DC L) as [_ M]. rewrite TY in M. apply M. }
  assert (G0 : forall i, (i < N)%nat -> gap (sb_samples (moved b U rebuild 0)) q i = gap (sb_samples b) q i).
  { intros i L. unfold gap, away. destruct (in_place_moved b U rebuild i WF DC IP L) as [-> _]. reflexivity. }
  assert (LTN : forall s i x, 0 <= x -> x * x < dist2 (sb_samples (moved b U rebuild s)) q i -> x < gap (sb_samples (moved b U rebuild s)) q i).
  { intros s i x X L. apply Rnot_le_lt. intros G. apply gap_dist2 in G; [lra|exact X]. }
  assert (LTD : forall i x, 0 <= x -> (i < N)%nat -> x < gap (sb_samples b) q i -> x * x < dist2 (sb_samples (moved b U rebuild 0)) q i).
  { intros i x X L G. apply Rnot_le_lt. intros D. apply gap_dist2 in D; [|exact X]. rewrite G0 in D by exact L. lra. }
  assert (CL : (c < N)%nat) by (apply LEN, NE).
  assert (GAP2 : forall s i, dist2 (sb_samples (moved b U rebuild s)) q i = gap (sb_samples (moved b U rebuild s)) q i * gap (sb_samples (moved b U rebuild s)) q i).
  { intros s i. unfold gap, away, dist2. set (d := v3_sub q _). unfold v3_norm. rewrite sqrt_sqrt; [reflexivity|]. unfold v3_dot. nra. }
  assert (NEAR : forall j, (j < N)%nat -> j <> c -> gap (sb_samples b) q c < gap (sb_samples b) q j).
  { intros j L J. destruct (Rle_dec (gap (sb_samples b) q j) r) as [LE|GT]; [|lra]. apply NE; [apply SUB, COV; assumption|exact J]. }
  assert (GP : forall S i, 0 <= gap S q i) by (intros S i; unfold gap, v3_norm; apply sqrt_pos).
  assert (L1 : locally 0 (fun s => forall j, In j (seq 0 N) -> j <> c -> dist2 (sb_samples (moved b U rebuild s)) q c < dist2 (sb_samples (moved b U rebuild s)) q j)).
  { apply locally_all. intros j J. apply in_seq in J. destruct (Nat.eq_dec j c) as [->|NJ]; [apply filter_forall; intros s H; congruence|].
    destruct (dist2_line (fun s => sb_samples (moved b U rebuild s)) q c _ _ (POS c CL)) as [l1 D1]. destruct (dist2_line (fun s => sb_samples (moved b U rebuild s)) q j _ _ (POS j ltac:(lia))) as [l2 D2].
    eapply filter_imp; [|apply (locally_lt _ _ l1 l2 D1 D2)]; [intros s H _; exact H|]. cbv beta. rewrite GAP2. rewrite G0 by exact CL. apply LTD; [apply GP|lia|]. apply NEAR; [lia|exact NJ]. }
  assert (L2 : locally 0 (fun s => forall j, In j (seq 0 N) -> ~ In j triv -> r * r < dist2 (sb_samples (moved b U rebuild s)) q j)).
  { apply locally_all. intros j J. apply in_seq in J. destruct (in_dec Nat.eq_dec j triv) as [I|NI]; [apply filter_forall; intros s H; contradiction|].
    destruct (dist2_line (fun s => sb_samples (moved b U rebuild s)) q j _ _ (POS j ltac:(lia))) as [l2 D2].
    eapply filter_imp; [|apply (locally_lt (fun _ => r * r) _ 0 l2 (@is_derive_const _ _ (r * r) 0) D2)]; [intros s H _; exact H|]. cbv beta. apply LTD; [exact RP|lia|].
    apply Rnot_le_lt. intros G. apply NI, COV; [lia|exact G]. }
  assert (L3 : locally 0 (fun s => dist2 (sb_samples (moved b U rebuild s)) q c < r * r)).
  { destruct (dist2_line (fun s => sb_samples (moved b U rebuild s)) q c _ _ (POS c CL)) as [l1 D1]. apply (locally_lt _ (fun _ => r * r) l1 0 D1 (@is_derive_const _ _ (r * r) 0)). rewrite GAP2, G0 by exact CL. specialize (GP (sb_samples b) c). nra. }
  eapply filter_imp; [|apply filter_and; [exact L1|apply filter_and; [exact L2|exact L3]]]. intros s (H1 & H2 & H3). set (T := sb_samples (moved b U rebuild s)) in *.
  assert (LT : length T = N) by apply moved_length.
  assert (W : forall i, within T q r i -> In i triv).
  { intros i [L G]. rewrite LT in L. destruct (in_dec Nat.eq_dec i triv) as [I|NI]; [exact I|]. exfalso. assert (X := H2 i ltac:(apply in_seq; lia) NI). apply gap_dist2 in G; [lra|exact RP]. }
  assert (EW : exists i, within T q r i) by (exists c; split; [lia|apply gap_dist2; [exact RP|lra]]).
  assert (UN : unique_nearest T q).
  { exists c. split; [lia|]. intros j L J. rewrite LT in L. assert (X := H1 j ltac:(apply in_seq; lia) J). unfold T in *. apply LTN; [apply GP|]. rewrite <- GAP2. exact X. }
  transitivity (potential_at q T (seq 0 (length T)) k (sb_bg b) v); [|symmetry]; apply (view_irrelevant k (sb_bg b) v q T _ r KR); auto; rewrite LT; intros i I; apply LEN; auto.
Qed.
