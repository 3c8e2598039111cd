(** Proofs about the second derivatives of the potential in the vertices of the surface: the quadratic form of the blocks of the code. *)
From Coq Require Import Reals List Bool Lra Lia Psatz.
From Coquelicot Require Import Coquelicot.
From Verif Require Import Vec3 Mat3 RList Calc KernelModel KernelSpec KernelProofs FieldModel FieldSpec FieldProofs FieldDerivProofs
  NeighborModel NeighborSpec UpdateProps SurfJacModel SurfJacSpec SurfJacProofs HessModel HessSpec HessProofs HessMixProofs SurfHessModel SurfHessSpec
  JetProofs SurfHessProofs.
From Verif Require MassProofs.
Import ListNotations.
Local Open Scope R_scope.

(** ** Quadratic forms of lower triangular blocks *)
(** The lower triangle of a diagonal block, mirrored. *)
Definition low_square (A : m3) (u : v3) : R :=
  vx (r0 A) * vx u * vx u + vy (r1 A) * vy u * vy u + vz (r2 A) * vz u * vz u
  + 2 * (vx (r1 A) * vy u * vx u + vx (r2 A) * vz u * vx u + vy (r2 A) * vz u * vy u).
Lemma low_scale m A u : low_square (m3_scale m A) u = m * low_square A u.
Proof. destruct A as [[a0 a1 a2] [a3 a4 a5] [a6 a7 a8]]. unfold low_square, m3_scale, v3_scale. cbn [r0 r1 r2 vx vy vz]. ring. Qed.
Lemma low_both A u : low_square A u + low_square (m3_transpose A) u = 2 * bil A u u.
Proof. destruct A as [[a0 a1 a2] [a3 a4 a5] [a6 a7 a8]], u as [u0 u1 u2]. unfold low_square, bil, m3_transpose, m3_mulv, v3_dot. cbn [r0 r1 r2 vx vy vz]. ring. Qed.
Lemma low_sum A u : low_square (m3_add A (m3_transpose A)) u = 2 * bil A u u.
Proof. destruct A as [[a0 a1 a2] [a3 a4 a5] [a6 a7 a8]], u as [u0 u1 u2]. unfold low_square, bil, m3_add, m3_transpose, m3_mulv, v3_add, v3_dot. cbn [r0 r1 r2 vx vy vz]. ring. Qed.
(** What the form of a diagonal block has to be: the lower triangle mirrored, or the block as it is. *)
Record square_rule (sq : m3 -> v3 -> R) : Prop := {
  sq_scale : forall m A u, sq (m3_scale m A) u = m * sq A u;
  sq_both : forall A u, sq A u + sq (m3_transpose A) u = 2 * bil A u u;
  sq_sum : forall A u, sq (m3_add A (m3_transpose A)) u = 2 * bil A u u }.
Lemma low_rule : square_rule low_square.
Proof. split; [exact low_scale|exact low_both|exact low_sum]. Qed.
Definition full_square (A : m3) (u : v3) : R := bil A u u.
Lemma full_rule : square_rule full_square.
Proof.
  split; unfold full_square; intros; [apply bil_scale|rewrite bil_transpose; ring|].
  destruct A as [[a0 a1 a2] [a3 a4 a5] [a6 a7 a8]], u as [u0 u1 u2]. unfold bil, m3_add, m3_transpose, m3_mulv, v3_add, v3_dot. cbn [r0 r1 r2 vx vy vz]. ring.
Qed.

Section Squares.
Variable sq : m3 -> v3 -> R.
Hypothesis SQ : square_rule sq.
Definition bform (U : nat -> v3) (h : nat * nat * m3) : R :=
  let '(i, j, A) := h in if Nat.eqb i j then sq A (U i) else 2 * bil A (U i) (U j).
Definition form (U : nat -> v3) (L : list (nat * nat * m3)) : R := rsum (map (bform U) L).
Lemma form_app U a b : form U (a ++ b) = form U a + form U b.
Proof. unfold form. rewrite map_app. apply rsum_app. Qed.
Lemma form_nil U : form U [] = 0.
Proof. apply rsum_nil. Qed.
Lemma form_flat_map {A} U (f : A -> list (nat * nat * m3)) l : form U (flat_map f l) = rsum (map (fun a => form U (f a)) l).
Proof. unfold form. induction l as [|a l IH]; [reflexivity|]. cbn [flat_map map]. rewrite map_app, rsum_app, rsum_cons, IH. reflexivity. Qed.
Lemma form_scale U m L : form U (map (fun h => (fst h, m3_scale m (snd h))) L) = m * form U L.
Proof.
  unfold form. rewrite map_map, <- rsum_scale. apply rsum_ext. intros [[i j] A] _. cbn [fst snd bform]. destruct (Nat.eqb i j); [apply (sq_scale _ SQ)|rewrite bil_scale; ring].
Qed.
Lemma lower_block_form U row col A : bform U (lower_block row col A) = 2 * bil A (U row) (U col).
Proof.
  unfold lower_block. destruct (Nat.ltb_spec col row) as [L|L].
  - cbn [bform]. destruct (Nat.eqb_spec row col); [lia|reflexivity].
  - destruct (Nat.ltb_spec row col) as [M|M]; cbn [bform].
    + destruct (Nat.eqb_spec col row); [lia|]. rewrite bil_transpose. reflexivity.
    + assert (row = col) as -> by lia. rewrite Nat.eqb_refl. apply (sq_sum _ SQ).
Qed.
(** One entry at or below the diagonal and the transposed one. *)
Lemma both_forms U i j A : (if Nat.leb j i then bform U (i, j, A) else 0) + (if Nat.leb i j then bform U (j, i, m3_transpose A) else 0) = 2 * bil A (U i) (U j).
Proof.
  cbn [bform]. rewrite (Nat.eqb_sym j i). destruct (Nat.eqb_spec i j) as [->|N].
  - rewrite Nat.leb_refl. apply (sq_both _ SQ).
  - rewrite bil_transpose. destruct (Nat.leb_spec j i), (Nat.leb_spec i j); try lia; ring.
Qed.
Lemma form_lower {A B} U (g : A -> nat) (h : B -> nat) (M : A -> B -> m3) l m :
  form U (flat_map (fun a => map (fun b => (g a, h b, M a b)) (filter (fun b => Nat.leb (h b) (g a)) m)) l)
  = rsum (map (fun a => rsum (map (fun b => if Nat.leb (h b) (g a) then bform U (g a, h b, M a b) else 0) m)) l).
Proof. rewrite form_flat_map. apply rsum_ext. intros a _. unfold form. rewrite map_map. symmetry. apply (rsum_filter (fun b => Nat.leb (h b) (g a)) (fun b => bform U (g a, h b, M a b))). Qed.
(** A symmetric family of blocks, of which those at or below the diagonal are given. *)
Lemma family_form {A} U (g : A -> nat) (M : A -> A -> m3) l : (forall a b, In a l -> In b l -> M b a = m3_transpose (M a b)) ->
  form U (flat_map (fun a => map (fun b => (g a, g b, M a b)) (filter (fun b => Nat.leb (g b) (g a)) l)) l)
  = rsum (map (fun a => rsum (map (fun b => bil (M a b) (U (g a)) (U (g b))) l)) l).
Proof.
  intros S. rewrite form_lower. set (F := fun a b => if Nat.leb (g b) (g a) then bform U (g a, g b, M a b) else 0).
  assert (E : rsum (map (fun a => rsum (map (F a) l)) l) + rsum (map (fun a => rsum (map (F a) l)) l) = 2 * rsum (map (fun a => rsum (map (fun b => bil (M a b) (U (g a)) (U (g b))) l)) l)).
  { rewrite (rsum_swap F l l) at 2. rewrite <- rsum_plus, <- rsum_scale. apply rsum_ext. intros a Ha. rewrite <- rsum_plus, <- rsum_scale. apply rsum_ext. intros b Hb.
    unfold F. rewrite (S a b Ha Hb). apply both_forms. }
  unfold F in E. lra.
Qed.

Section Means.
Variables (topo : list triangle) (U : nat -> v3).
Definition mean (i : nat) : v3 := v3_scale (1 / 3) (vsum (map U (tri_verts (tri_of topo i)))).
Lemma means_bil H i j : rsum (map (fun x => rsum (map (fun y => bil (m3_scale (1 / 9) H) (U x) (U y)) (tri_verts (tri_of topo j)))) (tri_verts (tri_of topo i))) = bil H (mean i) (mean j).
Proof.
  unfold mean. destruct (tri_of topo i) as [[a1 a2] a3], (tri_of topo j) as [[b1 b2] b3]. cbn [tri_verts map]. rewrite !rsum_cons, !rsum_nil, !bil_scale. unfold vsum. cbn [fold_right].
  generalize (U a1) (U a2) (U a3) (U b1) (U b2) (U b3). intros [x1 x2 x3] [x4 x5 x6] [x7 x8 x9] [y1 y2 y3] [y4 y5 y6] [y7 y8 y9].
  destruct H as [[h1 h2 h3] [h4 h5 h6] [h7 h8 h9]]. unfold bil, m3_mulv, v3_dot, v3_scale, v3_add, v3_0. cbn [r0 r1 r2 vx vy vz]. field.
Qed.
Lemma transpose_scale s A : m3_transpose (m3_scale s A) = m3_scale s (m3_transpose A).
Proof. destruct A as [[a0 a1 a2] [a3 a4 a5] [a6 a7 a8]]. reflexivity. Qed.
Lemma off_form i j H : form U (samples_to_vertices topo i j H ++ samples_to_vertices topo j i (m3_transpose H)) = 2 * bil H (mean i) (mean j).
Proof.
  rewrite form_app. unfold samples_to_vertices. rewrite !(form_lower U (fun x => x) (fun x => x)). cbv beta.
  rewrite (rsum_swap (fun a b => if Nat.leb b a then bform U (a, b, m3_scale (1 / 9) (m3_transpose H)) else 0) (tri_verts (tri_of topo j))).
  rewrite <- means_bil, <- rsum_plus, <- rsum_scale. apply rsum_ext. intros x _. rewrite <- rsum_plus, <- rsum_scale. apply rsum_ext. intros y _.
  rewrite <- transpose_scale. apply both_forms.
Qed.
Lemma diag_form i H : m3_transpose H = H -> form U (samples_to_vertices topo i i H) = bil H (mean i) (mean i).
Proof.
  intros E. rewrite <- means_bil. unfold samples_to_vertices. apply (family_form U (fun x => x) (fun _ _ => m3_scale (1 / 9) H)). intros _ _ _ _. rewrite transpose_scale, E. reflexivity.
Qed.
(** The blocks of samples, on the diagonal and below it. *)
Lemma main_form (L : list (nat * nat * m3)) : (forall h, In h L -> fst (fst h) = snd (fst h) /\ m3_transpose (snd h) = snd h \/ (snd (fst h) < fst (fst h))%nat) ->
  form U (flat_map (fun h => let '(row, col, H) := h in
    samples_to_vertices topo row col H ++ (if Nat.ltb col row then samples_to_vertices topo col row (m3_transpose H) else [])) L)
  = rsum (map (fun h => (if Nat.eqb (fst (fst h)) (snd (fst h)) then 1 else 2) * bil (snd h) (mean (fst (fst h))) (mean (snd (fst h)))) L).
Proof.
  intros S. rewrite form_flat_map. apply rsum_ext. intros [[i j] H] I. specialize (S _ I). cbn [fst snd] in *. destruct S as [[-> E]|L1].
  - rewrite Nat.ltb_irrefl, Nat.eqb_refl, app_nil_r, diag_form by exact E. ring.
  - destruct (Nat.ltb_spec j i) as [_|N]; [|lia]. destruct (Nat.eqb_spec i j); [lia|]. apply off_form.
Qed.
End Means.
(** Sums over pairs of different members. *)
Lemma pairs_sum (f : nat -> nat -> R) l : NoDup l -> (forall i j, In i l -> In j l -> f i j = f j i) ->
  rsum (map (fun i => f i i) l) + 2 * rsum (map (fun i => rsum (map (fun j => f i j) (filter (fun j => Nat.ltb i j) l))) l) = rsum (map (fun i => rsum (map (f i) l)) l).
Proof.
  intros ND S. set (F := fun i j => if Nat.ltb i j then f i j else 0).
  assert (E : rsum (map (fun i => rsum (map (fun j => f i j) (filter (fun j => Nat.ltb i j) l))) l) = rsum (map (fun i => rsum (map (F i) l)) l)).
  { apply rsum_ext. intros i _. symmetry. apply (rsum_filter (fun j => Nat.ltb i j) (f i)). }
  rewrite E. replace (2 * rsum (map (fun i => rsum (map (F i) l)) l)) with (rsum (map (fun i => rsum (map (F i) l)) l) + rsum (map (fun i => rsum (map (F i) l)) l)) by ring.
  rewrite (rsum_swap F l l) at 2. rewrite <- !rsum_plus. apply rsum_ext. intros i Hi.
  rewrite <- (pick_one (fun j => f i j) i l ND Hi), <- !rsum_plus. apply rsum_ext. intros j Hj. unfold F.
  destruct (Nat.eqb_spec i j) as [->|N]; [rewrite Nat.ltb_irrefl; ring|]. destruct (Nat.ltb_spec i j), (Nat.ltb_spec j i); try lia; [ring|]. rewrite (S i j Hi Hj). ring.
Qed.

(** ** Blocks of the normals *)
Lemma cross_skew e : m3_transpose (cross_matrix e) = m3_neg (cross_matrix e).
Proof. destruct e as [e0 e1 e2]. cbv [m3_transpose cross_matrix m3_neg m3_scale v3_scale r0 r1 r2 vx vy vz]. f_equal; f_equal; ring. Qed.
Lemma bil_mul_skew A N e x u : m3_transpose A = m3_neg A -> bil (m3_mul (m3_mul A N) (cross_matrix e)) x u = - bil N (m3_mulv A x) (m3_mulv (cross_matrix e) u).
Proof.
  intros E. unfold bil. assert (M : forall A B y, m3_mulv (m3_mul A B) y = m3_mulv A (m3_mulv B y)).
  { intros [[a1 a2 a3] [a4 a5 a6] [a7 a8 a9]] [[b1 b2 b3] [b4 b5 b6] [b7 b8 b9]] [y1 y2 y3]. apply v3_eq; cbv [m3_mulv m3_mul m3_transpose v3_dot r0 r1 r2 vx vy vz]; ring. }
  rewrite !M. set (y := m3_mulv N _). clearbody y. transitivity (v3_dot (m3_mulv (m3_transpose A) x) y).
  - destruct A as [[a1 a2 a3] [a4 a5 a6] [a7 a8 a9]], x as [x1 x2 x3], y as [y1 y2 y3]. unfold m3_mulv, m3_transpose, v3_dot. cbn [r0 r1 r2 vx vy vz]. ring.
  - rewrite E. destruct A as [[a1 a2 a3] [a4 a5 a6] [a7 a8 a9]], x as [x1 x2 x3], y as [y1 y2 y3]. unfold m3_mulv, m3_neg, m3_scale, v3_scale, v3_dot. cbn [r0 r1 r2 vx vy vz]. ring.
Qed.
Lemma bil_mul_l A B x u : bil (m3_mul A B) x u = bil A x (m3_mulv B u).
Proof.
  unfold bil. f_equal. destruct A as [[a1 a2 a3] [a4 a5 a6] [a7 a8 a9]], B as [[b1 b2 b3] [b4 b5 b6] [b7 b8 b9]], u as [y1 y2 y3].
  apply v3_eq; cbv [m3_mulv m3_mul m3_transpose v3_dot r0 r1 r2 vx vy vz]; ring.
Qed.
Lemma bil_skew e x u : bil (cross_matrix e) x u = - v3_dot (m3_mulv (cross_matrix e) x) u.
Proof. destruct e as [e0 e1 e2], x as [x1 x2 x3], u as [u1 u2 u3]. unfold bil, m3_mulv, cross_matrix, v3_dot. cbn [r0 r1 r2 vx vy vz]. ring. Qed.
Lemma bil_add_l A x y u : bil A (v3_add x y) u = bil A x u + bil A y u.
Proof. destruct A as [[a1 a2 a3] [a4 a5 a6] [a7 a8 a9]], x as [x1 x2 x3], y as [y1 y2 y3], u as [u1 u2 u3]. unfold bil, m3_mulv, v3_dot, v3_add. cbn [r0 r1 r2 vx vy vz]. ring. Qed.

(** Edge opposite to a corner. *)
Definition opposite (t : v3 * v3 * v3) (i : nat) : v3 := let '(a, b, c) := t in match i with O => v3_sub c b | 1%nat => v3_sub a c | _ => v3_sub b a end.
Lemma area_normal_opposite t i : area_normal_gradient t i = cross_matrix (opposite t i).
Proof. destruct t as [[a b] c]. reflexivity. Qed.
Lemma hessian_product_sym i j l : area_normal_hessian_product j i l = m3_transpose (area_normal_hessian_product i j l) \/ (3 <= i)%nat \/ (3 <= j)%nat.
Proof.
  destruct (le_lt_dec 3 i) as [?|Hi]; [right; left; assumption|]. destruct (le_lt_dec 3 j) as [?|Hj]; [right; right; assumption|]. left.
  assert (N : m3_transpose (m3_neg (cross_matrix l)) = cross_matrix l) by (destruct l as [l0 l1 l2]; cbv [m3_transpose cross_matrix m3_neg m3_scale v3_scale r0 r1 r2 vx vy vz]; f_equal; f_equal; ring).
  destruct i as [|[|[|i]]]; [| | |lia]; (destruct j as [|[|[|j]]]; [| | |lia]); unfold area_normal_hessian_product; cbn; first [reflexivity|symmetry; apply cross_skew|symmetry; apply N].
Qed.
Lemma projection_sym n f : m3_transpose (scaled_tangent_projection n f) = scaled_tangent_projection n f.
Proof. destruct n as [n0 n1 n2]. cbv [m3_transpose scaled_tangent_projection m3_sub m3_diag m3_scale m3_I outer v3_scale v3_sub r0 r1 r2 vx vy vz]. f_equal; f_equal; ring. Qed.
Lemma bil_sym A x u : m3_transpose A = A -> bil A x u = bil A u x.
Proof. intros E. rewrite <- E at 1. apply bil_transpose. Qed.
Lemma bil_projection n f x u : bil (scaled_tangent_projection n f) x u = f * (v3_dot x u - v3_dot n x * v3_dot n u).
Proof. unfold scaled_tangent_projection, m3_diag. rewrite bil_sub, bil_scale, bil_I, bil_outer, dot_scale_l. ring. Qed.

Section Corners.
Variables (T : v3 * v3 * v3) (n mult : v3) (f lam : R) (X : nat -> v3).
Let Q := scaled_tangent_projection n f.
Let pm := m3_mulv Q mult.
Let G (j : nat) := area_normal_gradient T j.
Definition corner_block (k l : nat) : m3 := m3_sub (normal_hessian_block T n f mult k l) (symmetric_block T Q lam k l).
Let D := v3_add (m3_mulv (G 0) (X 0)) (v3_add (m3_mulv (G 1) (X 1)) (m3_mulv (G 2) (X 2))).
Let Y := v3_add (X 0%nat) (v3_add (X 1%nat) (X 2%nat)).
Lemma normal_bil k l x u : bil (normal_hessian_block T n f mult k l) x u =
  - f * (v3_dot n mult * bil Q (m3_mulv (G k) x) (m3_mulv (G l) u) + v3_dot pm (m3_mulv (G k) x) * v3_dot n (m3_mulv (G l) u) + v3_dot n (m3_mulv (G k) x) * v3_dot pm (m3_mulv (G l) u))
  - bil (area_normal_hessian_product k l pm) x u.
Proof.
  unfold normal_hessian_block. cbv zeta. fold Q. fold pm. unfold G. rewrite !area_normal_opposite. rewrite bil_sub, bil_scale, (bil_mul_skew _ _ _ _ _ (cross_skew _)), !bil_add, bil_scale, !bil_outer. ring.
Qed.
Lemma symmetric_bil k l x u : bil (symmetric_block T Q lam k l) x u = lam * (1 / 3) * (bil Q x (m3_mulv (G l) u) + bil Q u (m3_mulv (G k) x)).
Proof.
  unfold symmetric_block, G. rewrite !area_normal_opposite, bil_scale, bil_sub, !bil_mul_l, bil_skew. unfold bil at 3. rewrite (dot_comm (m3_mulv (cross_matrix _) x)).
  assert (E : v3_dot (m3_mulv Q u) (m3_mulv (cross_matrix (opposite T k)) x) = v3_dot u (m3_mulv Q (m3_mulv (cross_matrix (opposite T k)) x))).
  { rewrite dot_comm. change (bil Q (m3_mulv (cross_matrix (opposite T k)) x) u = bil Q u (m3_mulv (cross_matrix (opposite T k)) x)). apply bil_sym, projection_sym. }
  rewrite E. ring.
Qed.
Lemma corner_block_sym k l : In k [0; 1; 2]%nat -> In l [0; 1; 2]%nat -> corner_block l k = m3_transpose (corner_block k l).
Proof.
  intros Hk Hl. apply bil_ext. intros x u. rewrite bil_transpose. unfold corner_block. rewrite !bil_sub, !normal_bil, !symmetric_bil.
  assert (E : bil (area_normal_hessian_product l k pm) x u = bil (area_normal_hessian_product k l pm) u x).
  { destruct (hessian_product_sym k l pm) as [->|[C|C]]; [apply bil_transpose| |]; exfalso; cbn in Hk, Hl; lia. }
  rewrite E, (bil_sym Q (m3_mulv (G l) x) (m3_mulv (G k) u) (projection_sym _ _)). ring.
Qed.
Lemma corner_sums (F : nat -> nat -> R) : rsum (map (fun k => rsum (map (F k) [0; 1; 2]%nat)) [0; 1; 2]%nat)
  = F 0%nat 0%nat + (F 0%nat 1%nat + F 0%nat 2%nat) + (F 1%nat 0%nat + (F 1%nat 1%nat + F 1%nat 2%nat)) + (F 2%nat 0%nat + (F 2%nat 1%nat + F 2%nat 2%nat)).
Proof. cbn [map]. rewrite !rsum_cons, !rsum_nil. ring. Qed.
Lemma corner_total : rsum (map (fun k => rsum (map (fun l => bil (corner_block k l) (X k) (X l)) [0; 1; 2]%nat)) [0; 1; 2]%nat)
  = - f * (v3_dot n mult * bil Q D D + 2 * (v3_dot pm D * v3_dot n D)) + 2 * v3_dot pm (v3_cross (v3_sub (X 1%nat) (X 0%nat)) (v3_sub (X 2%nat) (X 0%nat)))
    - 2 * (lam * (1 / 3)) * bil Q Y D.
Proof.
  rewrite corner_sums. unfold corner_block. rewrite !bil_sub, !normal_bil, !symmetric_bil.
  unfold D, Y. rewrite !bil_add_l, !bil_add_r, !dot_add_r.
  assert (H : bil (area_normal_hessian_product 0 0 pm) (X 0%nat) (X 0%nat) + (bil (area_normal_hessian_product 0 1 pm) (X 0%nat) (X 1%nat) + bil (area_normal_hessian_product 0 2 pm) (X 0%nat) (X 2%nat))
    + (bil (area_normal_hessian_product 1 0 pm) (X 1%nat) (X 0%nat) + (bil (area_normal_hessian_product 1 1 pm) (X 1%nat) (X 1%nat) + bil (area_normal_hessian_product 1 2 pm) (X 1%nat) (X 2%nat)))
    + (bil (area_normal_hessian_product 2 0 pm) (X 2%nat) (X 0%nat) + (bil (area_normal_hessian_product 2 1 pm) (X 2%nat) (X 1%nat) + bil (area_normal_hessian_product 2 2 pm) (X 2%nat) (X 2%nat)))
    = - (2 * v3_dot pm (v3_cross (v3_sub (X 1%nat) (X 0%nat)) (v3_sub (X 2%nat) (X 0%nat))))).
  { unfold area_normal_hessian_product. cbn [Nat.add Nat.sub Nat.modulo Nat.divmod snd]. rewrite !bil_neg, !bil_0. generalize pm (X 0%nat) (X 1%nat) (X 2%nat). intros [p0 p1 p2] [x0 x1 x2] [y0 y1 y2] [z0 z1 z2].
    unfold bil, m3_mulv, cross_matrix, v3_dot, v3_cross, v3_sub. cbn [r0 r1 r2 vx vy vz]. ring. }
  apply (f_equal Ropp) in H. rewrite Ropp_involutive in H. rewrite <- H.
  rewrite (bil_sym Q (m3_mulv (G 1) (X 1%nat)) (m3_mulv (G 0) (X 0%nat)) (projection_sym _ _)), (bil_sym Q (m3_mulv (G 2) (X 2%nat)) (m3_mulv (G 0) (X 0%nat)) (projection_sym _ _)), (bil_sym Q (m3_mulv (G 2) (X 2%nat)) (m3_mulv (G 1) (X 1%nat)) (projection_sym _ _)).
  ring.
Qed.
End Corners.

(** ** The blocks of the code along a motion of the vertices *)
Section SurfCode.
Variables (B : base) (k : kernel) (q : v3) (view : list nat) (c : nat) (v : R) (U : nat -> v3).
Let S := sb_samples B.
Let P := sb_bg B.
Let V := sb_verts B.
Let topo := sb_topo B.
Hypothesis ND : NoDup view.
Hypothesis Vk : valid_kernel k.
Hypothesis NE : nearest S q view c.
Hypothesis RV : regular_view k S q view.
Hypothesis SB : smooth_background k P v S q c.
Hypothesis RG : forall i, In i view -> forall w, In w (tri_verts (tri_of topo i)) -> (w < length V)%nat.
Let dd (s : R) (i : nat) := away S q i.
Let nn (s : R) (i : nat) := s_nml (smp S i).
Let val (i : nat) := s_value (smp S i).
Let d0 := v3_norm (away S q c).
Let k0 := with_closest k d0.
Let b := bg_new_impl q S view (Local c) k P None.
Let W := q_W k k0 P view c dd 0.
Let e (i : nat) := v3_scale (-1) (mean topo U i).
Let dn (i : nat) := tri_rate V U (tri_of topo i).
Let ddn (i : nat) := tri_curve U (tri_of topo i).
Let w (i : nat) := q_w k0 dd 0 i.
Let psi (i : nat) := q_psi dd nn val 0 i.
Let al (i : nat) := r_w k0 dd e i.
Let mu (i : nat) := v3_dot (unit_of (nn 0 i)) (e i).
Let nu (i : nat) := nrate (nn 0 i) (dn i) (dd 0 i).
Let ga (i : nat) := c_w k0 dd e i.
Let ka (i : nat) := c_psi2 dd nn e dn ddn i.
Let bw := q_bw k P c dd 0.
Let fv := q_fv P v c dd nn 0.
Let be := r_bw k P c dd e.
Let ph := r_fv P c dd nn e.
Let b2 := c_bw k P c dd e.
Let f2 := c_fv P c dd nn e.
Let om (i : nat) := al i + (if Nat.eqb i c then be else 0).
Let lp := rsum (map (fun i => w i * psi i) view) / W.
Let W1 := r_W k k0 P view c dd e.
Let W2 := c_W k k0 P view c dd e.

Lemma s_wsi : weight_sum_inv b = 1 / W.
Proof. exact (c_wsi k P view c (fun _ => q) (fun _ => S) Vk NE RV). Qed.
Lemma s_W : W <> 0.
Proof. exact (c_W_ne k P view c (fun _ => q) (fun _ => S) Vk NE RV). Qed.
Lemma s_grad i : In i view -> v3_dot (s_weight_grad k d0 q (smp S i)) (e i) = al i.
Proof. intros Hi. assert (G : s_weight_grad k d0 q (smp S i) = wgrad k0 (dd 0 i)) by exact (the_weight_grad k view c (fun _ => q) (fun _ => S) RV i Hi). rewrite G. reflexivity. Qed.
Lemma s_hess i : In i view -> bil (s_weight_hess k d0 q (smp S i)) (e i) (e i) = ga i.
Proof. exact (c_hess k view c (fun _ => q) (fun _ => S) RV i (e i) (e i)). Qed.
Lemma s_bg_grad i u : v3_dot (background_weight_gradient b (Some i)) u = if Nat.eqb i c then - v3_dot (bgw_grad k (p_weighted P) d0 (dd 0 c)) u else 0.
Proof.
  unfold background_weight_gradient, bgw_grad. change (b_kernel b) with k. change (b_dist b) with d0. change (b_weighted b) with (p_weighted P).
  change (b_index b) with (Local c). change (b_disp b) with (dd 0 c).
  destruct (k_radius k) as [r|]; [|rewrite dot_0_l; destruct (Nat.eqb i c); ring].
  destruct (Rlt_dec r d0); [rewrite dot_0_l; destruct (Nat.eqb i c); ring|].
  destruct (negb (p_weighted P)); [rewrite dot_0_l; destruct (Nat.eqb i c); ring|]. cbv zeta.
  destruct (Nat.eqb i c); [rewrite !dot_scale_l, dot_neg_l; ring|apply dot_0_l].
Qed.
Lemma s_be i : v3_dot (background_weight_gradient b (Some i)) (e i) = - (if Nat.eqb i c then be else 0).
Proof. rewrite s_bg_grad. destruct (Nat.eqb_spec i c) as [->|]; [reflexivity|ring]. Qed.
Lemma s_b2 i : bil (background_weight_hessian b (Some i)) (e i) (e i) = if Nat.eqb i c then b2 else 0.
Proof.
  assert (H : bil (background_weight_hessian b (Some i)) (e i) (e i) = if Nat.eqb i c then bcurve k (p_weighted P) (dd 0 c) (e i) (e i) else 0) by exact (c_bg_hess_at k P view c (fun _ => q) (fun _ => S) NE RV i (e i) (e i)).
  rewrite H. clear H. destruct (Nat.eqb_spec i c) as [E|]; [rewrite E|]; reflexivity.
Qed.
Lemma s_psi i : In i view -> s_value (smp S i) + v3_dot (v3_sub q (s_pos (smp S i))) (unit_of (s_nml (smp S i))) = psi i.
Proof. intros Hi. rewrite dot_comm. exact (c_psi k view (fun _ => q) (fun _ => S) RV i Hi). Qed.
Lemma s_lp : local_potential_at q S view k (weight_sum_inv b) d0 = lp.
Proof.
  unfold local_potential_at, lp. rewrite s_wsi. transitivity (rsum (map (fun i => w i * psi i) view) * (1 / W)); [|field; exact s_W]. reflexivity.
Qed.
Lemma diag_value i : In i view -> bil (sample_hessian_diag b lp i) (e i) (e i) =
  (psi i * ga i - lp * (ga i + (if Nat.eqb i c then b2 else 0)) + 2 * al i * mu i - 2 * om i * al i * psi i / W + 2 * lp * om i * om i / W - 2 * w i * mu i * om i / W) / W.
Proof.
  intros Hi. unfold sample_hessian_diag. cbv zeta. change (b_kernel b) with k. change (b_dist b) with d0. change (b_q b) with q. change (b_all b) with S.
  rewrite (s_psi i Hi), s_wsi. rewrite bil_scale, !bil_add, !bil_sub, !bil_scale, !bil_add, !bil_sym_outer, !bil_outer, !dot_scale_l, !dot_add_l, !dot_neg_l.
  rewrite (s_grad i Hi), (s_hess i Hi), s_be, s_b2. change (s_weight k d0 q (smp S i)) with (w i). fold (nn 0 i). fold (mu i). unfold om. field. exact s_W.
Qed.
Lemma off_value i j : In i view -> In j view -> bil (sample_hessian_off_diag b lp i j) (e j) (e i) =
  (- om j * al i * psi i - al j * om i * psi j + 2 * lp * om i * om j - mu j * w j * om i - om j * w i * mu i) / (W * W).
Proof.
  intros Hi Hj. unfold sample_hessian_off_diag. cbv zeta. change (b_kernel b) with k. change (b_dist b) with d0. change (b_q b) with q. change (b_all b) with S.
  rewrite (s_psi i Hi), (s_psi j Hj), s_wsi. rewrite bil_scale, !bil_add, !bil_sub, bil_0, !bil_outer, !dot_scale_l, !dot_add_l, !dot_neg_l.
  rewrite (s_grad i Hi), (s_grad j Hj), !s_be. change (s_weight k d0 q (smp S i)) with (w i). change (s_weight k d0 q (smp S j)) with (w j). fold (nn 0 i). fold (nn 0 j). fold (mu i). fold (mu j). unfold om. field. exact s_W.
Qed.
Lemma transpose_ext A : (forall x u, bil A x u = bil A u x) -> m3_transpose A = A.
Proof. intros H. apply bil_ext. intros x u. rewrite bil_transpose. apply H. Qed.
Lemma s_hess_sym i x u : In i view -> bil (s_weight_hess k d0 q (smp S i)) x u = bil (s_weight_hess k d0 q (smp S i)) u x.
Proof.
  intros Hi. assert (E : forall y z, bil (s_weight_hess k d0 q (smp S i)) y z = curve (k_df k0 (v3_norm (dd 0 i))) (k_ddf k0 (v3_norm (dd 0 i))) (dd 0 i) y z) by (intros y z; exact (c_hess k view c (fun _ => q) (fun _ => S) RV i y z Hi)).
  rewrite !E. apply curve_sym.
Qed.
Lemma s_bg_hess_sym i x u : bil (background_weight_hessian b (Some i)) x u = bil (background_weight_hessian b (Some i)) u x.
Proof.
  assert (H : forall y z, bil (background_weight_hessian b (Some i)) y z = if Nat.eqb i c then bcurve k (p_weighted P) (dd 0 c) y z else 0) by (intros y z; exact (c_bg_hess_at k P view c (fun _ => q) (fun _ => S) NE RV i y z)).
  rewrite !H. destruct (Nat.eqb i c); [apply bcurve_sym|reflexivity].
Qed.
Lemma s_field_hess x u : bil (field_hessian b) x u = fcurve P (v3_dot (nn 0 c) (dd 0 c)) (dd 0 c) x u.
Proof. exact (c_field_hess k P view c (fun _ => q) (fun _ => S) NE RV x u). Qed.
Lemma diag_sym i : In i view -> m3_transpose (sample_hessian_diag b lp i) = sample_hessian_diag b lp i.
Proof.
  intros Hi. apply transpose_ext. intros x u. unfold sample_hessian_diag. cbv zeta. change (b_kernel b) with k. change (b_dist b) with d0. change (b_q b) with q. change (b_all b) with S.
  rewrite !bil_scale, !bil_add, !bil_sub, !bil_scale, !bil_add, !bil_sym_outer, !bil_outer, !dot_scale_l, (s_hess_sym i x u Hi), (s_bg_hess_sym i x u). ring.
Qed.

(** ** The background *)
Lemma s_field_value : p_weighted P = true -> field_value b = fv.
Proof. exact (the_field_value k P v view c (fun _ => q) (fun _ => S) (proj1 SB) (proj2 (proj2 SB))). Qed.
Lemma s_field_grad : v3_dot (field_gradient b) (e c) = ph.
Proof.
  assert (G : field_gradient b = fgrad P d0 (v3_dot (nn 0 c) (dd 0 c)) (dd 0 c)) by exact (the_field_grad k P v view c (fun _ => q) (fun _ => S) NE RV (proj1 SB) (proj2 (proj2 SB))).
  rewrite G. reflexivity.
Qed.
Lemma s_f2 : bil (field_hessian b) (e c) (e c) = f2.
Proof. apply s_field_hess. Qed.
Lemma s_index : ci_get (b_index b) = c.
Proof. reflexivity. Qed.
(** Only the signed distance has a value that depends on samples. *)
Lemma closest_cases : (is_closest_field (b_value b) = true) \/ (is_closest_field (b_value b) = false /\ ph = 0 /\ f2 = 0 /\ field_value b = 0).
Proof.
  unfold b, bg_new_impl, bg_value_new, field_value, ph, f2, r_fv, c_fv, fgrad, fcurve. cbn [b_value]. destruct (p_type P); cbn; [right|right|left; reflexivity]; rewrite ?dot_0_l; repeat split; reflexivity.
Qed.
Lemma bg_diag_value i : In i view -> p_weighted P = true -> bil (bg_hessian_diag b i) (e i) (e i) =
  (fv * bw / W * (2 * al i * al i / W - ga i)
   + (if Nat.eqb i c then bw * f2 + (1 - bw / W) * (fv * b2 - 2 * fv * be * be / W + 2 * ph * be) - 2 * (1 - 2 * bw / W) * fv * be * al i / W - 2 * bw * ph * al i / W else 0)) / W.
Proof.
  intros Hi HW. unfold bg_hessian_diag. cbv zeta. change (b_kernel b) with k. change (b_dist b) with d0. change (b_q b) with q. change (b_all b) with S. change (b_weighted b) with (p_weighted P).
  rewrite s_wsi, s_index, HW. cbn [negb]. change (background_weight b) with bw. pose proof (s_field_value HW) as FV. rewrite FV. pose proof s_W as NW.
  destruct (Nat.eqb_spec i c) as [->|N].
  - destruct closest_cases as [->|(-> & Zp & Z2 & Zf)]; cbn [andb].
    + rewrite bil_scale, !bil_add, !bil_sub, !bil_scale, !bil_sub, !bil_sym_outer, !bil_outer, !dot_scale_l, !dot_neg_l, s_f2, s_field_grad, (s_grad c Hi), (s_hess c Hi), s_be, s_b2, Nat.eqb_refl.
      field. exact NW.
    + rewrite FV in Zf. rewrite bil_scale, !bil_add, !bil_scale, bil_0, !bil_sub, !bil_outer, !dot_scale_l, (s_grad c Hi), (s_hess c Hi), Zf, Zp, Z2. field. exact NW.
  - rewrite andb_false_r. rewrite bil_scale, !bil_add, !bil_scale, bil_0, !bil_sub, !bil_outer, !dot_scale_l, (s_grad i Hi), (s_hess i Hi). field. exact NW.
Qed.
Lemma bg_diag_unweighted i : In i view -> p_weighted P = false -> bil (bg_hessian_diag b i) (e i) (e i) = (if Nat.eqb i c then bw * f2 / W else 0).
Proof.
  intros Hi HW. unfold bg_hessian_diag. cbv zeta. change (b_weighted b) with (p_weighted P). rewrite s_wsi, s_index, HW. cbn [negb]. change (background_weight b) with bw. pose proof s_W as NW.
  destruct (Nat.eqb_spec i c) as [->|N].
  - destruct closest_cases as [->|(-> & Zp & Z2 & Zf)]; cbn [andb]; rewrite !bil_scale; [rewrite s_f2|rewrite bil_0, Z2]; field; exact NW.
  - rewrite andb_false_r, bil_scale, bil_0. ring.
Qed.
Lemma bg_diag_sym i : In i view -> m3_transpose (bg_hessian_diag b i) = bg_hessian_diag b i.
Proof.
  intros Hi. apply transpose_ext. intros x u. unfold bg_hessian_diag. cbv zeta. change (b_kernel b) with k. change (b_dist b) with d0. change (b_q b) with q. change (b_all b) with S. rewrite s_index.
  assert (FS : bil (field_hessian b) x u = bil (field_hessian b) u x) by (rewrite !s_field_hess; apply fcurve_sym).
  destruct (negb (b_weighted b)), (is_closest_field (b_value b)), (Nat.eqb i c); cbn [andb];
    rewrite ?bil_scale, ?bil_add, ?bil_sub, ?bil_scale, ?bil_sub, ?bil_sym_outer, ?bil_outer, ?dot_scale_l, ?bil_0, ?FS, ?(s_hess_sym i x u Hi), ?(s_bg_hess_sym c x u); ring.
Qed.
Let K := bw * ph + fv * (1 - 2 * bw / W) * be.
Lemma bg_off_value i j : In i view -> In j view -> i <> j -> p_weighted P = true -> bil (bg_hessian_off_diag b i j) (e j) (e i) =
  (2 * fv * bw * al i * al j / W - (if Nat.eqb i c then al j * K else 0) - (if Nat.eqb j c then al i * K else 0)) / (W * W).
Proof.
  intros Hi Hj N HW. unfold bg_hessian_off_diag. cbv zeta. change (b_kernel b) with k. change (b_dist b) with d0. change (b_q b) with q. change (b_all b) with S. rewrite s_wsi, s_index.
  change (background_weight b) with bw. rewrite (s_field_value HW). pose proof s_W as NW. pose proof (s_be c) as EB. rewrite Nat.eqb_refl in EB. unfold K.
  destruct (Nat.eqb_spec i c) as [->|Ni].
  - destruct (Nat.eqb_spec j c) as [->|_]; [congruence|]. rewrite !bil_scale, bil_outer, !dot_add_l, !dot_scale_l, dot_add_l, dot_scale_l, dot_neg_l, s_field_grad, (s_grad c Hi), (s_grad j Hj), EB. field. exact NW.
  - destruct (Nat.eqb_spec j c) as [->|_].
    + rewrite !bil_scale, bil_outer, !dot_add_l, !dot_scale_l, dot_add_l, dot_scale_l, dot_neg_l, s_field_grad, (s_grad c Hj), (s_grad i Hi), EB. field. exact NW.
    + rewrite !bil_scale, bil_outer, (s_grad i Hi), (s_grad j Hj). field. exact NW.
Qed.

(** ** The normals *)
Lemma zip_flat_map {A X Y Z} (f : A -> list X) (g : A -> list Y) (h : X * Y -> Z) l : (forall a, length (f a) = length (g a)) ->
  map h (combine (flat_map f l) (flat_map g l)) = flat_map (fun a => map h (combine (f a) (g a))) l.
Proof. intros L. induction l as [|a l IH]; [reflexivity|]. cbn [flat_map]. rewrite combine_app_eq by apply L. rewrite map_app, IH. reflexivity. Qed.
Lemma combine_map_same {A X Y} (f : A -> X) (g : A -> Y) l : combine (map f l) (map g l) = map (fun a => (f a, g a)) l.
Proof. induction l as [|a l IH]; [reflexivity|]. cbn [map combine]. rewrite IH. reflexivity. Qed.
Lemma flat_map_map {A X Y} (f : A -> list X) (g : X -> Y) l : map g (flat_map f l) = flat_map (fun a => map g (f a)) l.
Proof. induction l as [|a l IH]; [reflexivity|]. cbn [flat_map]. rewrite map_app, IH. reflexivity. Qed.
Let lam (i : nat) := w i * (1 / W).
Let nh (i : nat) := v3_scale (1 / v3_norm (nn 0 i)) (nn 0 i).
Let block (i : nat) := corner_block (points_of V (tri_of topo i)) (nh i) (v3_scale (lam i) (dd 0 i)) (1 / v3_norm (nn 0 i)) (lam i).
Lemma proj_nrate n x y : n <> v3_0 -> bil (scaled_tangent_projection (v3_scale (1 / v3_norm n) n) (1 / v3_norm n)) x y = nrate n x y.
Proof. intros N. apply v3_norm_pos in N. rewrite bil_projection, !dot_scale_l. unfold nrate. field. lra. Qed.
Lemma rate_corners t : v3_add (m3_mulv (area_normal_gradient (points_of V t) 0) (U (vertex_of t 0))) (v3_add (m3_mulv (area_normal_gradient (points_of V t) 1) (U (vertex_of t 1)))
  (m3_mulv (area_normal_gradient (points_of V t) 2) (U (vertex_of t 2)))) = tri_rate V U t.
Proof.
  destruct t as [[x y] z]. unfold points_of, tri_rate, area_normal_gradient, vertex_of. generalize (pt V x) (pt V y) (pt V z) (U x) (U y) (U z). intros [a0 a1 a2] [b0 b1 b2'] [c0 c1 c2] [u0 u1 u2] [v0 v1 v2] [w0 w1 w2].
  apply v3_eq; cbv [v3_add v3_sub v3_cross m3_mulv cross_matrix v3_dot r0 r1 r2 vx vy vz]; ring.
Qed.
Lemma nrate_scale_l n s x y : nrate n (v3_scale s x) y = s * nrate n x y.
Proof. unfold nrate. rewrite dot_scale_l, dot_scale_r. unfold Rdiv. ring. Qed.
Lemma nrate_sym n x y : nrate n x y = nrate n y x.
Proof. unfold nrate. rewrite (dot_comm x y). unfold Rdiv. ring. Qed.
Lemma block_value i : In i view ->
  rsum (map (fun k => rsum (map (fun l => bil (block i k l) (U (vertex_of (tri_of topo i) k)) (U (vertex_of (tri_of topo i) l))) [0; 1; 2]%nat)) [0; 1; 2]%nat) = w i * ka i / W.
Proof.
  intros Hi. pose proof s_W as NW. assert (N : nn 0 i <> v3_0) by apply (RV i Hi). pose proof (v3_norm_pos _ N) as NP.
  unfold block. rewrite (corner_total _ _ _ _ _ (fun j => U (vertex_of (tri_of topo i) j))). rewrite rate_corners. fold (dn i).
  set (Q := scaled_tangent_projection (nh i) (1 / v3_norm (nn 0 i))). set (pm := m3_mulv Q _).
  assert (PM : forall x, v3_dot pm x = lam i * nrate (nn 0 i) x (dd 0 i)).
  { intros x. rewrite dot_comm. change (v3_dot x pm) with (bil Q x (v3_scale (lam i) (dd 0 i))). unfold Q, nh. rewrite proj_nrate by exact N. rewrite nrate_sym, nrate_scale_l, nrate_sym. reflexivity. }
  rewrite !PM. unfold Q, nh. rewrite !proj_nrate by exact N. rewrite !dot_scale_l, dot_scale_r.
  assert (DD : nrate (nn 0 i) (ddn i) (dd 0 i) = 2 * nrate (nn 0 i) (v3_cross (v3_sub (U (vertex_of (tri_of topo i) 1)) (U (vertex_of (tri_of topo i) 0))) (v3_sub (U (vertex_of (tri_of topo i) 2)) (U (vertex_of (tri_of topo i) 0)))) (dd 0 i)).
  { unfold ddn. destruct (tri_of topo i) as [[x y] z]. cbn [tri_curve vertex_of]. apply nrate_scale_l. }
  assert (YE : nrate (nn 0 i) (dn i) (e i) = - (1 / 3) * nrate (nn 0 i) (v3_add (U (vertex_of (tri_of topo i) 0)) (v3_add (U (vertex_of (tri_of topo i) 1)) (U (vertex_of (tri_of topo i) 2)))) (dn i)).
  { rewrite nrate_sym. unfold e, mean. rewrite !nrate_scale_l. destruct (tri_of topo i) as [[x y] z]. cbn [tri_verts map vertex_of]. unfold vsum. cbn [fold_right].
    replace (v3_add (U z) v3_0) with (U z) by (apply v3_eq; unv; ring). field. }
  unfold ka, c_psi2, ncurve. rewrite DD, YE. unfold lam. change (q_w k0 dd 0 i) with (w i). field. split; lra.
Qed.
Lemma zipped_normals : map (fun p => let '((row, col, s), (_, _, n)) := p in (row, col, m3_sub n s)) (combine (symmetric_jacobian V topo b) (normal_hessian_products V topo b))
  = flat_map (fun i => flat_map (fun k => map (fun l => (vertex_of (tri_of topo i) k, vertex_of (tri_of topo i) l, block i k l))
      (filter (fun l => Nat.leb (vertex_of (tri_of topo i) l) (vertex_of (tri_of topo i) k)) [0; 1; 2]%nat)) [0; 1; 2]%nat) view.
Proof.
  unfold symmetric_jacobian, normal_hessian_products. change (b_view b) with view. rewrite zip_flat_map by (intros; cbv zeta; rewrite !map_length; reflexivity).
  apply flat_map_ext. intros i. cbv zeta. rewrite combine_map_same, map_map. unfold corner_pairs. rewrite flat_map_map. apply flat_map_ext. intros j. rewrite map_map. apply map_ext. intros l. cbn [fst snd].
  f_equal. unfold block, corner_block, lam, weighted_displacement. cbv zeta. change (b_kernel b) with k. change (b_dist b) with d0. change (b_q b) with q. change (b_all b) with S. rewrite s_wsi. reflexivity.
Qed.
Lemma normals_form : form U (map (fun p => let '((row, col, s), (_, _, n)) := p in (row, col, m3_sub n s)) (combine (symmetric_jacobian V topo b) (normal_hessian_products V topo b)))
  = rsum (map (fun i => w i * ka i / W) view).
Proof.
  rewrite zipped_normals, form_flat_map. apply rsum_ext. intros i Hi. rewrite <- (block_value i Hi).
  apply (family_form U (vertex_of (tri_of topo i)) (block i)). intros x y Hx Hy. apply corner_block_sym; assumption.
Qed.
Lemma gradient_corners i y : In i view ->
  rsum (map (fun j => v3_dot (m3_mulv (unit_normal_gradient V topo i (smp S i) j) y) (U (vertex_of (tri_of topo i) j))) [0; 1; 2]%nat) = nrate (nn 0 i) (dn i) y.
Proof.
  intros Hi. assert (N : nn 0 i <> v3_0) by apply (RV i Hi). cbn [map]. rewrite !rsum_cons, rsum_nil. unfold unit_normal_gradient. cbv zeta. fold (nn 0 i). rewrite !neg_mul_dot.
  set (z := m3_mulv (scaled_tangent_projection _ _) y).
  assert (E : nrate (nn 0 i) (dn i) y = v3_dot (dn i) z).
  { unfold z. change (nrate (nn 0 i) (dn i) y = bil (scaled_tangent_projection (v3_scale (1 / v3_norm (nn 0 i)) (nn 0 i)) (1 / v3_norm (nn 0 i))) (dn i) y). symmetry. apply proj_nrate. exact N. }
  rewrite E. unfold dn. rewrite <- rate_corners, !dot_add_l, !area_normal_opposite.
  assert (SK : forall a x u, v3_dot (m3_mulv (cross_matrix a) x) u = - v3_dot (m3_mulv (cross_matrix a) u) x).
  { intros [a0 a1 a2] [x0 x1 x2] [u0 u1 u2]. cbv [m3_mulv cross_matrix v3_dot r0 r1 r2 vx vy vz]. ring. }
  rewrite (SK _ z), (SK _ z), (SK _ z). ring.
Qed.
Lemma corners_mean a i : rsum (map (fun j => v3_dot a (U (vertex_of (tri_of topo i) j))) [0; 1; 2]%nat) = - 3 * v3_dot a (e i).
Proof. unfold e, mean. rewrite !dot_scale_r, dot_vsum_r. destruct (tri_of topo i) as [[x y] z]. cbn [map tri_verts vertex_of]. rewrite !rsum_cons, !rsum_nil. field. Qed.
Lemma outer_form (t1 t2 : triangle) s (a : nat -> v3) (d : v3) :
  form U (flat_map (fun i => map (fun j => lower_block (vertex_of t1 i) (vertex_of t2 j) (m3_scale s (outer (a i) d))) [0; 1; 2]%nat) [0; 1; 2]%nat)
  = 2 * s * rsum (map (fun i => v3_dot (a i) (U (vertex_of t1 i))) [0; 1; 2]%nat) * rsum (map (fun j => v3_dot d (U (vertex_of t2 j))) [0; 1; 2]%nat).
Proof.
  rewrite form_flat_map. rewrite Rmult_assoc, (Rmult_comm (rsum _) (rsum _)), <- Rmult_assoc. rewrite <- rsum_scale. apply rsum_ext. intros i _. unfold form. rewrite map_map.
  rewrite (rsum_ext _ (fun j => (2 * s * v3_dot (a i) (U (vertex_of t1 i))) * v3_dot d (U (vertex_of t2 j)))).
  - rewrite rsum_scale. ring.
  - intros j _. rewrite lower_block_form, bil_scale, bil_outer. ring.
Qed.
Lemma picked_sum (f : nat -> R) : rsum (map (fun i => if Nat.eqb i c then f i else 0) view) = f c.
Proof. rewrite <- (pick_one f c view ND (proj1 NE)). apply rsum_ext. intros i _. rewrite Nat.eqb_sym. reflexivity. Qed.
Lemma om_sum : rsum (map om view) = W1.
Proof. unfold om. rewrite rsum_plus, (picked_sum (fun _ => be)). reflexivity. Qed.
Lemma coupling_form : form U (coupling_blocks V topo b) = 2 * rsum (map (fun i => al i * nu i) view) / W - 2 * rsum (map (fun i => w i * nu i) view) * W1 / (W * W).
Proof.
  unfold coupling_blocks. cbv zeta. change (b_view b) with view. change (b_kernel b) with k. change (b_dist b) with d0. change (b_q b) with q. change (b_all b) with S. rewrite s_wsi, form_flat_map. pose proof s_W as NW.
  rewrite (rsum_ext _ (fun l => (2 / W * (al l * nu l)) + (- 2 * rsum (map (fun i => w i * nu i) view) / (W * W)) * om l)).
  - rewrite rsum_plus, !rsum_scale.
    rewrite om_sum. field. exact NW.
  - intros l Hl. rewrite form_app, outer_form, (gradient_corners l _ Hl), corners_mean, dot_neg_l, (s_grad l Hl). f_equal.
    + change (v3_sub q (s_pos (smp S l))) with (dd 0 l). fold (nu l). field. exact NW.
    + rewrite form_flat_map. rewrite (rsum_ext _ (fun m => (- 2 * om l / (W * W)) * (w m * nu m))).
      * rewrite rsum_scale. unfold Rdiv. ring.
      * intros m Hm. rewrite (outer_form (tri_of topo m) (tri_of topo l)), corners_mean, dot_add_l, dot_neg_l, (s_grad l Hl), s_be.
        rewrite (rsum_ext _ (fun j => -1 * v3_dot (m3_mulv (unit_normal_gradient V topo m (smp S m) j) (dd 0 m)) (U (vertex_of (tri_of topo m) j)))).
        -- rewrite rsum_scale, (gradient_corners m _ Hm). fold (nu m). change (s_weight k d0 q (smp S m)) with (w m). unfold om. field. exact NW.
        -- intros j _. change (v3_sub q (s_pos (smp S m))) with (dd 0 m). generalize (unit_normal_gradient V topo m (smp S m) j) (dd 0 m) (U (vertex_of (tri_of topo m) j)).
           intros [[a1 a2 a3] [a4 a5 a6] [a7 a8 a9]] [x1 x2 x3] [y1 y2 y3]. cbv [m3_mulv m3_neg m3_scale v3_scale v3_dot r0 r1 r2 vx vy vz]. ring.
Qed.

(** ** Samples *)
Lemma mean_bil H i j : bil H (mean topo U i) (mean topo U j) = bil H (e i) (e j).
Proof. unfold e. rewrite bil_scale_r. unfold bil. rewrite (dot_comm (v3_scale _ _)), dot_scale_r, dot_comm. ring. Qed.
(** Diagonal blocks and the blocks below them. *)
Lemma pairs_form (Dg : nat -> m3) (Of : nat -> nat -> m3) (h : nat -> R) (f : nat -> nat -> R) :
  (forall i, In i view -> bil (Dg i) (e i) (e i) = h i) -> (forall i j, In i view -> In j view -> i <> j -> bil (Of i j) (e j) (e i) = f i j) ->
  (forall i j, In i view -> In j view -> f i j = f j i) ->
  rsum (map (fun x => (if Nat.eqb (fst (fst x)) (snd (fst x)) then 1 else 2) * bil (snd x) (mean topo U (fst (fst x))) (mean topo U (snd (fst x))))
    (map (fun i => (i, i, Dg i)) view ++ flat_map (fun i => map (fun j => (j, i, Of i j)) (filter (fun j => Nat.ltb i j) view)) view))
  = rsum (map (fun i => h i - f i i) view) + rsum (map (fun i => rsum (map (f i) view)) view).
Proof.
  intros HD HO HS. rewrite map_app, rsum_app, map_map.
  rewrite (rsum_ext _ h) by (intros i Hi; cbn [fst snd]; rewrite Nat.eqb_refl, mean_bil, (HD i Hi); ring).
  rewrite <- (pairs_sum f view ND HS), <- Rplus_assoc, <- rsum_plus. f_equal; [apply rsum_ext; intros i _; ring|].
  rewrite MassProofs.rsum_flat_map, <- rsum_scale. apply rsum_ext. intros i Hi. rewrite map_map, <- rsum_scale. apply rsum_ext. intros j Hj. cbn [fst snd]. apply filter_In in Hj. destruct Hj as [Hj L].
  apply Nat.ltb_lt in L. destruct (Nat.eqb_spec j i); [lia|]. rewrite mean_bil, (HO i j Hi Hj) by lia. reflexivity.
Qed.
Let fs (i j : nat) : R := (- om j * al i * psi i - al j * om i * psi j + 2 * lp * om i * om j - mu j * w j * om i - om j * w i * mu i) / (W * W).
Let fb (i j : nat) : R := (2 * fv * bw * al i * al j / W - (if Nat.eqb i c then al j * K else 0) - (if Nat.eqb j c then al i * K else 0)) / (W * W).
Lemma sum_fs : rsum (map (fun i => rsum (map (fs i) view)) view)
  = (- 2 * W1 * rsum (map (fun i => al i * psi i) view) + 2 * lp * W1 * W1 - 2 * W1 * rsum (map (fun i => w i * mu i) view)) / (W * W).
Proof.
  rewrite (rsum_ext _ (fun i => (- W1 / (W * W)) * (al i * psi i) + ((- rsum (map (fun j => al j * psi j) view) + 2 * lp * W1 - rsum (map (fun j => w j * mu j) view)) / (W * W)) * om i + (- W1 / (W * W)) * (w i * mu i))).
  - rewrite !rsum_plus, !rsum_scale, om_sum. field. exact s_W.
  - intros i Hi. rewrite (rsum_ext _ (fun j => ((- al i * psi i + 2 * lp * om i - w i * mu i) / (W * W)) * om j + (- om i / (W * W)) * (al j * psi j) + (- om i / (W * W)) * (w j * mu j))).
    + rewrite !rsum_plus, !rsum_scale, om_sum. field. exact s_W.
    + intros j _. unfold fs. field. exact s_W.
Qed.
Lemma sum_fb : rsum (map (fun i => rsum (map (fb i) view)) view)
  = (2 * fv * bw * rsum (map al view) * rsum (map al view) / W - 2 * K * rsum (map al view)) / (W * W).
Proof.
  pose proof s_W as NW.
  rewrite (rsum_ext _ (fun i => ((2 * fv * bw * rsum (map al view) / W - K) / (W * W)) * al i + (- (K * rsum (map al view)) / (W * W)) * (if Nat.eqb i c then 1 else 0))).
  - rewrite !rsum_plus, !rsum_scale, (picked_sum (fun _ => 1)). field. exact NW.
  - intros i Hi. rewrite (rsum_ext _ (fun j => ((2 * fv * bw * al i / W - (if Nat.eqb i c then K else 0)) / (W * W)) * al j + (- (al i * K) / (W * W)) * (if Nat.eqb j c then 1 else 0))).
    + rewrite !rsum_plus, !rsum_scale, (picked_sum (fun _ => 1)). destruct (Nat.eqb i c); field; exact NW.
    + intros j _. unfold fb. destruct (Nat.eqb i c), (Nat.eqb j c); field; exact NW.
Qed.
Lemma filter_all {A} (p : A -> bool) l : forallb p l = true -> filter p l = l.
Proof. induction l as [|a l IH]; [reflexivity|]. cbn. intros H. apply andb_prop in H. destruct H as [-> H]. rewrite (IH H). reflexivity. Qed.
Lemma bg_blocks_zip : map (fun p => (fst (snd p), snd (snd p), fst p))
    (filter (fun p => Nat.leb (snd (snd p)) (fst (snd p))) (combine (bg_hessian_blocks b) (hessian_block_indices (b_weighted b) (b_view b))))
  = map (fun i => (i, i, bg_hessian_diag b i)) view ++
    (if p_weighted P then flat_map (fun i => map (fun j => (j, i, bg_hessian_off_diag b i j)) (filter (fun j => Nat.ltb i j) view)) view else []).
Proof.
  unfold bg_hessian_blocks, hessian_block_indices, lower_pairs. change (b_view b) with view. change (b_weighted b) with (p_weighted P). rewrite combine_app_eq by (rewrite !map_length; reflexivity).
  rewrite filter_app, map_app. f_equal.
  - rewrite combine_map_same. rewrite filter_all; [rewrite map_map; reflexivity|]. apply forallb_forall. intros x Hx. apply in_map_iff in Hx. destruct Hx as (i & <- & _). cbn [fst snd]. apply Nat.leb_refl.
  - destruct (p_weighted P); [|reflexivity].
    assert (Z : forall l, combine (flat_map (fun i => map (bg_hessian_off_diag b i) (filter (fun j => Nat.ltb i j) view)) l) (flat_map (fun i => map (fun j => (j, i)) (filter (fun j => Nat.ltb i j) view)) l)
      = flat_map (fun i => map (fun j => (bg_hessian_off_diag b i j, (j, i))) (filter (fun j => Nat.ltb i j) view)) l).
    { induction l as [|i l IH]; [reflexivity|]. cbn [flat_map]. rewrite combine_app_eq by (rewrite !map_length; reflexivity). rewrite IH, combine_map_same. reflexivity. }
    rewrite Z. rewrite filter_all.
    + rewrite flat_map_map. apply flat_map_ext. intros i. rewrite map_map. reflexivity.
    + apply forallb_forall. intros x Hx. apply in_flat_map in Hx. destruct Hx as (i & _ & Hx). apply in_map_iff in Hx. destruct Hx as (j & <- & Hj). apply filter_In in Hj. cbn [fst snd]. apply Nat.leb_le. destruct Hj as [_ L]. apply Nat.ltb_lt in L. lia.
Qed.
Lemma samples_form : form U (main_hessian topo b) =
  (rsum (map (fun i => psi i * ga i) view) - lp * W2 + 2 * rsum (map (fun i => al i * mu i) view)) / W
  + (- 2 * W1 * rsum (map (fun i => al i * psi i) view) + 2 * lp * W1 * W1 - 2 * W1 * rsum (map (fun i => w i * mu i) view)) / (W * W)
  + (if p_weighted P then
      (bw * f2 - fv * bw * rsum (map ga view) / W + (1 - bw / W) * (fv * b2 - 2 * fv * be * be / W + 2 * ph * be)) / W
      + (2 * fv * bw * rsum (map al view) * rsum (map al view) / W - 2 * K * rsum (map al view)) / (W * W)
    else bw * f2 / W).
Proof.
  pose proof s_W as NW.
  assert (EL : sample_hessian_at b = (map (fun i => (i, i, sample_hessian_diag b lp i)) view ++ flat_map (fun i => map (fun j => (j, i, sample_hessian_off_diag b lp i j)) (filter (fun j => Nat.ltb i j) view)) view)
    ++ (map (fun i => (i, i, bg_hessian_diag b i)) view ++ (if p_weighted P then flat_map (fun i => map (fun j => (j, i, bg_hessian_off_diag b i j)) (filter (fun j => Nat.ltb i j) view)) view else []))).
  { unfold sample_hessian_at. cbv zeta. rewrite bg_blocks_zip. change (b_q b) with q. change (b_all b) with S. change (b_view b) with view. change (b_kernel b) with k. change (b_dist b) with d0. rewrite s_lp, <- app_assoc. reflexivity. }
  unfold main_hessian. rewrite EL, main_form.
  - rewrite map_app, rsum_app. f_equal.
    + rewrite (pairs_form _ _ _ fs diag_value (fun i j Hi Hj _ => off_value i j Hi Hj)) by (intros i j _ _; unfold fs; field; exact NW). rewrite sum_fs. f_equal.
      rewrite (rsum_ext _ (fun i => 1 / W * (psi i * ga i) + (- lp / W) * ga i + (- lp / W) * (if Nat.eqb i c then b2 else 0) + 2 / W * (al i * mu i))).
      * rewrite !rsum_plus, !rsum_scale, (picked_sum (fun _ => b2)). change W2 with (rsum (map ga view) + b2). field. exact NW.
      * intros i Hi. unfold fs. destruct (Nat.eqb i c); field; exact NW.
    + destruct (p_weighted P) eqn:HW.
      * rewrite (pairs_form _ _ _ fb (fun i Hi => bg_diag_value i Hi HW) (fun i j Hi Hj N => bg_off_value i j Hi Hj N HW)) by (intros i j _ _; unfold fb; destruct (Nat.eqb i c), (Nat.eqb j c); field; exact NW).
        rewrite sum_fb. f_equal.
        rewrite (rsum_ext _ (fun i => (- fv * bw / (W * W)) * ga i + ((bw * f2 + (1 - bw / W) * (fv * b2 - 2 * fv * be * be / W + 2 * ph * be)) / W) * (if Nat.eqb i c then 1 else 0))).
        -- rewrite !rsum_plus, !rsum_scale, (picked_sum (fun _ => 1)). field. exact NW.
        -- intros i Hi. unfold fb, K. destruct (Nat.eqb i c); field; exact NW.
      * rewrite app_nil_r, map_map. rewrite (rsum_ext _ (fun i => if Nat.eqb i c then bw * f2 / W else 0)); [apply (picked_sum (fun _ => bw * f2 / W))|].
        intros i Hi. cbn [fst snd]. rewrite Nat.eqb_refl, mean_bil, (bg_diag_unweighted i Hi HW). ring.
  - intros h Hh. assert (OFF : forall (Of : nat -> nat -> m3), In h (flat_map (fun i => map (fun j => (j, i, Of i j)) (filter (fun j => Nat.ltb i j) view)) view) -> (snd (fst h) < fst (fst h))%nat).
    { intros Of H. apply in_flat_map in H. destruct H as (i & _ & H). apply in_map_iff in H. destruct H as (j & <- & Hj). apply filter_In in Hj. destruct Hj as [_ L]. apply Nat.ltb_lt in L. exact L. }
    apply in_app_or in Hh. destruct Hh as [Hh|Hh]; apply in_app_or in Hh; destruct Hh as [Hh|Hh].
    + apply in_map_iff in Hh. destruct Hh as (i & <- & Hi). left. split; [reflexivity|]. apply diag_sym, Hi.
    + right. exact (OFF _ Hh).
    + apply in_map_iff in Hh. destruct Hh as (i & <- & Hi). left. split; [reflexivity|]. apply bg_diag_sym, Hi.
    + right. destruct (p_weighted P); [exact (OFF _ Hh)|destruct Hh].
Qed.
(** The quadratic form of the blocks is the curvature of the potential. *)
Lemma code_form : form U (normal_hessian_at V topo b ++ main_hessian topo b) = c_G k k0 P v view c dd nn val e dn ddn.
Proof.
  unfold normal_hessian_at. rewrite !form_app, normals_form, coupling_form, samples_form. pose proof s_W as NW.
  unfold c_G, c_N. change (q_W k k0 P view c dd 0) with W. change (r_W k k0 P view c dd e) with W1. change (c_W k k0 P view c dd e) with W2.
  change (c_fv P c dd nn e) with f2. change (c_bw k P c dd e) with b2. change (r_fv P c dd nn e) with ph. change (r_bw k P c dd e) with be. change (q_bw k P c dd 0) with bw. change (q_fv P v c dd nn 0) with fv.
  assert (EG : q_G k k0 P v view c dd nn val 0 = fv * bw / W + lp) by (change (q_G k k0 P v view c dd nn val 0) with ((fv * bw + rsum (map (fun i => w i * psi i) view)) * (1 / W)); unfold lp; field; exact NW). rewrite EG.
  assert (ER : r_G k k0 P v view c dd nn val e dn = 1 / W * (rsum (map (fun i => al i * psi i) view) + rsum (map (fun i => w i * mu i) view) + rsum (map (fun i => w i * nu i) view) + (ph * bw + fv * be) - (fv * bw / W + lp) * W1)).
  { unfold r_G. rewrite EG. fold W W1 bw fv be ph. f_equal. f_equal. f_equal. rewrite <- !rsum_plus. apply rsum_ext. intros i _. unfold r_psi. fold (al i) (psi i) (w i) (mu i) (nu i). ring. }
  rewrite ER.
  rewrite (rsum_ext (fun i => c_w k0 dd e i * q_psi dd nn val 0 i + 2 * r_w k0 dd e i * r_psi dd nn e dn i + q_w k0 dd 0 i * c_psi2 dd nn e dn ddn i)
    (fun i => psi i * ga i + 2 * (al i * mu i) + 2 * (al i * nu i) + w i * ka i)) by (intros i _; unfold r_psi; fold (al i) (psi i) (w i) (mu i) (nu i) (ga i) (ka i); ring).
  rewrite !rsum_plus, !rsum_scale.
  rewrite (rsum_ext (fun i => w i * ka i / W) (fun i => 1 / W * (w i * ka i))) by (intros i _; field; exact NW). rewrite rsum_scale.
  assert (EA : rsum (map al view) = W1 - be) by (change W1 with (rsum (map al view) + be); ring). assert (EGa : rsum (map ga view) = W2 - b2) by (change W2 with (rsum (map ga view) + b2); ring).
  destruct (p_weighted P) eqn:HW.
  - rewrite EA, EGa. unfold K. generalize (rsum (map (fun i => w i * ka i) view)) (rsum (map (fun i => al i * nu i) view)) (rsum (map (fun i => w i * nu i) view)) (rsum (map (fun i => psi i * ga i) view))
      (rsum (map (fun i => al i * mu i) view)) (rsum (map (fun i => al i * psi i) view)) (rsum (map (fun i => w i * mu i) view)). intros. field. exact NW.
  - assert (Zb : be = 0) by apply (c_unweighted k P view c (fun _ => q) (fun _ => S) NE c (e c) (e c) HW (proj1 NE)).
    assert (Z2 : b2 = 0) by apply (c_unweighted k P view c (fun _ => q) (fun _ => S) NE c (e c) (e c) HW (proj1 NE)).
    assert (Za : bw * W1 = 0).
    { replace W1 with (rsum (map al view)) by (rewrite EA, Zb; ring). rewrite <- rsum_scale. apply rsum_zero. intros i Hi. apply (c_unweighted k P view c (fun _ => q) (fun _ => S) NE i (e i) (e i) HW Hi). }
    assert (Zg : bw * W2 = 0).
    { replace W2 with (rsum (map ga view)) by (rewrite EGa, Z2; ring). rewrite <- rsum_scale. apply rsum_zero. intros i Hi. apply (c_unweighted k P view c (fun _ => q) (fun _ => S) NE i (e i) (e i) HW Hi). }
    rewrite Zb, Z2. clear - NW Za Zg. generalize (rsum (map (fun i => w i * ka i) view)) (rsum (map (fun i => al i * nu i) view)) (rsum (map (fun i => w i * nu i) view)) (rsum (map (fun i => psi i * ga i) view))
      (rsum (map (fun i => al i * mu i) view)) (rsum (map (fun i => al i * psi i) view)) (rsum (map (fun i => w i * mu i) view)). intros.
    match goal with |- ?l = ?r => assert (D : r - l = - 2 * ph / (W * W) * (bw * W1) + 2 * fv * W1 / (W * W * W) * (bw * W1) - fv / (W * W) * (bw * W2)) end.
    { field. exact NW. }
    rewrite Za, Zg in D. lra.
Qed.
End SurfCode.
End Squares.
