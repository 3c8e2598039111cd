(** Proofs about the derivatives of the contact Jacobian. *)
From Coq Require Import Reals List Bool Lra Lia Psatz FunctionalExtensionality Permutation.
From Coquelicot Require Import Coquelicot.
From Verif Require Import Vec3 Mat3 RList Calc KernelModel KernelSpec KernelProofs FieldModel FieldSpec FieldProofs FieldDerivProofs
  NeighborModel NeighborSpec NeighborProofs UpdateProps SurfJacModel SurfJacSpec SurfJacProofs ContactMapModel ContactMapSpec ContactMapProofs HessModel HessSpec HessProofs HessMixProofs
  BasisJacProofs ContactDerivModel ContactDerivSpec.
Import ListNotations.
Local Open Scope R_scope.
Ltac realR := match goal with |- @eq _ ?a ?b => change (@eq R a b) end.

(** ** Blocks stored by columns *)
Definition tm (B : m3) (u : v3) : v3 := m3_mulv (m3_transpose B) u.
Lemma tm_add A B u : tm (m3_add A B) u = v3_add (tm A u) (tm B u).
Proof. unfold tm. destruct A as [[a b c] [d e f] [g h i]], B as [[a' b' c'] [d' e' f'] [g' h' i']], u as [x y z]. apply v3_eq; cbv [m3_mulv m3_transpose m3_add v3_add v3_dot r0 r1 r2 vx vy vz]; ring. Qed.
Lemma tm_scale s A u : tm (m3_scale s A) u = v3_scale s (tm A u).
Proof. unfold tm. destruct A as [[a b c] [d e f] [g h i]], u as [x y z]. apply v3_eq; cbv [m3_mulv m3_transpose m3_scale v3_scale v3_dot r0 r1 r2 vx vy vz]; ring. Qed.
Lemma tm_outer a b u : tm (outer a b) u = v3_scale (v3_dot a u) b.
Proof. unfold tm, outer. destruct a as [a1 a2 a3], b as [b1 b2 b3], u as [x y z]. apply v3_eq; cbv [m3_mulv m3_transpose v3_scale v3_dot r0 r1 r2 vx vy vz]; ring. Qed.
Lemma tm_dot A u x : v3_dot (tm A u) x = v3_dot (m3_mulv A x) u.
Proof. unfold tm. destruct A as [[a b c] [d e f] [g h i]], u as [u1 u2 u3], x as [x1 x2 x3]. cbv [m3_mulv m3_transpose v3_dot r0 r1 r2 vx vy vz]. ring. Qed.
Lemma tm_transpose A u : tm (m3_transpose A) u = m3_mulv A u.
Proof. unfold tm. destruct A as [[a b c] [d e f] [g h i]]. reflexivity. Qed.
Lemma tm_0 u : tm m3_0 u = v3_0.
Proof. unfold tm. destruct u as [x y z]. apply v3_eq; cbv [m3_0 m3_mulv m3_transpose v3_dot v3_0 r0 r1 r2 vx vy vz]; ring. Qed.
Lemma dot_all a b : (forall x, v3_dot a x = v3_dot b x) -> a = b.
Proof.
  intros H. pose proof (H (V3 1 0 0)) as A. pose proof (H (V3 0 1 0)) as B. pose proof (H (V3 0 0 1)) as C. destruct a as [a1 a2 a3], b as [b1 b2 b3]. cbv [v3_dot vx vy vz] in *. apply v3_eq; cbn [vx vy vz]; lra.
Qed.
Lemma vsum_perm l m : Permutation l m -> vsum l = vsum m.
Proof.
  induction 1; [reflexivity| | |congruence].
  - rewrite !vsum_cons. congruence.
  - rewrite !vsum_cons. generalize (vsum l). intros [a b c]. destruct x as [x1 x2 x3], y as [y1 y2 y3]. apply v3_eq; cbv [v3_add vx vy vz]; ring.
Qed.

(** ** The turned multiplier *)
Definition sgn (tr : bool) : R := if tr then -1 else 1.
Lemma turned_form n g b tr : v3_dot n g <> -1 -> turned_multiplier n g b tr =
  v3_add (v3_add b (v3_scale (sgn tr) (v3_cross (v3_cross n g) b))) (v3_scale (1 / (1 + v3_dot n g)) (v3_cross (v3_cross n g) (v3_cross (v3_cross n g) b))).
Proof.
  intros H. unfold turned_multiplier. cbv zeta. rewrite rodrigues_turn by exact H. rewrite turn_apply. generalize (v3_cross n g) (1 / (1 + v3_dot n g)). intros [u1 u2 u3] s. destruct b as [b1 b2 b3].
  destruct tr; apply v3_eq; cbv [sgn v3_add v3_scale v3_cross vx vy vz]; ring.
Qed.
Lemma turned_transpose n g b tr : turned_multiplier n g b tr = m3_mulv (if tr then m3_transpose (rodrigues_rotation (cross_matrix (v3_cross n g)) (v3_dot n g)) else rodrigues_rotation (cross_matrix (v3_cross n g)) (v3_dot n g)) b.
Proof.
  unfold turned_multiplier. cbv zeta. destruct tr; [|reflexivity]. f_equal. unfold rodrigues_rotation. destruct (Req_EM_T _ _); [reflexivity|]. generalize (v3_cross n g) (1 / (1 + v3_dot n g)). intros [u1 u2 u3] s.
  apply m3_ext; apply v3_eq; cbv [cross_matrix m3_mul m3_mulv m3_transpose m3_add m3_scale m3_I v3_dot v3_add v3_scale r0 r1 r2 vx vy vz]; ring.
Qed.
(** Its rate. *)
Definition spin (tr : bool) (n g dn dg b : v3) : v3 :=
  let u := v3_cross n g in let u' := v3_add (v3_cross dn g) (v3_cross n dg) in let f := 1 / (1 + v3_dot n g) in
  v3_add (v3_add (v3_scale (sgn tr) (v3_cross u' b)) (v3_scale f (v3_add (v3_cross u' (v3_cross u b)) (v3_cross u (v3_cross u' b)))))
    (v3_scale (- (f * f) * (v3_dot dn g + v3_dot n dg)) (v3_cross u (v3_cross u b))).
Lemma spin_add tr n g dn dn' dg dg' b : spin tr n g (v3_add dn dn') (v3_add dg dg') b = v3_add (spin tr n g dn dg b) (spin tr n g dn' dg' b).
Proof.
  unfold spin. cbv zeta. rewrite !dot_add_l, !dot_add_r. generalize (1 / (1 + v3_dot n g)) (sgn tr). intros f s. generalize (v3_dot dn g) (v3_dot dn' g) (v3_dot n dg) (v3_dot n dg'). intros r1 r2 r3 r4.
  replace (v3_add (v3_cross (v3_add dn dn') g) (v3_cross n (v3_add dg dg'))) with (v3_add (v3_add (v3_cross dn g) (v3_cross n dg)) (v3_add (v3_cross dn' g) (v3_cross n dg'))).
  2:{ destruct n as [n1 n2 n3], g as [g1 g2 g3], dn as [a1 a2 a3], dn' as [b1 b2 b3], dg as [c1 c2 c3], dg' as [d1 d2 d3]. apply v3_eq; cbv [v3_add v3_cross vx vy vz]; ring. }
  generalize (v3_add (v3_cross dn g) (v3_cross n dg)) (v3_add (v3_cross dn' g) (v3_cross n dg')) (v3_cross n g). intros [a1 a2 a3] [b1 b2 b3] [u1 u2 u3]. destruct b as [m1 m2 m3].
  apply v3_eq; cbv [v3_add v3_scale v3_cross vx vy vz]; ring.
Qed.
Lemma spin_0 tr n g b : spin tr n g v3_0 v3_0 b = v3_0.
Proof.
  unfold spin. cbv zeta. rewrite dot_0_l, dot_0_r. generalize (1 / (1 + v3_dot n g)) (sgn tr). intros f s.
  destruct n as [n1 n2 n3], g as [g1 g2 g3], b as [m1 m2 m3]. apply v3_eq; cbv [v3_add v3_scale v3_cross v3_0 vx vy vz]; ring.
Qed.
Lemma spin_sum {A} tr n g (dn dg : A -> v3) b l : vsum (map (fun v => spin tr n g (dn v) (dg v) b) l) = spin tr n g (vsum (map dn l)) (vsum (map dg l)) b.
Proof. induction l as [|a l IH]; cbn [map]; [symmetry; apply spin_0|]. rewrite !vsum_cons, IH, spin_add. reflexivity. Qed.
Lemma turned_moves (n g : R -> v3) dn dg b tr : moves n dn -> moves g dg -> v3_dot (n 0) (g 0) <> -1 -> moves (fun s => turned_multiplier (n s) (g s) b tr) (spin tr (n 0) (g 0) dn dg b).
Proof.
  intros Mn Mg N. pose proof (moves_dot n g dn dg Mn Mg) as D. pose proof (moves_cross n g dn dg Mn Mg) as Mu.
  apply (moves_ext_loc (fun s => v3_add (v3_add b (v3_scale (sgn tr) (v3_cross (v3_cross (n s) (g s)) b))) (v3_scale (1 / (1 + v3_dot (n s) (g s))) (v3_cross (v3_cross (n s) (g s)) (v3_cross (v3_cross (n s) (g s)) b))))).
  { eapply filter_imp; [|apply (ne_near _ _ (-1) D N)]. intros s H. symmetry. apply turned_form, H. }
  assert (M1 : moves (fun s => v3_cross (v3_cross (n s) (g s)) b) (v3_cross (v3_add (v3_cross dn (g 0)) (v3_cross (n 0) dg)) b)).
  { eapply moves_is; [apply (moves_cross (fun s => v3_cross (n s) (g s)) (fun _ => b) _ v3_0 Mu (moves_const b))|]. generalize (v3_add (v3_cross dn (g 0)) (v3_cross (n 0) dg)) (v3_cross (n 0) (g 0)). intros [a1 a2 a3] [u1 u2 u3]. destruct b as [b1 b2 b3]. apply v3_eq; cbv [v3_add v3_cross v3_0 vx vy vz]; ring. }
  assert (M2 := moves_cross (fun s => v3_cross (n s) (g s)) (fun s => v3_cross (v3_cross (n s) (g s)) b) _ _ Mu M1). cbv beta in M2.
  assert (DF : is_derive (fun s => 1 / (1 + v3_dot (n s) (g s))) 0 (- (v3_dot dn (g 0) + v3_dot (n 0) dg) / ((1 + v3_dot (n 0) (g 0)) * (1 + v3_dot (n 0) (g 0))))).
  { apply (is_derive_ext (fun s => / (1 + v3_dot (n s) (g s)))); [intros s; unfold Rdiv; rewrite Rmult_1_l; reflexivity|]. evar_last; [apply is_derive_inv; [apply @is_derive_plus; [apply @is_derive_const|exact D]|lra]|]. cbv [plus zero]; cbn. realR. field. lra. }
  eapply moves_is; [apply moves_add; [apply moves_add; [apply moves_const|apply moves_scale, M1]|apply (moves_times _ _ _ _ DF M2)]|].
  unfold spin. cbv zeta. set (f := 1 / (1 + v3_dot (n 0) (g 0))). set (r := v3_dot dn (g 0) + v3_dot (n 0) dg). replace (- r / ((1 + v3_dot (n 0) (g 0)) * (1 + v3_dot (n 0) (g 0)))) with (- (f * f) * r) by (unfold f; field; lra). clearbody f r.
  generalize (v3_add (v3_cross dn (g 0)) (v3_cross (n 0) dg)) (v3_cross (n 0) (g 0)) (sgn tr). intros [a1 a2 a3] [u1 u2 u3] s. destruct b as [b1 b2 b3]. apply v3_eq; cbv [v3_add v3_scale v3_cross v3_0 vx vy vz]; ring.
Qed.
Lemma rows3 d0 d1 d2 x : tm (M3 d0 d1 d2) x = v3_add (v3_scale (vx x) d0) (v3_add (v3_scale (vy x) d1) (v3_scale (vz x) d2)).
Proof. unfold tm. destruct d0 as [a b c], d1 as [d e f], d2 as [g h i], x as [x1 x2 x3]. apply v3_eq; cbv [m3_mulv m3_transpose v3_add v3_scale v3_dot r0 r1 r2 vx vy vz]; ring. Qed.
Lemma neg_scale A : m3_neg A = m3_scale (-1) A.
Proof. reflexivity. Qed.
Lemma product_spin n g At G b tr x : v3_dot n g <> -1 -> tm (rodrigues_jacobian_product n g At G (v3_dot n g) b tr) x = spin tr n g (tm G x) (tm At x) b.
Proof.
  intros N. unfold rodrigues_jacobian_product. cbv zeta. destruct (Req_EM_T (1 + v3_dot n g) 0) as [E|_]; [lra|].
  set (f := 1 / (1 + v3_dot n g)). rewrite tm_add, tm_add, tm_outer, tm_scale, rows3. unfold spin. cbv zeta. fold f. rewrite dot_scale_l, dot_add_l, <- !tm_dot, (dot_comm (tm At x) n).
  set (u' := v3_add (v3_cross (tm G x) g) (v3_cross n (tm At x))).
  assert (EU : u' = v3_add (v3_scale (vx x) (v3_add (v3_cross (r0 G) g) (v3_cross n (r0 At)))) (v3_add (v3_scale (vy x) (v3_add (v3_cross (r1 G) g) (v3_cross n (r1 At)))) (v3_scale (vz x) (v3_add (v3_cross (r2 G) g) (v3_cross n (r2 At)))))).
  { unfold u'. destruct G as [G0 G1 G2], At as [A0 A1 A2]. rewrite !rows3. cbn [r0 r1 r2]. destruct G0 as [p1 p2 p3], G1 as [p4 p5 p6], G2 as [p7 p8 p9], A0 as [q1 q2 q3], A1 as [q4 q5 q6], A2 as [q7 q8 q9], n as [n1 n2 n3], g as [g1 g2 g3], x as [x1 x2 x3].
    apply v3_eq; cbv [v3_add v3_scale v3_cross vx vy vz]; ring. }
  rewrite EU. clear EU u'. generalize (v3_add (v3_cross (r0 G) g) (v3_cross n (r0 At))) (v3_add (v3_cross (r1 G) g) (v3_cross n (r1 At))) (v3_add (v3_cross (r2 G) g) (v3_cross n (r2 At))). intros d0 d1 d2.
  replace (- f * f * (v3_dot (tm G x) g + v3_dot n (tm At x))) with (- (f * f) * (v3_dot (tm G x) g + v3_dot n (tm At x))) by ring. f_equal.
  generalize (v3_cross n g). intros u. clearbody f. destruct d0 as [p1 p2 p3], d1 as [p4 p5 p6], d2 as [p7 p8 p9], u as [u1 u2 u3], b as [b1 b2 b3], x as [x1 x2 x3].
  destruct tr; rewrite ?neg_scale, ?tm_scale, rows3; apply v3_eq; cbv [sgn v3_add v3_scale v3_cross vx vy vz]; ring.
Qed.

(** ** One entry of the contact Jacobian along moving points and samples *)
Lemma unit_moves (n : R -> v3) dn : moves n dn -> n 0 <> v3_0 -> exists l, moves (fun s => unit_of (n s)) l /\ forall x, v3_dot l x = nrate (n 0) dn x.
Proof.
  intros M N. eexists. split.
  - apply (moves_ext (fun s => v3_scale (1 / v3_norm (n s)) (n s))); [intros s; unfold unit_of; apply v3_eq; unfold v3_scale; cbn [vx vy vz]; unfold Rdiv; ring|]. exact (moves_unit n dn M N).
  - intros x. unfold turned, nrate. assert (P := v3_norm_pos _ N). rewrite dot_scale_l. generalize dependent (v3_norm (n 0)). intros r P. generalize (n 0). intros [a1 a2 a3]. destruct dn as [b1 b2 b3], x as [x1 x2 x3]. cbv [v3_dot v3_sub v3_scale vx vy vz]. field. lra.
Qed.
Definition the_unit_rate (n dn : v3) : v3 := V3 (nrate n dn (V3 1 0 0)) (nrate n dn (V3 0 1 0)) (nrate n dn (V3 0 0 1)).
Lemma unit_rate_dot n dn x : v3_dot (the_unit_rate n dn) x = nrate n dn x.
Proof. unfold the_unit_rate, nrate. destruct n as [a1 a2 a3], dn as [b1 b2 b3], x as [x1 x2 x3]. cbv [v3_dot vx vy vz]. unfold Rdiv. ring. Qed.
Lemma unit_rate_moves (n : R -> v3) dn : moves n dn -> n 0 <> v3_0 -> moves (fun s => unit_of (n s)) (the_unit_rate (n 0) dn).
Proof. intros M N. destruct (unit_moves n dn M N) as (l & L & E). eapply moves_is; [exact L|]. apply dot_all. intros x. rewrite E, unit_rate_dot. reflexivity. Qed.
Lemma reach_positive k d0 x : valid_kernel k -> 0 < d0 -> 0 < x -> match k_radius k with None => True | Some r => x < r end -> 0 < k_f (with_closest k d0) x.
Proof.
  intros V D X R. apply kernel_pos; [destruct k; cbn in *; tauto|exact X|]. destruct k; cbn in *; tauto.
Qed.
Lemma rsum_derive {A} (f : R -> A -> R) (d : A -> R) l : (forall a, In a l -> is_derive (fun s => f s a) 0 (d a)) -> is_derive (fun s => rsum (map (f s) l)) 0 (rsum (map d l)).
Proof. intros H. apply (derive_rsum (fun a s => f s a)). exact H. Qed.
Lemma times_derive (a b : R -> R) (da db : R) : is_derive a 0 da -> is_derive b 0 db -> is_derive (fun s => a s * b s) 0 (da * b 0 + a 0 * db).
Proof. intros A B. evar_last; [apply @is_derive_mult; [exact A|exact B|intros; apply Rmult_comm]|reflexivity]. Qed.

Section Entry.
Variables (k : kernel) (P : bg_params) (v : R) (view : list nat) (c : nat).
Variables (q : R -> v3) (S : R -> list sample) (dq : v3) (dp dn : nat -> v3) (g : R -> v3) (dg : v3).
Hypothesis Vk : valid_kernel k.
Hypothesis Mq : moves q dq.
Hypothesis MS : moving_samples S view dp dn.
Hypothesis NE : nearest (S 0) (q 0) view c.
Hypothesis RV : regular_view k (S 0) (q 0) view.
Hypothesis SB : smooth_background k P v (S 0) (q 0) c.
Hypothesis RC : match k_radius k with None => True | Some r => v3_norm (away (S 0) (q 0) c) < r end.
Hypothesis Mg : moves g dg.
Hypothesis NO : forall i, In i view -> v3_dot (unit_of (s_nml (smp (S 0) i))) (g 0) <> -1.
Let dd (s : R) (i : nat) := away (S s) (q s) i.
Let un (s : R) (i : nat) := unit_of (s_nml (smp (S s) i)).
Let d0 := v3_norm (dd 0 c).
Let k0 := with_closest k d0.
Let ee (i : nat) := v3_sub dq (dp i).
Let ur (i : nat) := the_unit_rate (s_nml (smp (S 0) i)) (dn i).
Let w (s : R) (i : nat) := k_f k0 (v3_norm (dd s i)).
Let N (s : R) (i : nat) := normal_kernel (un s i) (g s).
Let W (s : R) := rsum (map (fun i => w s i * N s i) view).
Definition w_rate (i : nat) : R := v3_dot (wgrad (with_closest k (v3_norm (away (S 0) (q 0) c))) (away (S 0) (q 0) i)) (v3_sub dq (dp i)).
Definition N_rate (i : nat) : R := 1 / 2 * (1 + v3_dot (un 0 i) (g 0)) * (v3_dot (ur i) (g 0) + v3_dot (un 0 i) dg).
Definition W_rate : R := rsum (map (fun i => w_rate i * N 0 i + w 0 i * N_rate i) view).
Definition entry_rate (tr : bool) (i : nat) (b : v3) : v3 :=
  v3_add (v3_scale ((w_rate i * N 0 i + w 0 i * N_rate i) / W 0 - w 0 i * N 0 i / W 0 * (W_rate / W 0)) (turned_multiplier (un 0 i) (g 0) b tr))
    (v3_scale (w 0 i * N 0 i / W 0) (spin tr (un 0 i) (g 0) (ur i) dg b)).
Lemma d0_pos : 0 < d0.
Proof. apply v3_norm_pos, RV, NE. Qed.
Lemma un_moves i : In i view -> moves (fun s => un s i) (ur i).
Proof. intros Hi. apply (unit_rate_moves (fun s => s_nml (smp (S s) i)) (dn i)); [apply (MS i Hi)|apply RV; exact Hi]. Qed.
Lemma w_derive i : In i view -> is_derive (fun s => w s i) 0 (w_rate i).
Proof.
  intros Hi. destruct (RV i Hi) as (A & B & C). apply (weight_derive k0 (fun s => dd s i) (ee i)).
  - apply with_closest_valid; [exact Vk|exact d0_pos].
  - apply (dd_moves view q S dq dp dn Mq MS i Hi).
  - exact A.
  - apply with_closest_regular. exact C.
Qed.
Lemma N_derive i : In i view -> is_derive (fun s => N s i) 0 (N_rate i).
Proof.
  intros Hi. pose proof (moves_dot _ _ _ _ (un_moves i Hi) Mg) as D. unfold N, normal_kernel. cbv zeta.
  assert (DD : is_derive (fun s => 1 / 2 * (1 + v3_dot (un s i) (g s))) 0 (1 / 2 * (v3_dot (ur i) (g 0) + v3_dot (un 0 i) dg))).
  { evar_last; [apply is_derive_scal, @is_derive_plus; [apply @is_derive_const|exact D]|]. cbv [plus zero scal mult]; cbn. realR. ring. }
  evar_last; [apply (times_derive _ _ _ _ DD DD)|]. unfold N_rate. realR. field.
Qed.
Lemma W_derive : is_derive W 0 W_rate.
Proof. apply (rsum_derive (fun s i => w s i * N s i)). intros i Hi. exact (times_derive _ _ _ _ (w_derive i Hi) (N_derive i Hi)). Qed.
Lemma N_nonneg s i : 0 <= N s i.
Proof. unfold N, normal_kernel. cbv zeta. apply Rle_0_sqr. Qed.
Lemma w_nonneg i : In i view -> 0 <= w 0 i.
Proof. intros Hi. apply kernel_nonneg; [apply with_closest_valid; [exact Vk|exact d0_pos]|apply v3_norm_pos, RV, Hi]. Qed.
Lemma W_pos : 0 < W 0.
Proof.
  assert (IC : In c view) by apply NE. apply (rsum_pos (fun i => w 0 i * N 0 i) view c IC).
  - intros i Hi. apply Rmult_le_pos; [apply w_nonneg, Hi|apply N_nonneg].
  - apply Rmult_lt_0_compat; [apply reach_positive; [exact Vk|exact d0_pos|exact d0_pos|exact RC]|].
    unfold N, normal_kernel. cbv zeta. assert (1 / 2 * (1 + v3_dot (un 0 c) (g 0)) <> 0) by (pose proof (NO c IC) as X; fold (un 0 c) in X; lra). apply Rsqr_pos_lt. assumption.
Qed.
Lemma entry_moves tr i b : In i view -> moves (fun s => v3_scale (w s i * N s i / W s) (turned_multiplier (un s i) (g s) b tr)) (entry_rate tr i b).
Proof.
  intros Hi. pose proof W_pos as WP. pose proof (times_derive _ _ _ _ (w_derive i Hi) (N_derive i Hi)) as D1. cbv beta in D1.
  assert (D : is_derive (fun s => w s i * N s i / W s) 0 ((w_rate i * N 0 i + w 0 i * N_rate i) / W 0 - w 0 i * N 0 i / W 0 * (W_rate / W 0))).
  { evar_last; [apply (is_derive_div (fun s => w s i * N s i) W); [exact D1|exact W_derive|lra]|]. realR. field. lra. }
  exact (moves_times _ _ _ _ D (turned_moves (fun s => un s i) g (ur i) dg b tr (un_moves i Hi) Mg (NO i Hi))).
Qed.
(** The weights the code uses near the beginning: the nearest distance it puts into an interpolating kernel cancels. *)
Lemma scaled_weights s : (forall i, In i view -> away (S s) (q s) i <> v3_0) -> In c view -> exists lam, 0 < lam /\ forall i, In i view -> s_weight k (v3_norm (dd s c)) (q s) (smp (S s) i) = lam * w s i.
Proof.
  intros A IC. pose proof d0_pos as D0. assert (D1 : 0 < v3_norm (dd s c)) by apply v3_norm_pos, A, IC.
  destruct (match k with Interpolating _ _ => true | _ => false end) eqn:KI.
  - destruct k as [e|r|r cc|r t|r e]; try discriminate. exists (v3_norm (dd s c) / d0 * (v3_norm (dd s c) / d0)).
    assert (Q : 0 < v3_norm (dd s c) / d0) by (apply Rdiv_lt_0_compat; lra). split; [apply Rmult_lt_0_compat; exact Q|]. intros i Hi. unfold w, k0, s_weight, k_eval. cbn [with_closest k_f].
    change (v3_norm (v3_sub (q s) (s_pos (smp (S s) i)))) with (v3_norm (dd s i)). apply interp_scale; [apply Vk|exact D0|]. apply Rgt_not_eq, v3_norm_pos, A, Hi.
  - exists 1. split; [lra|]. intros i Hi. rewrite Rmult_1_l. unfold w, k0. destruct k; try discriminate; reflexivity.
Qed.
Lemma entry_near : locally 0 (fun s => forall i b (tr : bool), In i view ->
  m3_mulv (let M := sample_contact_jacobian_at (q s) (smp (S s) i) k (g s) (weight_nml_sum_inv (q s) (S s) view k (v3_norm (away (S s) (q s) c)) (g s)) (v3_norm (away (S s) (q s) c)) in if tr then m3_transpose M else M) b
    = v3_scale (w s i * N s i / W s) (turned_multiplier (un s i) (g s) b tr)).
Proof.
  eapply filter_imp; [|exact (filter_and _ _ (view_near k P v view c q S dq dp dn Mq MS NE RV SB) (locally_lt (fun _ => 0) W 0 W_rate (@is_derive_const _ _ 0 0) W_derive W_pos))].
  intros s [(A & B & _) WP] i b tr Hi. cbv beta in WP. destruct (scaled_weights s) as (lam & LP & EL); [intros j Hj; apply B, Hj|apply A|]. cbv zeta.
  fold (dd s c). unfold sample_contact_jacobian_at. cbv zeta. fold (un s i). fold (N s i). rewrite (EL i Hi).
  assert (EW : weight_nml_sum_inv (q s) (S s) view k (v3_norm (dd s c)) (g s) = 1 / (lam * W s)).
  { unfold weight_nml_sum_inv. cbv zeta. replace (rsum _) with (lam * W s).
    - destruct (Rlt_dec 0 (lam * W s)) as [_|X]; [reflexivity|]. exfalso. apply X, Rmult_lt_0_compat; assumption.
    - unfold W. rewrite <- rsum_scale. apply rsum_ext. intros j Hj. rewrite (EL j Hj). unfold N, un. ring. }
  rewrite EW, turned_transpose. set (RR := rodrigues_rotation _ _). replace (lam * w s i * N s i * (1 / (lam * W s))) with (w s i * N s i / W s) by (field; lra).
  destruct tr; [|apply mulv_scale]. replace (m3_transpose (m3_scale (w s i * N s i / W s) RR)) with (m3_scale (w s i * N s i / W s) (m3_transpose RR)); [apply mulv_scale|]. destruct RR as [[a1 a2 a3] [b1 b2 b3] [c1 c2 c3]]. reflexivity.
Qed.
End Entry.

(** ** Linearity of the rate of an entry *)
Lemma unit_rate_0 n : the_unit_rate n v3_0 = v3_0.
Proof. apply dot_all. intros x. rewrite unit_rate_dot, dot_0_l. unfold nrate. rewrite dot_0_l, dot_0_r. unfold Rdiv. ring. Qed.
Lemma w_rate_add k c q S dq dp i : w_rate k c q S dq dp i = w_rate k c q S dq (fun _ => v3_0) i + w_rate k c q S v3_0 dp i.
Proof. unfold w_rate. rewrite <- dot_add_r. f_equal. apply v3_eq; unv; ring. Qed.
Lemma N_rate_add S dn g dg dg' i : N_rate S dn g (v3_add dg dg') i = N_rate S (fun _ => v3_0) g dg i + N_rate S dn g dg' i.
Proof. unfold N_rate. rewrite unit_rate_0, dot_0_l, dot_add_r. ring. Qed.
Lemma W_rate_add k view c q S dq dp dn g dg dg' : W_rate k view c q S dq dp dn g (v3_add dg dg') = W_rate k view c q S dq (fun _ => v3_0) (fun _ => v3_0) g dg + W_rate k view c q S v3_0 dp dn g dg'.
Proof. unfold W_rate. rewrite <- rsum_plus. apply rsum_ext. intros i _. rewrite w_rate_add, N_rate_add. ring. Qed.
Lemma entry_rate_add k view c q S dq dp dn g dg dg' tr i b :
  entry_rate k view c q S dq dp dn g (v3_add dg dg') tr i b = v3_add (entry_rate k view c q S dq (fun _ => v3_0) (fun _ => v3_0) g dg tr i b) (entry_rate k view c q S v3_0 dp dn g dg' tr i b).
Proof.
  unfold entry_rate. rewrite w_rate_add, N_rate_add, W_rate_add, unit_rate_0.
  replace (the_unit_rate (s_nml (smp (S 0) i)) (dn i)) with (v3_add v3_0 (the_unit_rate (s_nml (smp (S 0) i)) (dn i))) at 1 by (apply v3_eq; unv; ring).
  rewrite spin_add. generalize (turned_multiplier (unit_of (s_nml (smp (S 0) i))) (g 0) b tr) (spin tr (unit_of (s_nml (smp (S 0) i))) (g 0) v3_0 dg b) (spin tr (unit_of (s_nml (smp (S 0) i))) (g 0) (the_unit_rate (s_nml (smp (S 0) i)) (dn i)) dg' b).
  intros [t1 t2 t3] [a1 a2 a3] [b1 b2 b3]. apply v3_eq; cbv [v3_add v3_scale vx vy vz]; unfold Rdiv; ring.
Qed.

(** ** The blocks of the code *)
Lemma rsum_flat {A B} (f : A -> list B) (g : B -> R) l : rsum (map g (flat_map f l)) = rsum (map (fun a => rsum (map g (f a))) l).
Proof. induction l as [|a l IH]; [reflexivity|]. cbn [flat_map map]. rewrite map_app, rsum_app, rsum_cons, IH. reflexivity. Qed.
Lemma accumulate_spec : forall ups l, (forall p, In p ups -> (fst p < length l)%nat) -> exists l', accumulate ups (Some l) = Some l' /\ length l' = length l /\
  forall x v, v3_dot (nth v l' v3_0) x = v3_dot (nth v l v3_0) x + rsum (map (fun p => if Nat.eqb (fst p) v then v3_dot (snd p) x else 0) ups).
Proof.
  unfold accumulate. induction ups as [|[i y] ups IH]; intros l RG; cbn [fold_left fst snd].
  - exists l. split; [reflexivity|]. split; [reflexivity|]. intros x v. cbn [map]. rewrite rsum_nil. ring.
  - assert (H : forall l i, (i < length l)%nat -> exists l', subtract_at v3_add l i y = Some l' /\ length l' = length l /\ forall x v, v3_dot (nth v l' v3_0) x = v3_dot (nth v l v3_0) x + if Nat.eqb i v then v3_dot y x else 0).
    { clear. induction l as [|a l IH]; intros i Hi; [cbn in Hi; lia|]. destruct i as [|i]; cbn [subtract_at].
      - eexists. split; [reflexivity|]. split; [reflexivity|]. intros x [|v]; cbn [nth Nat.eqb]; [apply dot_add_l|ring].
      - destruct (IH i) as (l' & E & EL & N); [cbn in Hi; lia|]. rewrite E. eexists. split; [reflexivity|]. split; [cbn; congruence|]. intros x [|v]; cbn [nth Nat.eqb]; [ring|apply N]. }
    destruct (H l i (RG (i, y) (or_introl eq_refl))) as (l1 & E1 & L1 & N1). rewrite E1. destruct (IH l1) as (l2 & E2 & L2 & N2); [intros p Hp; rewrite L1; apply RG; right; exact Hp|].
    exists l2. split; [exact E2|]. split; [congruence|]. intros x v. rewrite N2, N1. cbn [map fst snd]. rewrite rsum_cons. ring.
Qed.
Lemma accumulate_total ups n verts : NoDup verts -> (forall p, In p ups -> In (fst p) verts) -> (forall v, In v verts -> (v < n)%nat) -> exists l, accumulate ups (Some (repeat v3_0 n)) = Some l /\
  forall U : nat -> v3, rsum (map (fun v => v3_dot (nth v l v3_0) (U v)) verts) = rsum (map (fun p => v3_dot (snd p) (U (fst p))) ups).
Proof.
  intros ND IN BD. destruct (accumulate_spec ups (repeat v3_0 n)) as (l & E & _ & N); [intros p Hp; rewrite repeat_length; apply BD, IN, Hp|]. exists l. split; [exact E|]. intros U.
  rewrite (rsum_ext _ (fun v => rsum (map (fun p => if Nat.eqb (fst p) v then v3_dot (snd p) (U v) else 0) ups))).
  2:{ intros v _. rewrite N, nth_repeat, dot_0_l. ring. }
  rewrite rsum_swap. apply rsum_ext. intros p Hp. apply (pick_one (fun v => v3_dot (snd p) (U v))); [exact ND|apply IN, Hp].
Qed.
Section Blocks.
Variables (t : query_topo) (q : v3) (view : list nat) (c : nat) (g : v3).
Let B := q_base t.
Let S := sb_samples B.
Let k := q_kernel t.
Let P := sb_bg B.
Hypothesis Vk : valid_kernel k.
Hypothesis NE : nearest S q view c.
Hypothesis RV : regular_view k S q view.
Hypothesis PW : p_weighted P = false.
Hypothesis RC : match k_radius k with None => True | Some r => v3_norm (away S q c) < r end.
Hypothesis EG : query_jacobian_at q S view None k P = Some g.
Hypothesis NO : forall i, In i view -> v3_dot (unit_of (s_nml (smp S i))) g <> -1.
Let d0 := v3_norm (away S q c).
Let k0 := with_closest k d0.
Let b := bg_new_impl q S view (Local c) k P None.
Let un (i : nat) := unit_of (s_nml (smp S i)).
Let w (i : nat) := k_f k0 (v3_norm (away S q i)).
Let N (i : nat) := normal_kernel (un i) g.
Let W := rsum (map (fun i => w i * N i) view).
Let rate (dq : v3) (dp dn : nat -> v3) (dg : v3) := entry_rate k view c (fun _ => q) (fun _ => S) dq dp dn (fun _ => g) dg.
Lemma b_some : bg_local q S view k P None = Some b.
Proof. exact (the_background k P view c (fun _ => q) (fun _ => S) NE). Qed.
Lemma b_W_pos : 0 < W.
Proof. exact (W_pos k view c (fun _ => q) (fun _ => S) (fun _ => g) Vk NE RV RC NO). Qed.
Lemma b_weight i : s_weight k d0 q (smp S i) = w i.
Proof. exact (the_weight k c (fun _ => q) (fun _ => S) i). Qed.
Lemma b_weight_grad i : In i view -> s_weight_grad k d0 q (smp S i) = wgrad k0 (away S q i).
Proof. exact (the_weight_grad k view c (fun _ => q) (fun _ => S) RV i). Qed.
Lemma b_wsi : weight_nml_sum_inv q S view k d0 g = 1 / W.
Proof.
  unfold weight_nml_sum_inv. cbv zeta. replace (rsum _) with W; [destruct (Rlt_dec 0 W) as [_|X]; [reflexivity|exfalso; exact (X b_W_pos)]|].
  unfold W. apply rsum_ext. intros i _. rewrite b_weight. reflexivity.
Qed.
Lemma b_bg_grad o : background_weight_gradient b o = v3_0.
Proof.
  unfold background_weight_gradient. change (b_kernel b) with k. change (b_weighted b) with (p_weighted P). rewrite PW. destruct (k_radius k); [|reflexivity]. destruct (Rlt_dec _ _); reflexivity.
Qed.
Lemma b_neigh H dq : v3_dot (weight_nml_gradient b g (m3_transpose H)) dq = W_rate k view c (fun _ => q) (fun _ => S) dq (fun _ => v3_0) (fun _ => v3_0) (fun _ => g) (m3_mulv H dq) / W.
Proof.
  unfold weight_nml_gradient. cbv zeta. rewrite b_bg_grad. change (b_q b) with q. change (b_all b) with S. change (b_view b) with view. change (b_kernel b) with k. change (b_dist b) with d0. rewrite b_wsi.
  rewrite dot_vsum. unfold W_rate. match goal with |- _ = ?X / W => replace (X / W) with (/ W * X) by (unfold Rdiv; ring) end. rewrite <- rsum_scale. apply rsum_ext. intros i Hi. rewrite b_weight, (b_weight_grad i Hi). unfold normal_kernel_grad, N_rate, w_rate. cbv zeta. rewrite unit_rate_0, dot_0_l.
  repeat (rewrite ?dot_scale_l, ?dot_add_l). rewrite dot_0_l, <- !tm_dot, tm_transpose, tm_0, dot_0_l, (dot_comm (m3_mulv H dq)).
  replace (v3_sub dq v3_0) with dq by (apply v3_eq; unv; ring). fold d0 k0 (un i) (w i). fold (N i). unfold Rdiv. ring.
Qed.
Lemma query_block_rate H i dq mult tr : In i view ->
  tm (query_contact_block q (smp S i) k g (weight_nml_gradient b g (m3_transpose H)) H (weight_nml_sum_inv q S view k d0 g) d0 mult tr) dq = rate dq (fun _ => v3_0) (fun _ => v3_0) (m3_mulv H dq) tr i mult.
Proof.
  intros Hi. unfold query_contact_block. cbv zeta. rewrite tm_add, tm_outer, tm_scale, (product_spin _ _ _ _ _ _ _ (NO i Hi)), tm_0, tm_transpose, dot_sub_l, !dot_scale_l, b_neigh, b_wsi, b_weight, (b_weight_grad i Hi).
  unfold normal_kernel_grad. cbv zeta. repeat (rewrite ?dot_scale_l, ?dot_add_l). rewrite <- !tm_dot, tm_transpose, tm_0, dot_0_l, (dot_comm (m3_mulv H dq)).
  unfold rate, entry_rate. rewrite unit_rate_0. fold d0 k0 (un i) (w i). fold (N i). fold W. unfold N_rate, w_rate at 1. rewrite unit_rate_0, dot_0_l. replace (v3_sub dq v3_0) with dq by (apply v3_eq; unv; ring). fold d0 k0 (un i).
  match goal with |- context [rsum (map ?F view)] => change (rsum (map F view)) with W end.
  f_equal; f_equal; [|unfold Rdiv; ring]. unfold Rdiv. ring.
Qed.

(** In the vertices. *)
Hypothesis TY : sb_type B = SFace.
Hypothesis WF : well_formed B.
Hypothesis DC : forall tr, In tr (sb_topo B) -> distinct_corners tr.
Hypothesis LEN : forall i, In i view -> (i < length S)%nat.
Variable ord : list nat -> list nat.
Hypothesis OK : lists_the_set ord.
Let tr (i : nat) : triangle := nth i (sb_topo B) (0, 0, 0)%nat.
Let verts := ord (flat_map tri_verts (map tr view)).
Lemma v_topo i : In i view -> nth_error (sb_topo B) i = Some (tr i) /\ (forall w, In w (tri_verts (tr i)) -> (w < length (sb_verts B))%nat) /\ distinct_corners (tr i).
Proof. exact (m_topo t view TY WF DC LEN i). Qed.
Lemma v_in i v : In i view -> In v (tri_verts (tr i)) -> In v verts.
Proof. intros Hi Hv. unfold verts. apply (OK (flat_map tri_verts (map tr view))). apply in_flat_map. exists (tr i). split; [apply in_map, Hi|exact Hv]. Qed.
Lemma v_out v : In v verts -> exists i, In i view /\ In v (tri_verts (tr i)).
Proof. intros Hv. apply (OK (flat_map tri_verts (map tr view))) in Hv. apply in_flat_map in Hv. destruct Hv as (x & Hx & Hv). apply in_map_iff in Hx. destruct Hx as (i & <- & Hi). exists i. auto. Qed.
Lemma v_bound v : In v verts -> (v < length (sb_verts B))%nat.
Proof. intros Hv. destruct (v_out v Hv) as (i & Hi & H). apply (v_topo i Hi). exact H. Qed.
Lemma v_nodup : NoDup verts.
Proof. apply OK. Qed.
Lemma v_normals : exists Gs : nat -> m3 * m3 * m3, forall i, In i view ->
  face_unit_normal_gradients (sb_verts B) (sb_topo B) i (smp S i) = Some (let '(A0, A1, A2) := Gs i in [A0; A1; A2]) /\
  forall U y, (let '(A0, A1, A2) := Gs i in let '(v0, v1, v2) := tr i in v3_dot (m3_mulv A0 y) (U v0) + v3_dot (m3_mulv A1 y) (U v1) + v3_dot (m3_mulv A2 y) (U v2)) = v3_dot (the_unit_rate (s_nml (smp S i)) (nml_rate B U i)) y.
Proof.
  exists (fun i => match face_unit_normal_gradients (sb_verts B) (sb_topo B) i (smp S i) with Some [A0; A1; A2] => (A0, A1, A2) | _ => (m3_0, m3_0, m3_0) end).
  intros i Hi. destruct (v_topo i Hi) as (T & RG & _). destruct (normal_gradients (sb_verts B) (sb_topo B) i (smp S i) (tr i) T RG) as (A0 & A1 & A2 & EA & NA); [apply (RV i Hi)|].
  rewrite EA. split; [reflexivity|]. intros U y. specialize (NA U y). rewrite unit_rate_dot. unfold nml_rate. rewrite TY. fold (tr i). exact NA.
Qed.
Lemma v_scattered {A} (sub : A -> A -> A) (z : A) y : exists l, scatter sub (sb_topo B) y view (repeat z (length (sb_verts B))) = Some l.
Proof.
  destruct (scatter_spec sub z (sb_topo B) y tr view (repeat z (length (sb_verts B)))) as (l & E & _); [|exists l; exact E].
  intros i Hi. destruct (v_topo i Hi) as (T & RG & _). split; [exact T|]. rewrite repeat_length. exact RG.
Qed.
Lemma v_corners U a i : rsum (map (fun w => v3_dot a (U w)) (tri_verts (tr i))) = 3 * v3_dot a (pos_rate B U i).
Proof. assert (E : pos_rate B U i = v3_scale (1 / 3) (vsum (map U (tri_verts (tr i))))) by exact (m_rate t U TY i). rewrite E, !dot_scale_r, dot_vsum_r. field. Qed.
Lemma v_pick U i (A0 A1 A2 : m3) : In i view ->
  vsum (map (fun v => tm (match position v (tr i) with Some j => nth j [A0; A1; A2] m3_0 | None => m3_0 end) (U v)) verts) =
  let '(v0, v1, v2) := tr i in v3_add (tm A0 (U v0)) (v3_add (tm A1 (U v1)) (tm A2 (U v2))).
Proof.
  intros Hi. apply dot_all. intros x. rewrite dot_vsum.
  rewrite (rsum_ext _ (fun v => match (match position v (tr i) with Some j => nth_error [A0; A1; A2] j | None => None end) with None => 0 | Some G => (fun G v => v3_dot (tm G (U v)) x) G v end)).
  - destruct (v_topo i Hi) as (_ & _ & D). rewrite (corner_pick _ A0 A1 A2 (tr i) verts D v_nodup) by (intros v; apply v_in; exact Hi). destruct (tr i) as [[v0 v1] v2]. rewrite !dot_add_l. ring.
  - intros v _. destruct (tr i) as [[v0 v1] v2]. unfold position. destruct (Nat.eqb v0 v); [reflexivity|]. destruct (Nat.eqb v1 v); [reflexivity|]. destruct (Nat.eqb v2 v); [reflexivity|]. rewrite tm_0. apply dot_0_l.
Qed.
Section Sums.
Variable Gs : nat -> m3 * m3 * m3.
Hypothesis HG : forall i, In i view -> forall U y, (let '(A0, A1, A2) := Gs i in let '(v0, v1, v2) := tr i in v3_dot (m3_mulv A0 y) (U v0) + v3_dot (m3_mulv A1 y) (U v1) + v3_dot (m3_mulv A2 y) (U v2)) = v3_dot (the_unit_rate (s_nml (smp S i)) (nml_rate B U i)) y.
Let gl (i : nat) := let '(A0, A1, A2) := Gs i in [A0; A1; A2].
Variable A : nat -> m3.
Let dgU (U : nat -> v3) := vsum (map (fun v => m3_mulv (A v) (U v)) verts).
Let RW (U : nat -> v3) := W_rate k view c (fun _ => q) (fun _ => S) v3_0 (pos_rate B U) (nml_rate B U) (fun _ => g) (dgU U).
Lemma v_weight_gradients : exists dwl, weight_nml_vertex_gradients b (length (sb_verts B)) g (map tr view) (map gl view) (map A verts) verts = Some dwl /\
  forall U, rsum (map (fun v => v3_dot (nth v dwl v3_0) (U v)) verts) = RW U / W.
Proof.
  unfold weight_nml_vertex_gradients. cbv zeta. change (b_q b) with q. change (b_all b) with S. change (b_view b) with view. change (b_kernel b) with k. change (b_dist b) with d0.
  rewrite b_wsi, combine_maps, combine_map_l. set (FT := vsum _).
  match goal with |- context [accumulate ?u] => destruct (accumulate_total u (length (sb_verts B)) verts v_nodup) as (l & E & T) end.
  - intros p Hp. apply in_app_or in Hp. destruct Hp as [Hp|Hp].
    + rewrite map_map in Hp. apply in_map_iff in Hp. destruct Hp as (v & <- & Hv). exact Hv.
    + apply in_flat_map in Hp. destruct Hp as (x & Hx & Hp). apply in_map_iff in Hx. destruct Hx as (i & <- & Hi). apply in_flat_map in Hp. destruct Hp as ([v G] & Hv & Hp). apply in_combine_l in Hv.
      apply (v_in i); [exact Hi|]. destruct Hp as [<-|[<-|[]]]; exact Hv.
  - exact v_bound.
  - exists l. split; [exact E|]. intros U. rewrite T, map_app, rsum_app, map_map, map_map. cbn [fst snd].
    rewrite (rsum_ext _ (fun v => 1 / W * v3_dot FT (m3_mulv (A v) (U v)))).
    2:{ intros v _. rewrite <- (tm_dot (m3_transpose (A v))), tm_transpose, dot_scale_r, dot_comm. reflexivity. }
    rewrite rsum_scale. replace (rsum (map (fun v => v3_dot FT (m3_mulv (A v) (U v))) verts)) with (v3_dot FT (dgU U)) by (unfold dgU; apply dot_vsum_r).
    unfold FT. rewrite dot_vsum. unfold RW, W_rate. rewrite rsum_flat, map_map.
    match goal with |- _ = ?X / W => replace (X / W) with (/ W * X) by (unfold Rdiv; ring) end. rewrite <- !rsum_scale, <- rsum_plus. apply rsum_ext. intros i Hi.
    rewrite b_bg_grad, b_weight, (b_weight_grad i Hi). unfold w_rate, N_rate. fold d0 k0 (un i) (w i). fold (N i).
    pose proof (HG i Hi U g) as NR. pose proof (v_corners U (wgrad k0 (away S q i)) i) as CR. unfold gl. destruct (Gs i) as [[A0 A1] A2]. destruct (tr i) as [[v0 v1] v2]. cbn [tri_verts combine flat_map app map fst snd] in *. rewrite !rsum_cons, rsum_nil in *.
    rewrite <- NR. replace (v3_dot (wgrad k0 (away S q i)) (v3_sub v3_0 (pos_rate B U i))) with (- (1 / 3) * (3 * v3_dot (wgrad k0 (away S q i)) (pos_rate B U i))).
    2:{ unfold v3_dot, v3_sub, v3_0, v3_add, v3_neg. cbn [vx vy vz]. field. }
    rewrite <- CR. replace (v3_sub (wgrad k0 (away S q i)) v3_0) with (wgrad k0 (away S q i)) by (apply v3_eq; unv; ring).
    assert (MS : forall (G : m3) s u, m3_mulv G (v3_scale s u) = v3_scale s (m3_mulv G u)) by (intros [[a1 a2 a3] [a4 a5 a6] [a7 a8 a9]] r [u1 u2 u3]; apply v3_eq; cbv [m3_mulv v3_scale v3_dot r0 r1 r2 vx vy vz]; ring).
    rewrite !MS. rewrite !dot_neg_l, !dot_scale_l. fold (un i). unfold Rdiv. ring.
Qed.
Lemma v_sample_blocks dwl i tr' mult U : (forall U, rsum (map (fun v => v3_dot (nth v dwl v3_0) (U v)) verts) = RW U / W) -> In i view ->
  vsum (map (fun e => tm (snd e) (U (fst e))) (sample_contact_blocks q (smp S i) (tr i) k g dwl (gl i) (map A verts) verts (1 / W) d0 mult tr')) =
  rate v3_0 (pos_rate B U) (nml_rate B U) (dgU U) tr' i mult.
Proof.
  intros T Hi. unfold sample_contact_blocks. cbv zeta. rewrite b_weight, (b_weight_grad i Hi). fold (un i). fold (N i). set (tm' := turned_multiplier (un i) g mult tr').
  rewrite !map_app, !vsum_app, combine_map_l, !map_map. cbn [fst snd].
  (* corners *)
  rewrite (vsum_ext _ (fun v => v3_scale (1 / W * N i * (- (1 / 3)) * v3_dot (wgrad k0 (away S q i)) (U v)) tm')).
  2:{ intros v _. rewrite tm_outer, !dot_scale_l. generalize tm'. intros z. apply v3_eq; unv; ring. }
  rewrite vsum_weights, rsum_scale, v_corners.
  (* vertices *)
  rewrite (vsum_ext _ (fun v => v3_add (v3_scale (- (N i * (w i * (1 / W))) * v3_dot (nth v dwl v3_0) (U v) + 1 / 2 * (1 + v3_dot (un i) g) * (w i * (1 / W)) * v3_dot (un i) (m3_mulv (A v) (U v))) tm')
    (v3_scale (N i * (w i * (1 / W))) (spin tr' (un i) g (tm (match position v (tr i) with Some j => nth j (gl i) m3_0 | None => m3_0 end) (U v)) (m3_mulv (A v) (U v)) mult)))).
  2:{ intros v _. rewrite !tm_add, !tm_outer, !tm_scale, (product_spin _ _ _ _ _ _ _ (NO i Hi)), tm_transpose, !dot_scale_l, dot_neg_l. rewrite <- (tm_dot (m3_transpose (A v))), tm_transpose.
      rewrite (dot_comm (m3_mulv (A v) (U v))). fold (un i). generalize tm' (v3_dot (un i) (m3_mulv (A v) (U v))) (v3_dot (nth v dwl v3_0) (U v)) (v3_dot (un i) g). intros z r1 r2 r3. match goal with |- context [spin ?a ?b ?c ?d ?e ?f] => generalize (spin a b c d e f) end. intros y. apply v3_eq; unv; ring. }
  rewrite vsum_plus, vsum_scale, spin_sum, vsum_weights, rsum_plus, !rsum_scale, T. rewrite <- dot_vsum_r. fold (dgU U).
  (* normals *)
  pose proof (HG i Hi U) as NR. pose proof (v_pick U i) as VP. unfold gl. destruct (Gs i) as [[A0 A1] A2]. rewrite (VP A0 A1 A2 Hi). clear VP.
  assert (EU : (let '(v0, v1, v2) := tr i in v3_add (tm A0 (U v0)) (v3_add (tm A1 (U v1)) (tm A2 (U v2)))) = the_unit_rate (s_nml (smp S i)) (nml_rate B U i)).
  { apply dot_all. intros x. rewrite <- NR. destruct (tr i) as [[v0 v1] v2]. rewrite !dot_add_l, !tm_dot. ring. }
  rewrite EU. clear EU.
  rewrite (vsum_ext _ (fun p => v3_scale (1 / 2 * (1 + v3_dot (un i) g) * (w i * (1 / W)) * v3_dot (m3_mulv (snd p) g) (U (fst p))) tm')).
  2:{ intros p _. rewrite tm_outer, dot_scale_l. reflexivity. }
  rewrite vsum_weights, rsum_scale.
  replace (rsum (map (fun p => v3_dot (m3_mulv (snd p) g) (U (fst p))) (combine (tri_verts (tr i)) [A0; A1; A2]))) with (v3_dot (the_unit_rate (s_nml (smp S i)) (nml_rate B U i)) g).
  2:{ rewrite <- NR. destruct (tr i) as [[v0 v1] v2]. cbn [tri_verts combine map fst snd]. rewrite !rsum_cons, rsum_nil. ring. }
  unfold rate, entry_rate. fold d0 k0 (un i) (w i). fold (N i). unfold w_rate at 1. fold d0 k0. unfold N_rate at 1. fold (un i). fold tm'.
  replace (v3_dot (wgrad k0 (away S q i)) (v3_sub v3_0 (pos_rate B U i))) with (- v3_dot (wgrad k0 (away S q i)) (pos_rate B U i)).
  2:{ unfold v3_dot, v3_sub, v3_0, v3_add, v3_neg. cbn [vx vy vz]. ring. }
  fold (RW U). match goal with |- context [rsum (map ?F view)] => change (rsum (map F view)) with W end.
  generalize tm'. intros z. match goal with |- context [spin ?a ?b ?c ?d ?e ?f] => generalize (spin a b c d e f) end. intros y.
  pose proof b_W_pos. apply v3_eq; unv; field; lra.
Qed.
End Sums.
Lemma vertex_block_rate : exists (blk : bool -> nat -> v3 -> list (nat * m3)) (A : nat -> m3),
  (forall tr', vertex_contact_blocks ord t q view tr' = Some (map (fun i => (tr i, blk tr' i)) view)) /\
  sample_query_row t q view = Some (map (fun v => (v, A v)) (unseen [] (flat_map tri_verts (map tr view)))) /\
  (forall tr' i mult U, In i view -> vsum (map (fun e => tm (snd e) (U (fst e))) (blk tr' i mult)) = rate v3_0 (pos_rate B U) (nml_rate B U) (vsum (map (fun v => m3_mulv (A v) (U v)) verts)) tr' i mult) /\
  forall tr' i mult e, In i view -> In e (blk tr' i mult) -> In (fst e) verts.
Proof.
  destruct v_normals as (Gs & HG). set (gl := fun i => let '(A0, A1, A2) := Gs i in [A0; A1; A2]).
  assert (ET : all_some (map (nth_error (sb_topo B)) view) = Some (map tr view)) by (apply all_some_each; intros i Hi; apply (v_topo i Hi)).
  assert (EN : all_some (map (fun i => face_unit_normal_gradients (sb_verts B) (sb_topo B) i (smp S i)) view) = Some (map gl view)) by (apply all_some_each; intros i Hi; apply (HG i Hi)).
  unfold vertex_contact_blocks, sample_query_row. cbv zeta. fold B. fold S k P. rewrite b_some, EG, EN, ET. unfold vertex_weight_gradients, vertex_weight_hessians. change (b_view b) with view.
  match goal with |- context [scatter v3_sub (sb_topo B) ?y] => destruct (v_scattered v3_sub v3_0 y) as (dwdq & E1) end.
  match goal with |- context [scatter m3_sub (sb_topo B) ?y] => destruct (v_scattered m3_sub m3_0 y) as (ddwdq & E2) end.
  rewrite E1, E2. unfold jacobian_gradient_phi. change (b_view b) with view. change (b_q b) with q. change (b_all b) with S. change (b_kernel b) with k. change (b_dist b) with d0. rewrite combine_maps. fold verts.
  match goal with |- context [map ?f verts] => set (A := f) end.
  destruct (v_weight_gradients Gs (fun i Hi => proj2 (HG i Hi)) A) as (dwl & EW & T). fold gl in EW. rewrite EW. cbn [option_map]. rewrite b_wsi.
  exists (fun tr' i mult => sample_contact_blocks q (smp S i) (tr i) k g dwl (gl i) (map A verts) verts (1 / W) d0 mult tr'), A.
  refine (conj _ (conj _ (conj _ _))).
  - intros tr'. rewrite map_map. reflexivity.
  - reflexivity.
  - intros tr' i mult U Hi. exact (v_sample_blocks Gs (fun i Hi => proj2 (HG i Hi)) A dwl i tr' mult U T Hi).
  - intros tr' i mult e Hi. unfold sample_contact_blocks. cbv zeta. rewrite combine_map_l. intros He. apply in_app_or in He. destruct He as [He|He]; [|apply in_app_or in He; destruct He as [He|He]].
    + apply in_map_iff in He. destruct He as (v & <- & Hv). exact (v_in i v Hi Hv).
    + rewrite map_map in He. apply in_map_iff in He. destruct He as (v & <- & Hv). exact Hv.
    + apply in_map_iff in He. destruct He as (p & <- & Hp). cbn [fst]. destruct p as [v G]. apply in_combine_l in Hp. exact (v_in i v Hi Hp).
Qed.
End Blocks.
