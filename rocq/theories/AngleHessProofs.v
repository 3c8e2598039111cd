From Coq Require Import Reals ZArith List Arith Bool Lra Lia Psatz.
From Coquelicot Require Import Coquelicot.
From Verif Require Import Vec3 Mat3 Calc ElasticModel ElasticSpec AngleModel AngleSpec AngleProofs.
Import ListNotations.
Local Open Scope R_scope.

Ltac unv := cbv [v3_add v3_sub v3_neg v3_scale v3_dot v3_cross v3_0 vx vy vz m3_add m3_sub m3_scale m3_transpose m3_mulv m3_mul m3_I m3_0 m3_neg skew outer dann r0 r1 r2] in *.
(** Polynomial identities; [n = e x f]. *)
Section Identities.
Variables e1 e2 e3 f1 f2 f3 : R.
Let e := V3 e1 e2 e3.
Let f := V3 f1 f2 f3.
Let n := v3_cross e f.
Let A := v3_dot n n.
Let q := v3_dot e e.
Let dn := dann A (v3_scale (/ A) n).
Hypothesis HA : A <> 0.
Hypothesis Hq : q <> 0.
Lemma m3_ext_get (M N : m3) : (forall i j, (i < 3)%nat -> (j < 3)%nat -> m3_get M i j = m3_get N i j) -> M = N.
Proof.
  intros H. destruct M as [[] [] []], N as [[] [] []]. pose proof (H 0 0 ltac:(lia) ltac:(lia))%nat. pose proof (H 0 1 ltac:(lia) ltac:(lia))%nat. pose proof (H 0 2 ltac:(lia) ltac:(lia))%nat.
  pose proof (H 1 0 ltac:(lia) ltac:(lia))%nat. pose proof (H 1 1 ltac:(lia) ltac:(lia))%nat. pose proof (H 1 2 ltac:(lia) ltac:(lia))%nat. pose proof (H 2 0 ltac:(lia) ltac:(lia))%nat. pose proof (H 2 1 ltac:(lia) ltac:(lia))%nat. pose proof (H 2 2 ltac:(lia) ltac:(lia))%nat.
  cbn in *. subst. reflexivity.
Qed.
Lemma sym_id : m3_transpose (m3_mul dn (skew e)) = m3_mul dn (skew e).
Proof. unfold dn, q, A, n, e, f in *. unv. f_equal; f_equal; field; exact HA. Qed.
Lemma mixed_id : m3_add (m3_scale (v3_dot e f) (m3_transpose (m3_mul dn (skew e)))) (outer e (v3_scale (/ A) n)) = m3_neg (m3_add (outer (v3_scale (/ A) n) e) (m3_scale q (m3_mul dn (skew (v3_neg f))))).
Proof. unfold dn, q, A, n, e, f in *. unv. f_equal; f_equal; field; exact HA. Qed.
Lemma first_id : let M := m3_add (m3_scale (v3_dot e f) (m3_mul dn (skew (v3_neg f)))) (outer (v3_scale (/ A) n) (v3_sub f (v3_scale (v3_dot e f / q) e))) in
  M = m3_add (m3_transpose M) (m3_scale (/ q) (skew e)).
Proof. unfold dn, q, A, n, e, f in *. unv. f_equal; f_equal; field; split; assumption. Qed.
End Identities.
Lemma sym_v (e f n : v3) : n = v3_cross e f -> v3_dot n n <> 0 -> let dn := dann (v3_dot n n) (v3_scale (/ v3_dot n n) n) in m3_transpose (m3_mul dn (skew e)) = m3_mul dn (skew e).
Proof. intros -> H. destruct e, f. apply sym_id. exact H. Qed.
Lemma mixed_v (e f n : v3) : n = v3_cross e f -> v3_dot n n <> 0 -> let dn := dann (v3_dot n n) (v3_scale (/ v3_dot n n) n) in
  m3_add (m3_scale (v3_dot e f) (m3_transpose (m3_mul dn (skew e)))) (outer e (v3_scale (/ v3_dot n n) n)) = m3_neg (m3_add (outer (v3_scale (/ v3_dot n n) n) e) (m3_scale (v3_dot e e) (m3_mul dn (skew (v3_neg f))))).
Proof. intros -> H. destruct e, f. apply mixed_id. exact H. Qed.
Lemma first_v (e f n : v3) : n = v3_cross e f -> v3_dot n n <> 0 -> v3_dot e e <> 0 -> let dn := dann (v3_dot n n) (v3_scale (/ v3_dot n n) n) in
  let M := m3_add (m3_scale (v3_dot e f) (m3_mul dn (skew (v3_neg f)))) (outer (v3_scale (/ v3_dot n n) n) (v3_sub f (v3_scale (v3_dot e f / v3_dot e e) e))) in
  M = m3_add (m3_transpose M) (m3_scale (/ v3_dot e e) (skew e)).
Proof. intros -> H K. destruct e, f. apply first_id; assumption. Qed.
Lemma regroup (Q0 Q1 : m3) (a0 a1 e0 e1 e2 : v3) (L : R) : L <> 0 ->
  m3_add (m3_add (m3_add (m3_scale (v3_dot e0 e1 / L) Q0) (outer a0 (v3_scale (/ L) (v3_sub e1 (v3_scale (v3_dot e0 e1 / L) (v3_scale (/ L) e0)))))) (m3_scale (v3_dot e0 e2 / L) (m3_neg Q1))) (outer a1 (v3_scale (/ L) (v3_sub e2 (v3_scale (v3_dot e0 e2 / L) (v3_scale (/ L) e0)))))
  = m3_scale (/ L) (m3_add (m3_add (m3_scale (v3_dot e0 e1) Q0) (outer a0 (v3_sub e1 (v3_scale (v3_dot e0 e1 / (L * L)) e0)))) (m3_add (m3_scale (v3_dot (v3_neg e0) e2) Q1) (outer a1 (v3_sub e2 (v3_scale (v3_dot (v3_neg e0) e2 / (L * L)) (v3_neg e0)))))).
Proof.
  intros HL. assert (E : v3_dot (v3_neg e0) e2 = - v3_dot e0 e2) by (unfold v3_dot, v3_neg; cbn; ring). rewrite E. generalize (v3_dot e0 e1), (v3_dot e0 e2). intros c1 c2. clear E. destruct Q0 as [[] [] []], Q1 as [[] [] []], a0, a1, e0, e1, e2.
  unv. f_equal; f_equal; field; exact HL.
Qed.
(** * Derivatives of vector valued functions *)
Definition D3 (f : R -> v3) (d : v3) : Prop := is_derive (fun s : R => vx (f s)) 0 (vx d) /\ is_derive (fun s : R => vy (f s)) 0 (vy d) /\ is_derive (fun s : R => vz (f s)) 0 (vz d).
Lemma D1_plus (f g : R -> R) (a b : R) : is_derive f 0 a -> is_derive g 0 b -> is_derive (fun s : R => f s + g s) 0 (a + b).
Proof. intros H K. exact (is_derive_plus f g 0 a b H K). Qed.
Lemma D1_mult (f g : R -> R) (a b : R) : is_derive f 0 a -> is_derive g 0 b -> is_derive (fun s : R => f s * g s) 0 (a * g 0 + f 0 * b).
Proof.
  intros H K. assert (X : ex_derive (fun s : R => f s) 0) by (exists a; exact H). assert (Y : ex_derive (fun s : R => g s) 0) by (exists b; exact K). auto_derive; [repeat split; assumption|].
  rewrite (is_derive_unique (fun s : R => f s) 0 _ H), (is_derive_unique (fun s : R => g s) 0 _ K). ring.
Qed.
Lemma D1_inv (f : R -> R) (a : R) : is_derive f 0 a -> f 0 <> 0 -> is_derive (fun s : R => / f s) 0 (- a / (f 0 * f 0)).
Proof.
  intros H N. assert (X : ex_derive (fun s : R => f s) 0) by (exists a; exact H). auto_derive; [repeat split; assumption|]. rewrite (is_derive_unique (fun s : R => f s) 0 _ H). field. exact N.
Qed.
Lemma D1_sqrt (f : R -> R) (a : R) : is_derive f 0 a -> 0 < f 0 -> is_derive (fun s : R => sqrt (f s)) 0 (a / (2 * sqrt (f 0))).
Proof.
  intros H N. assert (X : ex_derive (fun s : R => f s) 0) by (exists a; exact H). auto_derive; [repeat split; assumption|]. rewrite (is_derive_unique (fun s : R => f s) 0 _ H). field. apply Rgt_not_eq, sqrt_lt_R0, N.
Qed.
Lemma D3_line a b : D3 (v3_line a b) b.
Proof. unfold D3, v3_line, v3_add, v3_scale. cbn. split; [|split]; auto_derive; try exact I; ring. Qed.
Lemma D3_val f a b : D3 f a -> a = b -> D3 f b. Proof. intros H <-. exact H. Qed.
Lemma D3_ext f g d : (forall s, f s = g s) -> D3 f d -> D3 g d.
Proof. intros E (A & B & C). split; [|split]; eapply is_derive_ext; try eassumption; intros s; simpl; rewrite E; reflexivity. Qed.
Lemma D3_add f g a b : D3 f a -> D3 g b -> D3 (fun s => v3_add (f s) (g s)) (v3_add a b).
Proof. intros (A & B & C) (A' & B' & C'). split; [|split]; simpl; apply D1_plus; assumption. Qed.
Lemma D3_scale h f c a : is_derive h 0 c -> D3 f a -> D3 (fun s => v3_scale (h s) (f s)) (v3_add (v3_scale c (f 0)) (v3_scale (h 0) a)).
Proof. intros H (A & B & C). split; [|split]; simpl; apply (D1_mult h); assumption. Qed.
Lemma D1_dot f g a b : D3 f a -> D3 g b -> is_derive (fun s => v3_dot (f s) (g s)) 0 (v3_dot a (g 0) + v3_dot (f 0) b).
Proof.
  intros (A & B & C) (A' & B' & C'). unfold v3_dot. eapply derive_val0; [apply D1_plus; [apply D1_plus|]; apply D1_mult; eassumption|]. simpl. ring.
Qed.
Lemma D1_opp (f : R -> R) a : is_derive f 0 a -> is_derive (fun s : R => - f s) 0 (- a). Proof. intros H. exact (is_derive_opp f 0 a H). Qed.
Lemma D3_cross f g a b : D3 f a -> D3 g b -> D3 (fun s => v3_cross (f s) (g s)) (v3_add (v3_cross a (g 0)) (v3_cross (f 0) b)).
Proof.
  assert (DS : forall (u v : R -> R) a b, is_derive u 0 a -> is_derive v 0 b -> is_derive (fun s : R => u s - v s) 0 (a - b)) by (intros u v a0 b0 H K; exact (is_derive_minus u v 0 a0 b0 H K)).
  intros (A & B & C) (A' & B' & C'). unfold v3_cross, v3_add. split; [|split]; simpl; (eapply derive_val0; [apply DS; apply D1_mult; eassumption|]; simpl; ring).
Qed.
Lemma m3_mulv_add A u v : m3_mulv A (v3_add u v) = v3_add (m3_mulv A u) (m3_mulv A v).
Proof. unfold m3_mulv, v3_add, v3_dot. cbn. f_equal; ring. Qed.
(** The normal divided by its squared length. *)
Definition per_area (n : v3) : v3 := v3_scale (/ v3_dot n n) n.
Lemma per_area_derive n dn : D3 n dn -> v3_dot (n 0) (n 0) <> 0 -> D3 (fun s => per_area (n s)) (m3_mulv (dann (v3_dot (n 0) (n 0)) (per_area (n 0))) dn).
Proof.
  intros H N. unfold per_area. eapply D3_val; [apply (D3_scale (fun s => / v3_dot (n s) (n s))); [apply (D1_inv (fun s => v3_dot (n s) (n s))); [apply (D1_dot n n _ _ H H)|exact N]|exact H]|].
  destruct (n 0) as [a b c], dn as [p q r]. unfold v3_dot in N. cbn in N. unfold dann, m3_mulv, m3_sub, m3_scale, m3_I, outer, v3_add, v3_sub, v3_scale, v3_dot. cbn. f_equal; field; exact N.
Qed.
Lemma skew_mulv a v : m3_mulv (skew a) v = v3_cross a v.
Proof. unfold m3_mulv, skew, v3_cross, v3_dot. cbn. f_equal; ring. Qed.
Lemma m3_mul_mulv A B v : m3_mulv (m3_mul A B) v = m3_mulv A (m3_mulv B v).
Proof. destruct A as [[] [] []], B as [[] [] []], v as []. unfold m3_mulv, m3_mul, m3_transpose, m3_mulv, v3_dot. cbn. f_equal; ring. Qed.
Lemma m3_add_mulv A B v : m3_mulv (m3_add A B) v = v3_add (m3_mulv A v) (m3_mulv B v).
Proof. unfold m3_mulv, m3_add, v3_add, v3_dot. cbn. f_equal; ring. Qed.
Lemma m3_scale_mulv s A v : m3_mulv (m3_scale s A) v = v3_scale s (m3_mulv A v).
Proof. unfold m3_mulv, m3_scale, v3_scale, v3_dot. cbn. f_equal; ring. Qed.
Lemma outer_mulv a b v : m3_mulv (outer a b) v = v3_scale (v3_dot b v) a.
Proof. unfold m3_mulv, outer, v3_scale, v3_dot. cbn. f_equal; ring. Qed.
Lemma m3_neg_mulv A v : m3_mulv (m3_neg A) v = v3_neg (m3_mulv A v).
Proof. unfold m3_mulv, m3_neg, v3_neg, v3_dot. cbn. f_equal; ring. Qed.
(** * The blocks *)
Definition stored (d : angle_blocks) : list (list R) * list m3 := (map (fun i => lower_triangular_vec (angle_hessian_block d i i)) [0; 1; 2; 3]%nat, map (fun p => angle_hessian_block d (fst p) (snd p)) [(1, 0); (2, 0); (2, 1); (3, 0); (3, 1)]%nat).
Ltac uns := cbv [sum4 sum3 stored_entry stored lower_triangular_vec angle_hessian_block tet_get v3_get m3_get d_e0e0 d_e1e0 d_e2e0 d_e1e1 d_e2e2 map nth fst snd Nat.eqb Nat.ltb Nat.leb Nat.mul Nat.add Nat.div Nat.divmod Nat.sub m3_add m3_sub m3_neg m3_transpose m3_0 v3_add v3_sub v3_neg v3_0 r0 r1 r2 vx vy vz t0 t1 t2 t3].
Section Blocks.
Variables x d : tet.
Hypothesis N : nondegenerate x.
Let e0 := along x. Let e1 := side0 x. Let e2 := side1 x. Let g0 := along d. Let g1 := side0 d. Let g2 := side1 d.
Let n0 := normal0 x. Let n1 := normal1 x. Let L := v3_norm e0.
Let B := angle_derivatives n0 n1 e0 e1 e2.
Lemma len_pos : 0 < L. Proof. destruct (nondegenerate_pos x N) as (_ & _ & P). apply sqrt_lt_R0, P. Qed.
Lemma len_sq : L * L = v3_dot e0 e0. Proof. apply norm_sq. Qed.
Lemma line0 : tet_line x d 0 = x.
Proof. destruct x as [[] [] [] []], d as [[] [] [] []]; unfold tet_line, tet_add, tet_scale, v3_add, v3_scale; cbn; repeat f_equal; ring. Qed.
Lemma v3_line0 a b : v3_line a b 0 = a. Proof. destruct a, b. unfold v3_line, v3_add, v3_scale. cbn. f_equal; ring. Qed.
Definition n0s (s : R) := v3_cross (v3_line e0 g0 s) (v3_line e1 g1 s).
Definition n1s (s : R) := v3_cross (v3_line e2 g2 s) (v3_line e0 g0 s).
Definition Ls (s : R) := sqrt (v3_dot (v3_line e0 g0 s) (v3_line e0 g0 s)).
Definition cs (e g : v3) (s : R) := v3_dot (v3_line e g s) (v3_scale (/ Ls s) (v3_line e0 g0 s)).
Lemma n0s_0 : n0s 0 = n0. Proof. unfold n0s. rewrite !v3_line0. reflexivity. Qed.
Lemma n1s_0 : n1s 0 = n1. Proof. unfold n1s. rewrite !v3_line0. reflexivity. Qed.
Lemma Ls_0 : Ls 0 = L. Proof. unfold Ls. rewrite !v3_line0. reflexivity. Qed.
Lemma n0s_derive : D3 n0s (v3_add (v3_cross g0 e1) (v3_cross e0 g1)).
Proof. eapply D3_val; [apply D3_cross; apply D3_line|]. rewrite !v3_line0. reflexivity. Qed.
Lemma n1s_derive : D3 n1s (v3_add (v3_cross g2 e0) (v3_cross e2 g0)).
Proof. eapply D3_val; [apply D3_cross; apply D3_line|]. rewrite !v3_line0. reflexivity. Qed.
Lemma Ls_derive : is_derive Ls 0 (v3_dot e0 g0 / L).
Proof.
  destruct (nondegenerate_pos x N) as (_ & _ & P). eapply derive_val0; [apply (D1_sqrt (fun s => v3_dot (v3_line e0 g0 s) (v3_line e0 g0 s))); [apply D1_dot; apply D3_line|rewrite !v3_line0; exact P]|].
  rewrite !v3_line0. change (sqrt (v3_dot e0 e0)) with L. pose proof len_pos. unfold v3_dot. field. lra.
Qed.
Lemma cs_derive e g : is_derive (cs e g) 0 (v3_dot g (v3_scale (/ L) e0) + v3_dot (v3_scale (/ L) (v3_sub e (v3_scale (v3_dot (v3_scale (/ L) e0) e) (v3_scale (/ L) e0)))) g0).
Proof.
  pose proof len_pos as HL. eapply derive_val0; [apply D1_dot; [apply D3_line|apply (D3_scale (fun s => / Ls s)); [apply D1_inv; [apply Ls_derive|rewrite Ls_0; lra]|apply D3_line]]|].
  rewrite !v3_line0, Ls_0. pose proof len_sq as SQ. unfold v3_dot, v3_scale, v3_add, v3_sub. cbn. field. lra.
Qed.
Lemma gradient_line s : angle_gradient (tet_line x d s) =
  let c1 := cs e1 g1 s in let c2 := cs e2 g2 s in let a0 := per_area (n0s s) in let a1 := per_area (n1s s) in
  Tet (v3_add (v3_scale (Ls s - c1) a0) (v3_scale (Ls s - c2) a1)) (v3_add (v3_scale c1 a0) (v3_scale c2 a1)) (v3_scale (- Ls s) a0) (v3_scale (- Ls s) a1).
Proof. unfold angle_gradient, cs, per_area, n0s, n1s, Ls, normal0, normal1, v3_norm. rewrite along_line, side0_line, side1_line. reflexivity. Qed.
Lemma n0_ne : v3_dot n0 n0 <> 0. Proof. destruct (nondegenerate_pos x N) as (P & _ & _). unfold n0. lra. Qed.
Lemma n1_ne : v3_dot n1 n1 <> 0. Proof. destruct (nondegenerate_pos x N) as (_ & P & _). unfold n1. lra. Qed.
Lemma a0_derive : D3 (fun s => per_area (n0s s)) (m3_mulv (dann (v3_dot n0 n0) (per_area n0)) (v3_add (v3_cross (v3_neg e1) g0) (v3_cross e0 g1))).
Proof.
  eapply D3_val; [apply per_area_derive; [apply n0s_derive|rewrite n0s_0; apply n0_ne]|]. rewrite n0s_0. f_equal. unfold v3_add, v3_cross, v3_neg. cbn. f_equal; ring.
Qed.
Lemma a1_derive : D3 (fun s => per_area (n1s s)) (m3_mulv (dann (v3_dot n1 n1) (per_area n1)) (v3_add (v3_cross e2 g0) (v3_cross (v3_neg e0) g2))).
Proof.
  eapply D3_val; [apply per_area_derive; [apply n1s_derive|rewrite n1s_0; apply n1_ne]|]. rewrite n1s_0. f_equal. unfold v3_add, v3_cross, v3_neg. cbn. f_equal; ring.
Qed.
Lemma cs_0 e g : cs e g 0 = v3_dot (v3_scale (/ L) e0) e.
Proof. unfold cs. rewrite !v3_line0, Ls_0. unfold v3_dot. cbn. ring. Qed.
(** Row of the first end point difference. *)
Lemma De0 : D3 (fun s => t1 (angle_gradient (tet_line x d s))) (v3_add (v3_add (m3_mulv (d_e0e0 B) g0) (m3_mulv (d_e1e0 B) g1)) (m3_mulv (d_e2e0 B) g2)).
Proof.
  eapply D3_ext; [intros s; rewrite gradient_line; reflexivity|]. cbv beta iota zeta. cbn [t1].
  eapply D3_val; [apply D3_add; apply D3_scale; [apply cs_derive|apply a0_derive|apply cs_derive|apply a1_derive]|].
  rewrite !cs_0, n0s_0, n1s_0. unfold B, angle_derivatives. cbn [d_e0e0 d_e1e0 d_e2e0]. change (sqrt (v3_dot e0 e0)) with L. change (v3_scale (/ v3_dot n0 n0) n0) with (per_area n0). change (v3_scale (/ v3_dot n1 n1) n1) with (per_area n1).
  rewrite !m3_add_mulv, !m3_scale_mulv, !m3_mul_mulv, !skew_mulv, !outer_mulv, !m3_mulv_add. set (M0 := dann (v3_dot n0 n0) (per_area n0)). set (M1 := dann (v3_dot n1 n1) (per_area n1)).
  set (u := v3_scale (/ L) e0). generalize (m3_mulv M0 (v3_cross (v3_neg e1) g0)), (m3_mulv M0 (v3_cross e0 g1)), (m3_mulv M1 (v3_cross e2 g0)), (m3_mulv M1 (v3_cross (v3_neg e0) g2)). intros w0 w1 w2 w3.
  set (z1 := v3_dot (v3_scale (/ L) (v3_sub e1 (v3_scale (v3_dot u e1) u))) g0). set (z2 := v3_dot (v3_scale (/ L) (v3_sub e2 (v3_scale (v3_dot u e2) u))) g0). replace (v3_dot g1 u) with (v3_dot u g1) by (unfold v3_dot; ring). replace (v3_dot g2 u) with (v3_dot u g2) by (unfold v3_dot; ring).
  unfold v3_add, v3_scale. cbn. f_equal; ring.
Qed.
Lemma n1_alt : n1 = v3_cross (v3_neg e0) e2.
Proof. unfold n1, normal1. fold e0 e2. unfold v3_cross, v3_neg. cbn. f_equal; ring. Qed.
Lemma sym_11 : m3_transpose (d_e1e1 B) = d_e1e1 B /\ m3_transpose (d_e2e2 B) = d_e2e2 B.
Proof.
  assert (G : forall s M, m3_transpose M = M -> m3_transpose (m3_scale s M) = m3_scale s M). { intros s M H. rewrite <- H at 2. destruct M as [[] [] []]. reflexivity. }
  unfold B, angle_derivatives. cbn [d_e1e1 d_e2e2]. split; apply G.
  - apply (sym_v e0 e1 n0 eq_refl n0_ne).
  - apply (sym_v (v3_neg e0) e2 n1 n1_alt n1_ne).
Qed.
(** The mixed blocks, divided by the length of the edge. *)
Lemma mixed_scaled e f n g : n = v3_cross e f -> v3_dot n n <> 0 -> v3_dot e e = L * L -> let dn := dann (v3_dot n n) (v3_scale (/ v3_dot n n) n) in
  m3_mulv (m3_transpose (m3_add (m3_scale (v3_dot (v3_scale (/ L) e) f) (m3_mul dn (skew e))) (outer (v3_scale (/ v3_dot n n) n) (v3_scale (/ L) e)))) g =
  v3_neg (v3_add (v3_scale (v3_dot (v3_scale (/ L) e) g) (v3_scale (/ v3_dot n n) n)) (v3_scale L (m3_mulv dn (v3_cross (v3_neg f) g)))).
Proof.
  intros En HA SQ dn. pose proof len_pos as HL. pose proof (mixed_v e f n En HA) as M. cbv zeta in M. fold dn in M. rewrite SQ in M. set (a := v3_scale (/ v3_dot n n) n) in *. rewrite <- skew_mulv, <- m3_mul_mulv.
  set (Q := m3_mul dn (skew e)) in *. set (Q' := m3_mul dn (skew (v3_neg f))) in *. set (c := v3_dot e f) in *. replace (v3_dot (v3_scale (/ L) e) f) with (c / L) by (unfold c, v3_dot, v3_scale; cbn; field; lra).
  clearbody Q Q' c a. apply (f_equal (fun A => v3_scale (/ L) (m3_mulv A g))) in M. transitivity (v3_scale (/ L) (m3_mulv (m3_add (m3_scale c (m3_transpose Q)) (outer e a)) g)).
  - destruct Q as [[] [] []], e, a, g. unfold m3_mulv, m3_add, m3_scale, m3_transpose, outer, v3_add, v3_scale, v3_dot. cbn. f_equal; field; lra.
  - rewrite M. destruct Q' as [[] [] []], e, a, g. unfold m3_mulv, m3_add, m3_scale, m3_neg, outer, v3_add, v3_scale, v3_neg, v3_dot. cbn. f_equal; field; lra.
Qed.
Lemma neg_dot : v3_dot (v3_neg e0) (v3_neg e0) = L * L. Proof. rewrite len_sq. unfold v3_dot, v3_neg. cbn. ring. Qed.
Lemma De1 : D3 (fun s => t2 (angle_gradient (tet_line x d s))) (v3_add (m3_mulv (m3_transpose (d_e1e0 B)) g0) (m3_mulv (d_e1e1 B) g1)).
Proof.
  eapply D3_ext; [intros s; rewrite gradient_line; reflexivity|]. cbv beta iota zeta. cbn [t2].
  eapply D3_val; [apply (D3_scale (fun s => - Ls s)); [apply D1_opp, Ls_derive|apply a0_derive]|]. rewrite Ls_0, n0s_0.
  unfold B, angle_derivatives. cbn [d_e1e0 d_e1e1]. change (sqrt (v3_dot e0 e0)) with L. rewrite (mixed_scaled e0 e1 n0 g0 eq_refl n0_ne (eq_sym len_sq)). change (v3_scale (/ v3_dot n0 n0) n0) with (per_area n0).
  rewrite m3_scale_mulv, m3_mul_mulv, skew_mulv, m3_mulv_add. pose proof len_pos. replace (v3_dot (v3_scale (/ L) e0) g0) with (v3_dot e0 g0 / L) by (unfold v3_dot, v3_scale; cbn; field; lra).
  generalize (m3_mulv (dann (v3_dot n0 n0) (per_area n0)) (v3_cross (v3_neg e1) g0)), (m3_mulv (dann (v3_dot n0 n0) (per_area n0)) (v3_cross e0 g1)). intros w0 w1. unfold v3_add, v3_scale, v3_neg. cbn. f_equal; ring.
Qed.
Lemma De2 : D3 (fun s => t3 (angle_gradient (tet_line x d s))) (v3_add (m3_mulv (m3_transpose (d_e2e0 B)) g0) (m3_mulv (d_e2e2 B) g2)).
Proof.
  eapply D3_ext; [intros s; rewrite gradient_line; reflexivity|]. cbv beta iota zeta. cbn [t3].
  eapply D3_val; [apply (D3_scale (fun s => - Ls s)); [apply D1_opp, Ls_derive|apply a1_derive]|]. rewrite Ls_0, n1s_0. pose proof len_pos.
  assert (X : m3_mulv (m3_transpose (d_e2e0 B)) g0 = v3_neg (v3_add (v3_scale (v3_dot e0 g0 / L) (per_area n1)) (v3_scale L (m3_mulv (dann (v3_dot n1 n1) (per_area n1)) (v3_cross e2 g0))))).
  { pose proof (mixed_scaled (v3_neg e0) e2 n1 g0 n1_alt n1_ne neg_dot) as M. cbv zeta in M. change (v3_scale (/ v3_dot n1 n1) n1) with (per_area n1) in M. unfold B, angle_derivatives. cbn [d_e2e0]. change (sqrt (v3_dot e0 e0)) with L. change (v3_scale (/ v3_dot n1 n1) n1) with (per_area n1).
    set (Q := m3_mul (dann (v3_dot n1 n1) (per_area n1)) (skew (v3_neg e0))) in *. set (a := per_area n1) in *. apply (f_equal v3_neg) in M. transitivity (v3_neg (m3_mulv (m3_transpose (m3_add (m3_scale (v3_dot (v3_scale (/ L) (v3_neg e0)) e2) Q) (outer a (v3_scale (/ L) (v3_neg e0))))) g0)).
    - clearbody Q a. destruct Q as [[] [] []], a. generalize e0, e2, g0. intros [] [] []. unfold m3_mulv, m3_transpose, m3_add, m3_scale, outer, v3_add, v3_scale, v3_neg, v3_dot. cbn. f_equal; ring.
    - rewrite M. clear M. replace (v3_cross (v3_neg e2) g0) with (v3_neg (v3_cross e2 g0)) by (unfold v3_cross, v3_neg; cbn; f_equal; ring). generalize (dann (v3_dot n1 n1) a), (v3_cross e2 g0). intros [[] [] []] []. clearbody a. destruct a. generalize e0, g0. intros [] []. unfold m3_mulv, v3_add, v3_scale, v3_neg, v3_dot. cbn. f_equal; field; lra. }
  rewrite X. unfold B, angle_derivatives. cbn [d_e2e2]. change (sqrt (v3_dot e0 e0)) with L. change (v3_scale (/ v3_dot n1 n1) n1) with (per_area n1).
  rewrite m3_scale_mulv, m3_mul_mulv, skew_mulv, m3_mulv_add. generalize (m3_mulv (dann (v3_dot n1 n1) (per_area n1)) (v3_cross e2 g0)), (m3_mulv (dann (v3_dot n1 n1) (per_area n1)) (v3_cross (v3_neg e0) g2)). intros w0 w1. unfold v3_add, v3_scale, v3_neg. cbn. f_equal; ring.
Qed.
Lemma sym_00 : m3_transpose (d_e0e0 B) = d_e0e0 B.
Proof.
  pose proof len_pos as HL. pose proof len_sq as SQ. assert (Hq : v3_dot e0 e0 <> 0) by (rewrite <- SQ; apply Rgt_not_eq, Rmult_lt_0_compat; lra). assert (Hq' : v3_dot (v3_neg e0) (v3_neg e0) <> 0) by (rewrite neg_dot, SQ; exact Hq).
  pose proof (first_v e0 e1 n0 eq_refl n0_ne Hq) as F0. pose proof (first_v (v3_neg e0) e2 n1 n1_alt n1_ne Hq') as F1. cbv zeta in F0, F1. rewrite neg_dot in F1. rewrite <- SQ in F0.
  unfold B, angle_derivatives. cbn [d_e0e0]. change (sqrt (v3_dot e0 e0)) with L.
  set (a0 := v3_scale (/ v3_dot n0 n0) n0) in *. set (a1 := v3_scale (/ v3_dot n1 n1) n1) in *. set (Q0 := m3_mul (dann (v3_dot n0 n0) a0) (skew (v3_neg e1))) in *. set (M1 := dann (v3_dot n1 n1) a1) in *.
  assert (E2 : m3_mul M1 (skew e2) = m3_neg (m3_mul M1 (skew (v3_neg e2)))) by (generalize e2; intros []; destruct M1 as [[] [] []]; unfold m3_mul, m3_transpose, m3_mulv, m3_neg, skew, v3_neg, v3_dot; cbn; f_equal; f_equal; ring). rewrite E2.
  set (Q1 := m3_mul M1 (skew (v3_neg e2))) in *. clearbody Q0 Q1 a0 a1. clear E2 M1. assert (G : forall u v : v3, v3_dot (v3_scale (/ L) u) v = v3_dot u v / L) by (intros; unfold v3_dot, v3_scale; cbn; field; lra). rewrite !G. clear G Hq Hq' SQ.
  assert (HB : forall A C : m3, A = m3_add (m3_transpose A) (m3_scale (/ (L * L)) (skew e0)) -> C = m3_add (m3_transpose C) (m3_scale (/ (L * L)) (skew (v3_neg e0))) -> m3_transpose (m3_add A C) = m3_add A C).
  { intros A C HA HC. rewrite HA at 2. rewrite HC at 2. destruct A as [[] [] []], C as [[] [] []]. generalize e0. intros []. unfold m3_transpose, m3_add, m3_scale, skew, v3_neg, v3_add, v3_scale. cbn. f_equal; f_equal; ring. }
  specialize (HB _ _ F0 F1). apply (f_equal (m3_scale (/ L))) in HB. match type of HB with m3_scale _ (m3_transpose ?Z) = _ => assert (HT : m3_transpose (m3_scale (/ L) Z) = m3_scale (/ L) Z) by (transitivity (m3_scale (/ L) (m3_transpose Z)); [destruct Z as [[] [] []]; reflexivity|exact HB]) end.
  clear HB F0 F1. match type of HT with m3_transpose ?Z = _ => match goal with |- m3_transpose ?Y = _ => assert (E : Y = Z); [|rewrite E; exact HT] end end. clear HT.
  apply regroup. lra.
Qed.
(** All rows. *)
Lemma D3_get f a r : D3 f a -> is_derive (fun s => v3_get (f s) r) 0 (v3_get a r).
Proof. intros (X & Y & Z). destruct r as [|[|r]]; [exact X|exact Y|exact Z]. Qed.
Lemma D3_neg f a : D3 f a -> D3 (fun s => v3_neg (f s)) (v3_neg a).
Proof. intros (X & Y & Z). split; [|split]; cbn; apply D1_opp; assumption. Qed.
Lemma gradient_balance y : nondegenerate y -> t0 (angle_gradient y) = v3_neg (v3_add (v3_add (t1 (angle_gradient y)) (t2 (angle_gradient y))) (t3 (angle_gradient y))).
Proof. intros _. unfold angle_gradient. cbv zeta. cbn [t0 t1 t2 t3]. unfold v3_add, v3_neg, v3_scale. cbn [vx vy vz]. f_equal; ring. Qed.
Lemma angle_rows i r : (i < 4)%nat -> (r < 3)%nat -> is_derive (fun s => tet_get (angle_gradient (tet_line x d s)) i r) 0 (sum4 (fun j => sum3 (fun c => stored_entry (stored B) i j r c * tet_get d j c))).
Proof.
  intros Hi Hr.
  destruct sym_11 as [S1 S2]. pose proof sym_00 as S0.
  assert (G : ((i = 0)%nat /\ D3 (fun s => t0 (angle_gradient (tet_line x d s))) (v3_neg (v3_add (v3_add (v3_add (v3_add (m3_mulv (d_e0e0 B) g0) (m3_mulv (d_e1e0 B) g1)) (m3_mulv (d_e2e0 B) g2)) (v3_add (m3_mulv (m3_transpose (d_e1e0 B)) g0) (m3_mulv (d_e1e1 B) g1))) (v3_add (m3_mulv (m3_transpose (d_e2e0 B)) g0) (m3_mulv (d_e2e2 B) g2))))) \/ (i = 1 \/ i = 2 \/ i = 3)%nat).
  { destruct i as [|[|[|[|]]]]; try lia. left. split; [reflexivity|]. eapply (D3_ext (fun s => v3_neg (v3_add (v3_add (t1 (angle_gradient (tet_line x d s))) (t2 (angle_gradient (tet_line x d s)))) (t3 (angle_gradient (tet_line x d s)))))).
    - intros s. unfold angle_gradient. cbv zeta. cbn [t0 t1 t2 t3]. unfold v3_add, v3_neg, v3_scale. cbn [vx vy vz]. f_equal; ring.
    - apply D3_neg. apply (D3_add (fun s => v3_add (t1 (angle_gradient (tet_line x d s))) (t2 (angle_gradient (tet_line x d s))))); [apply D3_add|]; [exact De0|exact De1|exact De2]. }
  pose proof De0 as E0. pose proof De1 as E1. pose proof De2 as E2. unfold g0, g1, g2 in *. clearbody B. destruct B as [B00 B10 B20 B11 B22]. cbn [d_e0e0 d_e1e0 d_e2e0 d_e1e1 d_e2e2] in *.
  assert (SY : forall A : m3, m3_transpose A = A -> exists a b c e f g : R, A = M3 (V3 a b c) (V3 b e f) (V3 c f g)).
  { intros [[a b c] [b' e f] [c' f' g]] H. unfold m3_transpose in H. cbn in H. exists a, b, c, e, f, g. congruence. }
  destruct (SY _ S0) as (p1 & p2 & p3 & p4 & p5 & p6 & ->). destruct (SY _ S1) as (q1 & q2 & q3 & q4 & q5 & q6 & ->). destruct (SY _ S2) as (u1 & u2 & u3 & u4 & u5 & u6 & ->). clear SY S0 S1 S2.
  destruct G as [[-> G]|[->|[->| ->]]]; [apply (D3_get _ _ r) in G|apply (D3_get _ _ r) in E0; rename E0 into G|apply (D3_get _ _ r) in E1; rename E1 into G|apply (D3_get _ _ r) in E2; rename E2 into G];
    (eapply derive_val0; [exact G|]); clear G; try clear E0; try clear E1; try clear E2; destruct B10 as [[] [] []], B20 as [[] [] []], d as [[] [] [] []]; unfold along, side0, side1; unv;
    (destruct r as [|[|[|r]]]; [| | |lia]); uns; ring.
Qed.
End Blocks.
Lemma hessian_corners e pos faces : valid_edge e faces -> nondegenerate (corners e pos faces) -> let x := corners e pos faces in
  edge_angle_hessian e pos faces = stored (angle_derivatives (normal0 x) (normal1 x) (along x) (side0 x) (side1 x)).
Proof.
  intros V N x. destruct (nondegenerate_pos x N) as (P0 & P1 & _). destruct (valid_normals e pos faces V) as (E0 & E1 & E2 & E3 & E4). fold x in E0, E1, E2, E3, E4. unfold edge_angle_hessian. rewrite E0, E1, E2, E3, E4. cbv zeta.
  destruct (Req_EM_T (v3_dot (normal0 x) (normal0 x)) 0); [lra|]. destruct (Req_EM_T (v3_dot (normal1 x) (normal1 x)) 0); [lra|]. reflexivity.
Qed.
Lemma angle_hessian_derive e pos d faces i r : valid_edge e faces -> nondegenerate (corners e pos faces) -> (i < 4)%nat -> (r < 3)%nat ->
  is_derive (fun s => tet_get (edge_angle_gradient e (move pos d s) faces) i r) 0 (sum4 (fun j => sum3 (fun c => stored_entry (edge_angle_hessian e pos faces) i j r c * tet_get (corners e d faces) j c))).
Proof.
  intros V N Hi Hr. rewrite (hessian_corners e pos faces V N). eapply is_derive_ext_loc; [|apply angle_rows; assumption].
  generalize (locally_and_corners (corners e pos faces) (corners e d faces) N). apply filter_imp. intros s Hs. rewrite (gradient_corners e (move pos d s) faces V), corners_move; [reflexivity|]. rewrite corners_move. exact Hs.
Qed.
