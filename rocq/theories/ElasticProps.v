(** C41-C46, C48, C52, C79-C82: hyperelastic tetrahedra and meshes of them. *)
From Coq Require Import Reals List Arith Bool Lra Lia Psatz.
From Coquelicot Require Import Coquelicot.
From Verif Require Import Calc Vec3 Mat3 RList ElasticModel ElasticSpec ElasticProofs ElasticMeshProofs ElasticHessProofs.
Import ListNotations.
Local Open Scope R_scope.

(** Example data: the unit corner, stretched to twice its length along x; the rest shape matrix is the identity. *)
Definition corner : tet := Tet (V3 1 0 0) (V3 0 1 0) (V3 0 0 1) v3_0.
Definition stretched : tet := Tet (V3 2 0 0) (V3 0 1 0) (V3 0 0 1) v3_0.
Definition mirrored : tet := Tet (V3 (-2) 0 0) (V3 0 1 0) (V3 0 0 1) v3_0.
Definition positions (t : tet) (i : nat) : v3 := match i with O => t0 t | 1%nat => t1 t | 2%nat => t2 t | 3%nat => t3 t | _ => V3 1 1 1 end.
Ltac small := cbv [corner stretched mirrored positions gather c0 c1 c2 c3 s_DX_inv s_vol s_lambda s_mu s_damping tet_sub tet_scale tet_line]; unm.

(** C41. On non-inverted shapes the gradient is finite and is the derivative of the energy; on inverted ones both are infinite. *)
Theorem nh_gradient_is_derivative (B : m3) (v lam m : R) (x d : tet) : 0 < m3_det (m3_mul B (shape_matrix x)) ->
  exists g, nh_gradient (at_shape B v lam m x) = Some g /\ locally 0 (fun s => exists a, nh_energy (at_shape B v lam m (tet_line x d s)) = Fin a) /\
    is_derive (fun s => fin (nh_energy (at_shape B v lam m (tet_line x d s)))) 0 (tet_dot g d).
Proof.
  intros H. pose proof (nh_gradient_some (at_shape B v lam m x) H) as Hg. eexists. split; [exact Hg|]. exact (nh_gradient_derive B v lam m x d _ Hg).
Qed.
Print Assumptions nh_gradient_is_derivative.
Theorem nh_inverted_infinite (B : m3) (v lam m : R) (x : tet) : m3_det (m3_mul B (shape_matrix x)) <= 0 ->
  nh_energy (at_shape B v lam m x) = Inf /\ nh_gradient (at_shape B v lam m x) = None.
Proof.
  intros H. unfold nh_energy, nh_gradient. cbv zeta. change (deformation_gradient (at_shape B v lam m x)) with (m3_mul B (shape_matrix x)).
  destruct (Rle_dec (m3_det (m3_mul B (shape_matrix x))) 0); [split; reflexivity|contradiction].
Qed.
Print Assumptions nh_inverted_infinite.
Example nh_gradient_nonvacuous : 0 < m3_det (m3_mul m3_I (shape_matrix stretched)) /\ m3_det (m3_mul m3_I (shape_matrix mirrored)) <= 0.
Proof. small. lra. Qed.

(** C42. Every component of the gradient has the Hessian product as derivative along [d], and the blocks (lower triangle) represent the same map. *)
Theorem nh_hessian_is_derivative (B : m3) (v lam m : R) (x d : tet) (n row : nat) : 0 < m3_det (m3_mul B (shape_matrix x)) -> (n < 4)%nat -> (row < 3)%nat ->
  locally 0 (fun s => exists g, nh_gradient (at_shape B v lam m (tet_line x d s)) = Some g) /\
  is_derive (fun s => tet_get (tet_or_zero (nh_gradient (at_shape B v lam m (tet_line x d s)))) n row) 0 (tet_get (close_rows (nh_product (at_shape B v lam m x) d)) n row) /\
  sym_apply (nh_hessian (at_shape B v lam m x)) d n row = tet_get (close_rows (nh_product (at_shape B v lam m x) d)) n row.
Proof.
  intros H Hn Hr. pose proof (nh_gradient_some (at_shape B v lam m x) H) as Hg. destruct (nh_smooth B v lam m x d d _ Hg) as [L _]. split; [exact L|].
  split; [exact (component_derive neo_hookean B v lam m x d n row _ nh_smooth nh_block Hg Hn Hr)|exact (nh_block B v lam m x d n row Hn Hr)].
Qed.
Print Assumptions nh_hessian_is_derivative.
Example nh_hessian_nonvacuous : 0 < m3_det (m3_mul m3_I (shape_matrix stretched)) /\ nh_hessian (at_shape m3_I 1 0 1 stretched) 0 0 0 0 = 5 / 4.
Proof.
  split; [small; lra|]. unfold nh_hessian. destruct (Rle_dec (m3_det (deformation_gradient (at_shape m3_I 1 0 1 stretched))) 0) as [H|_].
  { revert H. cbv [deformation_gradient at_shape DX_inv Dx]. small. lra. }
  destruct (Req_EM_T (m3_det (Dx (at_shape m3_I 1 0 1 stretched))) 0) as [H|_]. { revert H. cbv [at_shape Dx]. small. lra. }
  cbv [Nat.ltb Nat.leb Nat.eqb andb orb nh_hess_term at_shape DX_inv Dx vol mu lambda m3_get m3_inv m3_inv_transpose]. small. field.
Qed.

(** C43. The stable model has a finite gradient everywhere, also on inverted shapes, and it is the derivative of the energy. *)
Theorem snh_gradient_is_derivative (B : m3) (v lam m : R) (x d : tet) : lam <> 0 ->
  exists g, snh_gradient (at_shape B v lam m x) = Some g /\ (forall s, exists a, snh_energy (at_shape B v lam m (tet_line x d s)) = Fin a) /\
    is_derive (fun s => fin (snh_energy (at_shape B v lam m (tet_line x d s)))) 0 (tet_dot g d).
Proof. intros _. eexists. split; [reflexivity|]. split; [intros s; eexists; reflexivity|]. exact (snh_gradient_derive B v lam m x d _ eq_refl). Qed.
Print Assumptions snh_gradient_is_derivative.
Example snh_gradient_nonvacuous : (1 <> 0) /\ m3_det (m3_mul m3_I (shape_matrix mirrored)) = - 2 /\
  snh_gradient (at_shape m3_I 1 1 1 mirrored) <> Some (Tet v3_0 v3_0 v3_0 v3_0).
Proof.
  split; [lra|]. split; [small; ring|]. intros H. apply (f_equal (fun o => vx (t0 (tet_or_zero o)))) in H. revert H.
  cbv [tet_or_zero snh_gradient snh_stress deformation_gradient at_shape DX_inv Dx vol mu lambda]. small. lra.
Qed.

(** C44. The same for the Hessian of the stable model, on all shapes. *)
Theorem snh_hessian_is_derivative (B : m3) (v lam m : R) (x d : tet) (n row : nat) : lam <> 0 -> (n < 4)%nat -> (row < 3)%nat ->
  is_derive (fun s => tet_get (tet_or_zero (snh_gradient (at_shape B v lam m (tet_line x d s)))) n row) 0 (tet_get (close_rows (snh_product (at_shape B v lam m x) d)) n row) /\
  sym_apply (snh_hessian (at_shape B v lam m x)) d n row = tet_get (close_rows (snh_product (at_shape B v lam m x) d)) n row.
Proof.
  intros _ Hn Hr. split; [exact (component_derive stable_neo_hookean B v lam m x d n row _ snh_smooth snh_block eq_refl Hn Hr)|exact (snh_block B v lam m x d n row Hn Hr)].
Qed.
Print Assumptions snh_hessian_is_derivative.
Example snh_hessian_nonvacuous : snh_hessian (at_shape m3_I 1 1 1 mirrored) 0 0 0 0 = 6 / 7 + 8 / 49 + 1.
Proof. cbv [snh_hessian snh_hess_term dfdF h_block skew Nat.ltb Nat.leb Nat.eqb andb sum3 at_shape deformation_gradient DX_inv Dx vol mu lambda m3_get row3]. small. field. Qed.

(** C45. Without damping, the forces of every mesh sum to zero and have no net torque, for both models; with damping they still sum to zero. *)
Definition mesh_is_free_of_inversion (M : tet_model) (ss : list solid_tet) (x : nat -> v3) : Prop := forall s, In s ss -> exists g, m_gradient M (elem_of s (gather s x)) = Some g.
Lemma damped_exists M s dqdv x v g : m_gradient M (elem_of s (gather s x)) = Some g -> exists h, tet_gradient_with_damping M s dqdv x v = Some h.
Proof. intros H. unfold tet_gradient_with_damping. cbv zeta. rewrite H. eexists. reflexivity. Qed.
Theorem mesh_momentum (M : tet_model) (ss : list solid_tet) (dqdv : R) (x v : nat -> v3) (n : nat) : M = neo_hookean \/ M = stable_neo_hookean ->
  (forall s, In s ss -> in_range n s) -> mesh_is_free_of_inversion M ss x ->
  exists g, add_mesh_gradient M ss dqdv x v (repeat v3_0 n) = Some g /\ length g = n /\ v3_total g = v3_0 /\
    ((forall s, In s ss -> s_damping s = 0) -> torque x g = v3_0).
Proof.
  intros HM Hr Hi. assert (HB : balanced_model M) by (destruct HM as [->| ->]; [exact nh_balanced|exact snh_balanced]).
  destruct (mesh_gradient_exists M ss dqdv x v) with (l := repeat v3_0 n) as (g & Hg & Lg).
  - intros s Hs. destruct (Hi s Hs) as [h Hh]. exact (damped_exists M s dqdv x v h Hh).
  - rewrite repeat_length. exact Hr.
  - rewrite repeat_length in Lg. exists g. split; [exact Hg|]. split; [exact Lg|]. split; [exact (mesh_total M ss dqdv x v n g HB Hg)|].
    intros Hd. exact (mesh_torque M ss dqdv x v n g HB Hd Hg).
Qed.
Print Assumptions mesh_momentum.
Definition two_tets (damping : R) : list solid_tet := [SolidTet 0 1 2 3 m3_I 1 1 1 damping; SolidTet 0 2 1 4 m3_I 1 1 1 damping].
Example mesh_momentum_nonvacuous : (forall s, In s (two_tets 0) -> in_range 5 s /\ s_damping s = 0 /\ distinct_vertices s) /\ mesh_is_free_of_inversion neo_hookean (two_tets 0) (positions stretched) /\
  m3_det (shape_matrix (gather (SolidTet 0 2 1 4 m3_I 1 1 1 0) (positions stretched))) <> 1.
Proof.
  split; [|split].
  - intros s [<-|[<-|[]]]; (split; [repeat split; cbn; lia|]); (split; [reflexivity|]); unfold distinct_vertices; cbn; repeat (constructor; [cbn; lia|]); constructor.
  - intros s [<-|[<-|[]]]; eexists; apply nh_gradient_some; cbv [deformation_gradient elem_of DX_inv Dx]; small; lra.
  - small. lra.
Qed.
(** Finding: with damping the net torque does not vanish. *)
Theorem damping_torque_refuted : exists (s : solid_tet) (x v : nat -> v3) (g : list v3), in_range 4 s /\ 0 < s_damping s /\ 0 < s_mu s /\ 0 < s_lambda s /\
  m3_mul (s_DX_inv s) (shape_matrix (tet_sub (gather s x) (tet_scale 1 (gather s v)))) = m3_I /\
  add_mesh_gradient neo_hookean [s] 1 x v (repeat v3_0 4) = Some g /\ torque x g <> v3_0.
Proof.
  set (s := SolidTet 0 1 2 3 m3_I 1 1 1 1). set (xt := Tet (V3 2 1 0) (V3 0 1 0) (V3 0 0 1) v3_0). set (vt := Tet (V3 1 1 0) v3_0 v3_0 v3_0).
  set (x := positions xt). set (v := positions vt).
  assert (Hrest : shape_matrix (tet_sub (gather s x) (tet_scale 1 (gather s v))) = m3_I) by (cbv [s x v xt vt]; small; apply m3_ext; ring).
  assert (HJ : 0 < m3_det (deformation_gradient (elem_of s (gather s x)))) by (cbv [s x xt deformation_gradient elem_of DX_inv Dx]; small; lra).
  pose proof (nh_gradient_some _ HJ) as Hh. set (h := close_rows _) in Hh.
  assert (HD : nh_product (elem_of s (tet_sub (gather s x) (tet_scale 1 (gather s v)))) (gather s v) = M3 (V3 3 1 0) (V3 1 1 0) (V3 0 0 1)).
  { rewrite nh_product_pos; unfold elem_of, deformation_gradient; cbn [Dx DX_inv vol lambda mu]; rewrite Hrest; change (s_DX_inv s) with m3_I; rewrite !mul_I_l; [|rewrite det_I; lra].
    rewrite nh_hooke. unfold deformation_gradient_differential, hooke. cbv [s v vt DX_inv]. small. apply m3_ext; field. }
  set (dH := M3 (V3 3 1 0) (V3 1 1 0) (V3 0 0 1)) in HD.
  set (g := tet_add h (close_rows dH)).
  assert (Hg : tet_gradient_with_damping neo_hookean s 1 x v = Some g).
  { unfold tet_gradient_with_damping. cbv zeta. change (m_product neo_hookean) with nh_product. rewrite HD. change (m_gradient neo_hookean) with nh_gradient. rewrite Hh. f_equal. unfold g. f_equal.
    change (s_damping s) with 1. cbv [dH]. small. f_equal; f_equal; ring. }
  assert (Ht : tet_torque (gather s x) h = v3_0) by (apply (nh_torque (s_DX_inv s) (s_vol s) (s_lambda s) (s_mu s) (gather s x)); exact Hh).
  exists s, x, v, [v3_add v3_0 (t0 g); v3_add v3_0 (t1 g); v3_add v3_0 (t2 g); v3_add v3_0 (t3 g)].
  split; [repeat split; cbn; lia|]. split; [cbn; lra|]. split; [cbn; lra|]. split; [cbn; lra|].
  split; [rewrite Hrest; apply mul_I_l|]. split; [cbn [add_mesh_gradient]; rewrite Hg; reflexivity|].
  intros E. apply (f_equal vz) in E. apply (f_equal vz) in Ht. revert E Ht. unfold g. clear Hh Hg HD HJ Hrest. clearbody h. unfold tet_torque, torque, v3_total.
  cbv [length seq combine map fold_right fst snd dH]. destruct h as [[] [] [] []]. cbv [s x xt]. small. lra.
Qed.
Print Assumptions damping_torque_refuted.

(** C46. Rigid motions do not change the energy; the rest shape is free of forces (and has zero energy for the Neo-Hookean model). *)
Theorem energy_rigid_invariant (B Q : m3) (v lam m : R) (x : tet) (c : v3) : rotation Q ->
  nh_energy (at_shape B v lam m (tet_map (rigid Q c) x)) = nh_energy (at_shape B v lam m x) /\ snh_energy (at_shape B v lam m (tet_map (rigid Q c) x)) = snh_energy (at_shape B v lam m x).
Proof. intros H. split; [exact (nh_energy_rigid B v lam m x Q c H)|exact (snh_energy_rigid B v lam m x Q c H)]. Qed.
Print Assumptions energy_rigid_invariant.
Theorem rest_shape_force_free (B : m3) (v lam m : R) (x : tet) : lam <> 0 -> m3_mul B (shape_matrix x) = m3_I ->
  nh_energy (at_shape B v lam m x) = Fin 0 /\ nh_gradient (at_shape B v lam m x) = Some (Tet v3_0 v3_0 v3_0 v3_0) /\ snh_gradient (at_shape B v lam m x) = Some (Tet v3_0 v3_0 v3_0 v3_0).
Proof. intros Hl H. destruct (nh_rest B v lam m x H) as [A C]. split; [exact A|]. split; [exact C|exact (snh_rest B v lam m x Hl H)]. Qed.
Print Assumptions rest_shape_force_free.
Example rigid_nonvacuous : rotation (M3 (V3 0 (-1) 0) (V3 1 0 0) (V3 0 0 1)) /\ tet_map (rigid (M3 (V3 0 (-1) 0) (V3 1 0 0) (V3 0 0 1)) (V3 5 0 0)) stretched <> stretched /\
  m3_mul m3_I (shape_matrix corner) = m3_I.
Proof.
  split; [split; small; [apply m3_ext; ring|ring]|]. split; [|small; apply m3_ext; ring].
  intros H. apply (f_equal (fun t => vx (t3 t))) in H. revert H. unfold tet_map, rigid. small. lra.
Qed.

(** C48. Near the rest shape the virtual work of the elastic forces is that of Hooke's law; for the stable model with the parameters passed
    to it by [Elasticity::lame], material.rs:545-560. *)
Theorem nh_linearises_to_hooke (B : m3) (v lam m : R) (x d u : tet) : m3_mul B (shape_matrix x) = m3_I ->
  is_derive (fun s => tet_dot (tet_or_zero (nh_gradient (at_shape B v lam m (tet_line x d s)))) u) 0
    (v * m3_inner (hooke lam m (m3_mul B (shape_matrix d))) (m3_mul B (shape_matrix u))).
Proof.
  intros H. destruct (nh_rest B v lam m x H) as [_ Hg]. destruct (nh_smooth B v lam m x d u _ Hg) as [_ D].
  change (m_product neo_hookean) with nh_product in D. rewrite nh_product_pos, close_rows_dot in D by (change (deformation_gradient (at_shape B v lam m x)) with (m3_mul B (shape_matrix x)); rewrite H, det_I; lra).
  change (deformation_gradient (at_shape B v lam m x)) with (m3_mul B (shape_matrix x)) in D. rewrite H, nh_hooke in D. exact D.
Qed.
Print Assumptions nh_linearises_to_hooke.
Theorem snh_linearises_to_hooke (B : m3) (v lam m : R) (x d u : tet) : lam + 5 * m / 6 <> 0 -> m3_mul B (shape_matrix x) = m3_I ->
  is_derive (fun s => tet_dot (tet_or_zero (snh_gradient (at_shape B v (lam + 5 * m / 6) (4 * m / 3) (tet_line x d s)))) u) 0
    (v * m3_inner (hooke lam m (m3_mul B (shape_matrix d))) (m3_mul B (shape_matrix u))).
Proof.
  intros Hl H. destruct (snh_smooth B v (lam + 5 * m / 6) (4 * m / 3) x d u _ eq_refl) as [_ D].
  change (m_product stable_neo_hookean) with snh_product in D. rewrite snh_product_eq, close_rows_dot in D.
  change (deformation_gradient (at_shape B v (lam + 5 * m / 6) (4 * m / 3) x)) with (m3_mul B (shape_matrix x)) in D.
  change (lambda (at_shape B v (lam + 5 * m / 6) (4 * m / 3) x)) with (lam + 5 * m / 6) in D. change (mu (at_shape B v (lam + 5 * m / 6) (4 * m / 3) x)) with (4 * m / 3) in D.
  rewrite H, (snh_hooke lam m _ Hl) in D. exact D.
Qed.
Print Assumptions snh_linearises_to_hooke.
Example hooke_nonvacuous : 1 + 5 * 1 / 6 <> 0 /\ m3_mul m3_I (shape_matrix corner) = m3_I /\ m3_inner (hooke 1 1 (M3 (V3 1 0 0) (V3 0 0 0) (V3 0 0 0))) m3_I = 5.
Proof. split; [lra|]. split; [small; apply m3_ext; ring|]. unfold hooke. small. ring. Qed.

(** C52. The pattern: 78 entries per element in lockstep with the values, all in the lower triangle (relative to the offsets). *)
Theorem hessian_pattern (M : tet_model) (ss : list solid_tet) (a b : nat) (sc dq : R) (x v : nat -> v3) : (forall s, In s ss -> distinct_vertices s) ->
  length (hessian_indices ss a b) = (78 * length ss)%nat /\ length (hessian_values M ss sc dq x v) = length (hessian_indices ss a b) /\
  forall p, In p (hessian_indices ss a b) -> exists r c, p = ((r + a)%nat, (c + b)%nat) /\ (c <= r)%nat.
Proof.
  intros Hd. split; [apply indices_length|]. split; [rewrite values_length, indices_length; reflexivity|].
  intros p Hp. unfold hessian_indices in Hp. apply in_flat_map in Hp. destruct Hp as (s & Hs & Hp). apply in_map_iff in Hp. destruct Hp as (t & <- & Ht). exact (index_lower s a b t (Hd s Hs) Ht).
Qed.
Print Assumptions hessian_pattern.
(** Every pair of coordinates of an element's vertices has exactly one entry, and its value is that of the symmetric matrix of the element
    at the configuration plus damping times that at the previous one. *)
Theorem hessian_pairs_once (M : tet_model) (s : solid_tet) (sc dq : R) (x v : nat -> v3) (n k i j : nat) : distinct_vertices s -> (n < 4)%nat -> (k < 4)%nat -> (i < 3)%nat -> (j < 3)%nat ->
  (3 * cell_vertex s k + j <= 3 * cell_vertex s n + i)%nat ->
  exists t, In t hessian_entries /\ hessian_index s 0 0 t = ((3 * cell_vertex s n + i)%nat, (3 * cell_vertex s k + j)%nat) /\
    (forall t', In t' hessian_entries -> hessian_index s 0 0 t' = ((3 * cell_vertex s n + i)%nat, (3 * cell_vertex s k + j)%nat) -> t' = t) /\
    hessian_value M s sc dq x v t = (sym_entry (m_hessian M (elem_of s (gather s x))) n k i j +
      sym_entry (m_hessian M (elem_of s (tet_sub (gather s x) (tet_scale dq (gather s v))))) n k i j * s_damping s) * sc.
Proof.
  intros Hd Hn Hk Hi Hj Hle. destruct (entry_unique s n k i j Hd Hn Hk Hi Hj Hle) as (A & B & C). eexists. split; [exact A|]. split; [exact B|]. split; [exact C|].
  unfold sym_entry. destruct (lower n k i j); reflexivity.
Qed.
Print Assumptions hessian_pairs_once.
Theorem hessian_entries_listed_once : NoDup hessian_entries /\ forall n k i j, In (n, k, i, j) hessian_entries <-> (n < 4)%nat /\ (k < 4)%nat /\ (i < 3)%nat /\ (j < 3)%nat /\ lower n k i j = true.
Proof.
  split.
  - apply (NoDup_map_inv (fun t => let '(n, k, i, j) := t in 64 * n + 16 * k + 4 * i + j)%nat).
    assert (E : nodup Nat.eq_dec (map (fun t => let '(n, k, i, j) := t in 64 * n + 16 * k + 4 * i + j)%nat hessian_entries) = map (fun t => let '(n, k, i, j) := t in 64 * n + 16 * k + 4 * i + j)%nat hessian_entries) by (vm_compute; reflexivity).
    rewrite <- E. apply NoDup_nodup.
  - intros n k i j. split; [exact (entries_bounds (n, k, i, j))|]. intros (A & B & C & D & E). exact (entries_in n k i j A B C D E).
Qed.
Print Assumptions hessian_entries_listed_once.
Example hessian_pattern_nonvacuous : distinct_vertices (SolidTet 7 2 5 3 m3_I 1 1 1 0) /\
  hessian_index (SolidTet 7 2 5 3 m3_I 1 1 1 0) 0 0 (2, 1, 0, 2)%nat = (15, 8)%nat /\ hessian_index (SolidTet 7 2 5 3 m3_I 1 1 1 0) 0 0 (1, 0, 0, 2)%nat = (23, 6)%nat.
Proof. split; [unfold distinct_vertices; cbn; repeat (constructor; [cbn; lia|]); constructor|]. split; reflexivity. Qed.

(** C79. The Neo-Hookean energy is non-negative and vanishes exactly on rotations of the rest shape. *)
Theorem nh_energy_sign (e : elem) (a : R) : 0 < vol e -> 0 <= lambda e -> 0 < mu e -> nh_energy e = Fin a -> 0 <= a /\ (a = 0 <-> rotation (deformation_gradient e)).
Proof.
  intros Hv Hl Hm He. assert (HJ : 0 < m3_det (deformation_gradient e)).
  { unfold nh_energy in He. cbv zeta in He. destruct (Rle_dec (m3_det (deformation_gradient e)) 0); [discriminate He|lra]. }
  rewrite nh_energy_fin in He by exact HJ. injection He as <-. pose proof (nh_density_nonneg (lambda e) (mu e) _ Hl (Rlt_le _ _ Hm) HJ) as Hn. split; [apply Rmult_le_pos; lra|]. split.
  - intros E. apply Rmult_integral in E. destruct E as [E|E]; [lra|]. exact (nh_density_zero (lambda e) (mu e) _ Hl Hm HJ E).
  - intros Hr. rewrite (rotation_energy (lambda e) (mu e) _ Hr). ring.
Qed.
Print Assumptions nh_energy_sign.
Example nh_energy_sign_nonvacuous : exists a, nh_energy (at_shape m3_I 1 0 1 stretched) = Fin a /\ ~ rotation (deformation_gradient (at_shape m3_I 1 0 1 stretched)).
Proof.
  eexists. split; [apply nh_energy_fin; cbv [deformation_gradient at_shape DX_inv Dx]; small; lra|].
  intros [_ H]. revert H. cbv [deformation_gradient at_shape DX_inv Dx]. small. lra.
Qed.

(** C80. With damping, the assembled gradient is the derivative of the assembled energy along every change [w] of the velocities (the
    positions change by [dqdv * w]), divided by [dqdv]. *)
Theorem mesh_gradient_is_derivative (M : tet_model) (ss : list solid_tet) (dqdv : R) (x v w : nat -> v3) (n : nat) : M = neo_hookean \/ M = stable_neo_hookean ->
  (forall s, In s ss -> in_range n s) -> mesh_is_free_of_inversion M ss x ->
  exists g, add_mesh_gradient M ss dqdv x v (repeat v3_0 n) = Some g /\
    locally 0 (fun t => exists a, mesh_energy M ss dqdv (move x (fun i => v3_scale dqdv (w i)) t) (move v w t) = Fin a) /\
    is_derive (fun t => fin (mesh_energy M ss dqdv (move x (fun i => v3_scale dqdv (w i)) t) (move v w t))) 0 (dqdv * power g w).
Proof.
  intros HM Hr Hi. assert (HG : good_model M) by (destruct HM as [->| ->]; [exact nh_good|exact snh_good]).
  assert (He : forall s, In s ss -> exists h, tet_gradient_with_damping M s dqdv x v = Some h) by (intros s Hs; destruct (Hi s Hs) as [h Hh]; exact (damped_exists M s dqdv x v h Hh)).
  destruct (mesh_gradient_exists M ss dqdv x v He (repeat v3_0 n)) as (g & Hg & Lg); [rewrite repeat_length; exact Hr|]. exists g. split; [exact Hg|].
  rewrite power_lsum. destruct (mesh_scatter (fun i a => v3_dot a (w i)) M ss dqdv x v) with (l := repeat v3_0 n) (g := g) as (_ & E & _); [intros i a b; destruct a, b, (w i); unm; ring|exact Hg|].
  rewrite E, lsum_zero by (intros i; destruct (w i); unm; ring). rewrite Rplus_0_l. exact (mesh_damped_derive M ss dqdv x v w HG He).
Qed.
Print Assumptions mesh_gradient_is_derivative.
(** C81. The assembled triplets are the derivative of the assembled gradient: tested with [u], the gradient changes along [w] by [dqdv] times
    their bilinear form. *)
Theorem mesh_hessian_is_derivative (M : tet_model) (ss : list solid_tet) (dqdv : R) (x v w u : nat -> v3) (n : nat) : M = neo_hookean \/ M = stable_neo_hookean ->
  (forall s, In s ss -> in_range n s) -> (forall s, In s ss -> distinct_vertices s) -> mesh_is_free_of_inversion M ss x ->
  exists g : R -> list v3, locally 0 (fun t => add_mesh_gradient M ss dqdv (move x (fun i => v3_scale dqdv (w i)) t) (move v w t) (repeat v3_0 n) = Some (g t)) /\
    is_derive (fun t => power (g t) u) 0 (dqdv * lower_form (combine (hessian_indices ss 0 0) (hessian_values M ss 1 dqdv x v)) (coords u) (coords w)).
Proof.
  intros HM Hr Hd Hi. assert (HG : good_model M /\ smooth_model M /\ block_model M)
    by (destruct HM as [->| ->]; [exact (conj nh_good (conj nh_smooth nh_block))|exact (conj snh_good (conj snh_smooth snh_block))]).
  destruct HG as (HG & HS & HB).
  assert (He : forall s, In s ss -> exists h, tet_gradient_with_damping M s dqdv x v = Some h) by (intros s Hs; destruct (Hi s Hs) as [h Hh]; exact (damped_exists M s dqdv x v h Hh)).
  destruct (mesh_force_derive M ss dqdv x v w u HG HS He) as [L D].
  set (X := move x (fun i => v3_scale dqdv (w i))) in *. set (V := move v w) in *.
  exists (fun t => match add_mesh_gradient M ss dqdv (X t) (V t) (repeat v3_0 n) with Some g => g | None => [] end).
  assert (L' : locally 0 (fun t => exists g, add_mesh_gradient M ss dqdv (X t) (V t) (repeat v3_0 n) = Some g)).
  { eapply filter_imp; [|exact L]. intros t Ht. destruct (mesh_gradient_exists M ss dqdv (X t) (V t) Ht (repeat v3_0 n)) as (g & Hg & _); [rewrite repeat_length; exact Hr|]. exists g. exact Hg. }
  split; [eapply filter_imp; [|exact L']; intros t [g Hg]; cbv beta; rewrite Hg; reflexivity|].
  rewrite mesh_form_tets by assumption. rewrite Rmult_1_l. eapply is_derive_ext_loc; [|exact D]. eapply filter_imp; [|exact L']. intros t [g Hg]. cbv beta. rewrite Hg, power_lsum.
  destruct (mesh_scatter (fun i a => v3_dot a (u i)) M ss dqdv (X t) (V t)) with (l := repeat v3_0 n) (g := g) as (_ & E & _); [intros i a b; destruct a, b, (u i); unm; ring|exact Hg|].
  rewrite E, lsum_zero by (intros i; destruct (u i); unm; ring). rewrite Rplus_0_l. reflexivity.
Qed.
Print Assumptions mesh_hessian_is_derivative.
(** The separately assembled diagonal is the diagonal of the triplets. *)
Theorem mesh_diagonal_matches (M : tet_model) (ss : list solid_tet) (sc dq : R) (x v : nat -> v3) (l : list v3) (c j : nat) : (forall s, In s ss -> distinct_vertices s) -> (c < length l)%nat -> (j < 3)%nat ->
  v3_get (nth c (add_mesh_diagonal M ss sc dq x v l) v3_0) j = v3_get (nth c l v3_0) j + diagonal_sum (combine (hessian_indices ss 0 0) (hessian_values M ss sc dq x v)) (3 * c + j).
Proof. intros Hd Hc Hj. exact (mesh_diagonal M ss sc dq x v c j Hd Hj l Hc). Qed.
Print Assumptions mesh_diagonal_matches.
Example mesh_derivatives_nonvacuous : (forall s, In s (two_tets 1) -> in_range 5 s /\ 0 < s_damping s /\ distinct_vertices s) /\ mesh_is_free_of_inversion neo_hookean (two_tets 1) (positions stretched).
Proof.
  split.
  - intros s [<-|[<-|[]]]; (split; [repeat split; cbn; lia|]); (split; [cbn; lra|]); unfold distinct_vertices; cbn; repeat (constructor; [cbn; lia|]); constructor.
  - intros s [<-|[<-|[]]]; eexists; apply nh_gradient_some; cbv [deformation_gradient elem_of DX_inv Dx]; small; lra.
Qed.

(** C82. Damping forces oppose the motion when the previous shape was the rest shape. *)
Theorem damping_dissipates_partial (s : solid_tet) (dqdv : R) (x v : nat -> v3) (g g' : tet) : 0 <= s_damping s -> 0 <= dqdv -> 0 <= s_vol s -> 0 <= s_lambda s -> 0 <= s_mu s ->
  m3_mul (s_DX_inv s) (shape_matrix (tet_sub (gather s x) (tet_scale dqdv (gather s v)))) = m3_I ->
  tet_gradient_with_damping neo_hookean s dqdv x v = Some g -> tet_gradient_with_damping neo_hookean (undamped s) dqdv x v = Some g' -> tet_dot g' (gather s v) <= tet_dot g (gather s v).
Proof.
  intros Hd Hq Hv Hl Hm Hrest Hg Hg'. pose proof (damping_part neo_hookean s dqdv x v g g' Hg Hg' (gather s v)) as E.
  pose proof (nh_rest_form (s_DX_inv s) (s_vol s) (s_lambda s) (s_mu s) _ (gather s v) Hv Hl Hm Hrest) as P.
  assert (0 <= tet_dot g (gather s v) - tet_dot g' (gather s v)); [|lra]. rewrite E. apply Rmult_le_pos; [apply Rmult_le_pos; assumption|exact P].
Qed.
Print Assumptions damping_dissipates_partial.
Example damping_dissipates_nonvacuous : let s := SolidTet 0 1 2 3 m3_I 1 1 1 1 in
  m3_mul (s_DX_inv s) (shape_matrix (tet_sub (gather s (positions stretched)) (tet_scale 1 (gather s (positions (Tet (V3 1 0 0) v3_0 v3_0 v3_0)))))) = m3_I /\
  exists g g', tet_gradient_with_damping neo_hookean s 1 (positions stretched) (positions (Tet (V3 1 0 0) v3_0 v3_0 v3_0)) = Some g /\
    tet_gradient_with_damping neo_hookean (undamped s) 1 (positions stretched) (positions (Tet (V3 1 0 0) v3_0 v3_0 v3_0)) = Some g'.
Proof.
  cbv zeta. split; [small; apply m3_ext; ring|].
  assert (H : exists h, nh_gradient (elem_of (SolidTet 0 1 2 3 m3_I 1 1 1 1) (gather (SolidTet 0 1 2 3 m3_I 1 1 1 1) (positions stretched))) = Some h)
    by (eexists; apply nh_gradient_some; cbv [deformation_gradient elem_of DX_inv Dx]; small; lra).
  destruct H as [h Hh].
  destruct (damped_exists neo_hookean (SolidTet 0 1 2 3 m3_I 1 1 1 1) 1 (positions stretched) (positions (Tet (V3 1 0 0) v3_0 v3_0 v3_0)) h Hh) as [g Hg].
  destruct (damped_exists neo_hookean (undamped (SolidTet 0 1 2 3 m3_I 1 1 1 1)) 1 (positions stretched) (positions (Tet (V3 1 0 0) v3_0 v3_0 v3_0)) h Hh) as [g' Hg'].
  exists g, g'. split; assumption.
Qed.
(** Finding: on a compressed element the Neo-Hookean damping force drives the motion instead of opposing it. *)
Theorem damping_injects_energy_refuted : exists (s : solid_tet) (x v : nat -> v3) (g g' : tet), 0 < s_damping s /\ 0 < s_vol s /\ 0 < s_lambda s /\ 0 < s_mu s /\
  tet_gradient_with_damping neo_hookean s 1 x v = Some g /\ tet_gradient_with_damping neo_hookean (undamped s) 1 x v = Some g' /\ tet_dot g (gather s v) < tet_dot g' (gather s v).
Proof.
  set (s := SolidTet 0 1 2 3 m3_I 1 1 1 1). set (vt := Tet (V3 0 1 0) (V3 (-1) 0 0) v3_0 v3_0). set (xt := Tet (V3 (1 / 2) 1 0) (V3 (-1) (1 / 2) 0) (V3 0 0 (1 / 2)) v3_0).
  set (x := positions xt). set (v := positions vt).
  assert (H : exists h, nh_gradient (elem_of s (gather s x)) = Some h) by (eexists; apply nh_gradient_some; cbv [s x xt deformation_gradient elem_of DX_inv Dx]; small; lra).
  destruct H as [h Hh]. destruct (damped_exists neo_hookean s 1 x v h Hh) as [g Hg]. destruct (damped_exists neo_hookean (undamped s) 1 x v h Hh) as [g' Hg'].
  exists s, x, v, g, g'. split; [cbn; lra|]. split; [cbn; lra|]. split; [cbn; lra|]. split; [cbn; lra|]. split; [exact Hg|]. split; [exact Hg'|].
  pose proof (damping_part neo_hookean s 1 x v g g' Hg Hg' (gather s v)) as E.
  assert (S0 : shape_matrix (tet_sub (gather s x) (tet_scale 1 (gather s v))) = m3_scale (1 / 2) m3_I) by (cbv [s x v xt vt]; small; apply m3_ext; field).
  assert (J0 : m3_det (m3_scale (1 / 2) m3_I) = 1 / 8) by (small; field).
  assert (P : tet_dot (close_rows (nh_product (elem_of s (tet_sub (gather s x) (tet_scale 1 (gather s v)))) (gather s v))) (gather s v) = 2 - 8 * (1 - ln (1 / 8))).
  { rewrite nh_product_pos; [rewrite close_rows_dot|]; unfold elem_of, deformation_gradient; cbn [Dx DX_inv vol lambda mu]; rewrite S0; change (s_DX_inv s) with m3_I; rewrite !mul_I_l, ?J0; [|lra].
    rewrite nh_dstress_inner, J0. unfold deformation_gradient_differential, m3_inv_transpose. rewrite J0. cbv [s v vt DX_inv s_lambda s_mu s_vol]. generalize (ln (1 / 8)). intros l. small. field. }
  change (m_product neo_hookean) with nh_product in E. rewrite P in E. change (s_damping s) with 1 in E.
  assert (L : ln (1 / 8) < 0) by (rewrite <- ln_1; apply ln_increasing; lra). lra.
Qed.
Print Assumptions damping_injects_energy_refuted.
