From Coq Require Import Reals List Arith Bool Lra Lia Psatz FunctionalExtensionality.
From Coquelicot Require Import Coquelicot.
From Verif Require Import Calc Vec3 Mat3 RList ElasticModel ElasticSpec ElasticProofs ElasticMeshProofs ElasticHessProofs MassProofs VolumeProofs AngleModel AngleSpec AngleProofs AngleHessProofs AngleRefProofs ShellModel ShellSpec ShellProofs.
Import ListNotations.
Local Open Scope R_scope.

(** * Rest shapes *)
Lemma dot_comm2 a b : v3_dot a b = v3_dot b a. Proof. d2. un2. ring. Qed.
Lemma mul_tr_mul B M : m23_mul_tr (m2_m23 B M) (m2_m23 B M) = m2_mul (m2_mul B (m23_mul_tr M M)) (m2_transpose B).
Proof. d2. un2. f_equal; ring. Qed.
Lemma rest_isometry x : flat_normal x <> v3_0 -> isometry (m2_m23 (m2_inv (isotropic_shape (tri_shape x))) (tri_shape x)).
Proof.
  intros H. destruct (isotropic_metric (tri_shape x) H) as (A & B & C & D). set (S := isotropic_shape (tri_shape x)) in *. set (M := tri_shape x) in *.
  pose proof (mul_tr_mul (m2_inv S) M) as E. unfold m23_mul_tr at 2 in E. rewrite (dot_comm2 (w1 M) (w0 M)), <- A, <- B, <- C in E. unfold isometry. clearbody S. clear - D E.
  assert (D' : m2_det S <> 0) by lra. clear D. set (T := m2_m23 (m2_inv S) M) in *. clearbody T. unfold m23_mul_tr in E. destruct S as [s0 s1 s2 s3]. revert D' E. un2. cbn [m00 m01 m10 m11]. intros D' E. injection E as E0 E1 E2 E3.
  split; [|split]; etransitivity; [exact E0| |exact E3| |exact E1|]; field; exact D'.
Qed.

(** * Bending *)
Lemma bending_derive d x w faces : valid_edge (di_edge d) faces -> nondegenerate (corners (di_edge d) x faces) -> Rabs (incremental_angle (di_edge d) (di_angle d) x faces - di_angle d) < PI ->
  is_derive (fun s => bending_energy d (move x w s) faces) 0 (tet_dot (bending_gradient d x faces) (corners (di_edge d) w faces)).
Proof.
  intros V N W. apply Rabs_def2 in W. pose proof (tracked_derive (di_edge d) (di_angle d) x w faces V N ltac:(lra)) as D. unfold bending_energy, bending_gradient, bending_dw.
  set (th := fun s => incremental_angle (di_edge d) (di_angle d) (move x w s) faces) in *. assert (T : th 0 = incremental_angle (di_edge d) (di_angle d) x faces) by (unfold th; f_equal; apply functional_extensionality; intros i; apply move_0).
  rewrite <- T. set (l := tet_dot (edge_angle_gradient (di_edge d) x faces) (corners (di_edge d) w faces)) in *.
  replace (tet_dot _ _) with (di_ref_length d * di_stiffness d * (th 0 - di_ref_angle d) * l) by (unfold l; generalize (edge_angle_gradient (di_edge d) x faces), (corners (di_edge d) w faces), (di_ref_length d * di_stiffness d * (th 0 - di_ref_angle d)); clear; intros; dm; unfold tet_scale; unm; ring).
  change (is_derive (fun s => 1 / 2 * di_ref_length d * di_stiffness d * (th s - di_ref_angle d) * (th s - di_ref_angle d)) 0 (di_ref_length d * di_stiffness d * (th 0 - di_ref_angle d) * l)).
  change (is_derive (fun s : R => th s) 0 l) in D. clearbody th. auto_derive; [repeat split; exists l; exact D|]. rewrite (is_derive_unique _ _ _ D). field.
Qed.
Lemma derive_sum4 (f : R -> nat -> R) l : (forall i, (i < 4)%nat -> is_derive (fun s => f s i) 0 (l i)) -> is_derive (fun s => sum4 (f s)) 0 (sum4 l).
Proof. intros H. unfold sum4. repeat apply @is_derive_plus; apply H; lia. Qed.
Lemma derive_sum3 (f : R -> nat -> R) l : (forall i, (i < 3)%nat -> is_derive (fun s => f s i) 0 (l i)) -> is_derive (fun s => sum3 (f s)) 0 (sum3 l).
Proof. intros H. unfold sum3. repeat apply @is_derive_plus; apply H; lia. Qed.
(** Entry of the second derivative of the energy. *)
Definition bending_entry (d : dihedral) (x : nat -> v3) (faces : topology) (i j r c : nat) : R :=
  bending_d2w d * tet_get (edge_angle_gradient (di_edge d) x faces) i r * tet_get (edge_angle_gradient (di_edge d) x faces) j c
  + bending_dw d x faces * stored_entry (edge_angle_hessian (di_edge d) x faces) i j r c.
Lemma bending_force_derive d x w u faces : valid_edge (di_edge d) faces -> nondegenerate (corners (di_edge d) x faces) -> Rabs (incremental_angle (di_edge d) (di_angle d) x faces - di_angle d) < PI ->
  is_derive (fun s => tet_dot (bending_gradient d (move x w s) faces) (corners (di_edge d) u faces)) 0
    (sum4 (fun i => sum3 (fun r => tet_get (corners (di_edge d) u faces) i r * sum4 (fun j => sum3 (fun c => bending_entry d x faces i j r c * tet_get (corners (di_edge d) w faces) j c))))).
Proof.
  intros V N W. apply Rabs_def2 in W. pose proof (tracked_derive (di_edge d) (di_angle d) x w faces V N ltac:(lra)) as D.
  apply is_derive_ext with (fun s => sum4 (fun i => sum3 (fun r => tet_get (corners (di_edge d) u faces) i r * (bending_dw d (move x w s) faces * tet_get (edge_angle_gradient (di_edge d) (move x w s) faces) i r)))).
  { intros s. unfold bending_gradient. generalize (bending_dw d (move x w s) faces), (edge_angle_gradient (di_edge d) (move x w s) faces), (corners (di_edge d) u faces). clear. intros. cbv [sum4 sum3 tet_get v3_get]. dm. unfold tet_scale. unm. ringR. }
  apply (derive_sum4 (fun s i => sum3 (fun r => _ i r * (bending_dw d (move x w s) faces * tet_get (edge_angle_gradient (di_edge d) (move x w s) faces) i r)))). intros i Hi.
  apply (derive_sum3 (fun s r => tet_get (corners (di_edge d) u faces) i r * (bending_dw d (move x w s) faces * tet_get (edge_angle_gradient (di_edge d) (move x w s) faces) i r))). intros r Hr.
  apply @is_derive_scal. pose proof (angle_hessian_derive (di_edge d) x w faces i r V N Hi Hr) as H. unfold bending_dw at 1.
  assert (M : forall k, move x w 0 k = x k) by (intros; apply move_0). assert (M' : move x w 0 = x) by (apply functional_extensionality; exact M).
  set (th := fun s => incremental_angle (di_edge d) (di_angle d) (move x w s) faces) in *. set (g := fun s => tet_get (edge_angle_gradient (di_edge d) (move x w s) faces) i r) in *.
  set (lg := sum4 _) in H at 1. set (lt := tet_dot _ _) in D.
  match goal with |- is_derive _ _ ?y => replace y with (di_ref_length d * di_stiffness d * lt * g 0 + di_ref_length d * di_stiffness d * (th 0 - di_ref_angle d) * lg) end.
  - change (is_derive (fun s => di_ref_length d * di_stiffness d * (th s - di_ref_angle d) * g s) 0 (di_ref_length d * di_stiffness d * lt * g 0 + di_ref_length d * di_stiffness d * (th 0 - di_ref_angle d) * lg)).
    change (is_derive (fun s : R => th s) 0 lt) in D. change (is_derive (fun s : R => g s) 0 lg) in H. clearbody th g. auto_derive; [repeat split; [exists lt; exact D|exists lg; exact H]|]. rewrite (is_derive_unique _ _ _ D), (is_derive_unique _ _ _ H). ring.
  - unfold th, g, lg, lt. rewrite M'. unfold bending_entry, bending_dw, bending_d2w. generalize (stored_entry (edge_angle_hessian (di_edge d) x faces) i). intros h.
    cbv [tet_dot sum4 sum3]. generalize (tet_get (edge_angle_gradient (di_edge d) x faces) i r) as gi. intros gi. generalize (edge_angle_gradient (di_edge d) x faces), (corners (di_edge d) w faces). clear. intros. cbv [tet_get v3_get]. dm. unm. ring.
Qed.

(** * Assembly of the gradient *)
Lemma scatter_lsum L ps : additive L -> forall l l', scatter ps l = Some l' -> length l' = length l /\ lsum L 0 l' = lsum L 0 l + rsum (map (fun p => L (fst p) (snd p)) ps).
Proof.
  intros HL. induction ps as [|p ps IH]; intros l l' H.
  - injection H as <-. cbn [map]. rewrite rsum_nil. split; [reflexivity|ring].
  - cbn [scatter] in H. destruct (add_at l (fst p) (snd p)) as [l1|] eqn:E; [|discriminate H]. cbn [bind] in H. destruct (add_at_lsum L l (fst p) (snd p) l1 0 HL E) as [A B]. destruct (IH l1 l' H) as [C D].
    split; [congruence|]. cbn [map]. rewrite rsum_cons, D, B. cbn [Nat.add]. ring.
Qed.
Lemma scatter_some ps : forall l, (forall p, In p ps -> (fst p < length l)%nat) -> exists l', scatter ps l = Some l' /\ length l' = length l.
Proof.
  induction ps as [|p ps IH]; intros l H; [exists l; split; reflexivity|]. destruct (add_at_some l (fst p) (snd p)) as (l1 & E & Ln); [apply H; left; reflexivity|].
  destruct (IH l1) as (l' & A & B); [intros q Hq; rewrite Ln; apply H; right; exact Hq|]. exists l'. cbn [scatter]. rewrite E. split; [exact A|congruence].
Qed.
Lemma power_scatter ps n g w : scatter ps (repeat v3_0 n) = Some g -> power g w = rsum (map (fun p => v3_dot (snd p) (w (fst p))) ps).
Proof.
  intros H. rewrite power_lsum. destruct (scatter_lsum (fun i a => v3_dot a (w i)) ps) with (l := repeat v3_0 n) (l' := g) as [_ E]; [|exact H|].
  - intros i a b. destruct a, b, (w i). unfold v3_add, v3_dot. cbn. ring.
  - rewrite E, lsum_zero by (intros i; destruct (w i); unfold v3_dot; cbn; ring). ring.
Qed.
Definition tri_forces (t : shell_tri) (dqdv : R) (x v : nat -> v3) : tri3 :=
  let e := tri_elem_of t (tri_gather t x) in let g := tri_gradient e in
  let damp := tri_close (m23_scale (f_mu t * f_area t * f_damping t) (m2_m23 (m2_transpose (f_DX_inv t)) (m23_scale dqdv (tri_dF e (tri_gather t v))))) in
  Tri3 (v3_add (q0 g) (q0 damp)) (v3_add (q1 g) (q1 damp)) (v3_add (q2 g) (q2 damp)).
Definition tri_lsum (L : nat -> v3 -> R) (t : shell_tri) (g : tri3) : R := L (f_0 t) (q0 g) + L (f_1 t) (q1 g) + L (f_2 t) (q2 g).
Lemma membrane_lsum L t dqdv x v : additive L -> rsum (map (fun p => L (fst p) (snd p)) (membrane_forces t dqdv x v)) = tri_lsum L t (tri_forces t dqdv x v).
Proof.
  intros HL. unfold membrane_forces, tri_lsum, tri_forces. cbv zeta. cbn [map fst snd q0 q1 q2 tri_close]. rewrite !rsum_cons, rsum_nil.
  rewrite !HL. set (D := m23_scale (f_mu t * f_area t * f_damping t) _). replace (v3_sub (v3_neg (w0 D)) (w1 D)) with (v3_add (v3_neg (w0 D)) (v3_neg (w1 D))) by (generalize D; clear; intros; d2; un2; apply v3_ext; ring). rewrite HL. ring.
Qed.
Lemma bending_lsum L d x faces : rsum (map (fun p => L (fst p) (snd p)) (bending_forces d x faces)) = sum4 (fun i => L (edge_vert (di_edge d) faces i) (tet_row (bending_gradient d x faces) i)).
Proof. unfold bending_forces, sum4. cbv zeta. cbn [map fst snd]. rewrite !rsum_cons, rsum_nil. ring. Qed.
Lemma shell_lsum L S dqdv x v : additive L -> rsum (map (fun p => L (fst p) (snd p)) (shell_forces S dqdv x v)) =
  rsum (map (fun t => tri_lsum L t (tri_forces t dqdv x v)) (sh_tris S)) + rsum (map (fun d => sum4 (fun i => L (edge_vert (di_edge d) (sh_faces S) i) (tet_row (bending_gradient d x (sh_faces S)) i))) (sh_dihedrals S)).
Proof.
  intros HL. unfold shell_forces. rewrite map_app, rsum_app, !rsum_flat_map. f_equal; apply rsum_ext; intros a _; [apply membrane_lsum; exact HL|apply bending_lsum].
Qed.
Lemma shell_scatter_some S dqdv x v n : shell_in_range n S -> exists g, add_shell_gradient S dqdv x v (repeat v3_0 n) = Some g /\ length g = n.
Proof.
  intros [HT HE]. destruct (scatter_some (shell_forces S dqdv x v) (repeat v3_0 n)) as (g & A & B).
  - rewrite repeat_length. intros p Hp. unfold shell_forces in Hp. apply in_app_or in Hp. destruct Hp as [Hp|Hp]; apply in_flat_map in Hp; destruct Hp as (a & Ha & Hp).
    + destruct (HT a Ha) as (H0 & H1 & H2). unfold membrane_forces in Hp. cbv zeta in Hp. cbn [In] in Hp. repeat destruct Hp as [<-|Hp]; cbn [fst]; try assumption. contradiction.
    + unfold bending_forces in Hp. cbv zeta in Hp. apply in_map_iff in Hp. destruct Hp as (i & <- & Hi). cbn [fst]. apply (HE a); [exact Ha|]. unfold edge_vertices. apply in_map. exact Hi.
  - exists g. rewrite repeat_length in B. split; assumption.
Qed.
Lemma tri_gather_move t x d s : tri_gather t (move x d s) = tri_line (tri_gather t x) (tri_gather t d) s. Proof. reflexivity. Qed.
Lemma tri_dF_at t x d : tri_dF (tri_elem_of t x) d = m2_m23 (f_DX_inv t) (tri_shape d). Proof. reflexivity. Qed.
Lemma tri_dot_lsum t g w : tri_lsum (fun i a => v3_dot a (w i)) t g = tri_dot g (tri_gather t w). Proof. reflexivity. Qed.
Lemma membrane_derive t dqdv x v w : proper (f_DX_inv t) (tri_gather t x) ->
  locally 0 (fun s => exists a, membrane_energy t dqdv (move x (fun i => v3_scale dqdv (w i)) s) (move v w s) = Fin a) /\
  is_derive (fun s => fin (membrane_energy t dqdv (move x (fun i => v3_scale dqdv (w i)) s) (move v w s))) 0 (dqdv * tri_dot (tri_forces t dqdv x v) (tri_gather t w)).
Proof.
  intros HP. destruct (tri_gradient_derive (f_DX_inv t) (f_area t) (f_lambda t) (f_mu t) (tri_gather t x) (tri_gather t (fun i => v3_scale dqdv (w i))) HP) as [L D].
  set (V := m2_m23 (f_DX_inv t) (tri_shape (tri_gather t v))). set (W := m2_m23 (f_DX_inv t) (tri_shape (tri_gather t w))). set (k := f_mu t * f_area t * (1 / 2) * f_damping t * (dqdv * dqdv)).
  assert (HL : locally 0 (fun s => membrane_energy t dqdv (move x (fun i => v3_scale dqdv (w i)) s) (move v w s) =
    Fin (fin (tri_energy (at_tri (f_DX_inv t) (f_area t) (f_lambda t) (f_mu t) (tri_line (tri_gather t x) (tri_gather t (fun i => v3_scale dqdv (w i))) s))) + k * m23_inner (m23_line V W s) (m23_line V W s)))).
  { eapply filter_imp; [|exact L]. intros s [a Ha]. unfold membrane_energy. cbv zeta. rewrite !tri_gather_move, tri_dF_at, shape_line2. fold V W.
    change (tri_elem_of t ?y) with (at_tri (f_DX_inv t) (f_area t) (f_lambda t) (f_mu t) y). rewrite Ha. cbn [fin]. f_equal. unfold k, m23_inner. ring. }
  split; [eapply filter_imp; [|exact HL]; intros s Hs; eexists; exact Hs|].
  eapply is_derive_ext_loc; [eapply filter_imp; [|exact HL]; intros s Hs; cbv beta in Hs; rewrite Hs; cbn [fin]; reflexivity|].
  replace (dqdv * tri_dot (tri_forces t dqdv x v) (tri_gather t w)) with (tri_dot (tri_gradient (at_tri (f_DX_inv t) (f_area t) (f_lambda t) (f_mu t) (tri_gather t x))) (tri_gather t (fun i => v3_scale dqdv (w i))) + k * (2 * m23_inner V W)).
  - apply @is_derive_plus; [exact D|]. apply @is_derive_scal. apply line_0 with (a := m23_inner V V) (c := m23_inner W W). intros s. generalize V, W. clear. intros. d2. un3. ring.
  - unfold tri_forces. cbv zeta. change (tri_elem_of t (tri_gather t x)) with (at_tri (f_DX_inv t) (f_area t) (f_lambda t) (f_mu t) (tri_gather t x)). generalize (tri_gradient (at_tri (f_DX_inv t) (f_area t) (f_lambda t) (f_mu t) (tri_gather t x))).
    intros g. unfold V, W, k, tri_dF. cbn [T_DX_inv at_tri]. unfold tri_gather. generalize (w (f_0 t)), (w (f_1 t)), (w (f_2 t)), (v (f_0 t)), (v (f_1 t)), (v (f_2 t)), (f_DX_inv t). clear. intros. d2. un3. field.
Qed.
Lemma ext_sum_derive {A} (l : list A) (E : A -> R -> ext) (g : A -> R) : (forall a, In a l -> locally 0 (fun s => exists y, E a s = Fin y) /\ is_derive (fun s => fin (E a s)) 0 (g a)) ->
  locally 0 (fun s => exists y, ext_sum (map (fun a => E a s) l) = Fin y) /\ is_derive (fun s => fin (ext_sum (map (fun a => E a s) l))) 0 (rsum (map g l)).
Proof.
  induction l as [|a l IH]; intros H.
  - split; [exists (mkposreal 1 Rlt_0_1); intros t _; eexists; reflexivity|]. cbn [map]. rewrite rsum_nil. cbn [ext_sum fold_right fin]. apply @is_derive_const.
  - destruct (H a (or_introl eq_refl)) as [L1 D1]. destruct IH as [L2 D2]; [intros b Hb; apply H; right; exact Hb|]. cbn [map]. rewrite rsum_cons. split.
    + eapply filter_imp; [|exact (filter_and _ _ L1 L2)]. intros s [[y Hy] [z Hz]]. exists (y + z). unfold ext_sum in *. cbn [fold_right]. rewrite Hy, Hz. reflexivity.
    + eapply is_derive_ext_loc; [eapply filter_imp; [|exact (filter_and _ _ L1 L2)]|apply @is_derive_plus; [exact D1|exact D2]].
      intros s [[y Hy] [z Hz]]. unfold ext_sum in *. cbn [fold_right]. rewrite Hy, Hz. reflexivity.
Qed.
Lemma shell_derive S dqdv x v w n : shell_in_range n S -> smooth_at S x ->
  exists g, add_shell_gradient S dqdv x v (repeat v3_0 n) = Some g /\ length g = n /\
    locally 0 (fun s => exists a, shell_energy S dqdv (move x (fun i => v3_scale dqdv (w i)) s) (move v w s) = Fin a) /\
    is_derive (fun s => fin (shell_energy S dqdv (move x (fun i => v3_scale dqdv (w i)) s) (move v w s))) 0 (dqdv * power g w).
Proof.
  intros HR [HT HE]. destruct (shell_scatter_some S dqdv x v n HR) as (g & Hg & Ln). exists g. split; [exact Hg|]. split; [exact Ln|].
  assert (HA : additive (fun i a => v3_dot a (w i))) by (intros i a b; destruct a, b, (w i); unfold v3_add, v3_dot; cbn; ring).
  destruct (ext_sum_derive (sh_tris S) (fun t s => membrane_energy t dqdv (move x (fun i => v3_scale dqdv (w i)) s) (move v w s)) (fun t => dqdv * tri_dot (tri_forces t dqdv x v) (tri_gather t w))) as [L1 D1].
  { intros t Ht. apply membrane_derive. apply HT. exact Ht. }
  destruct (ext_sum_derive (sh_dihedrals S) (fun d s => Fin (bending_energy d (move x (fun i => v3_scale dqdv (w i)) s) (sh_faces S))) (fun d => tet_dot (bending_gradient d x (sh_faces S)) (corners (di_edge d) (fun i => v3_scale dqdv (w i)) (sh_faces S)))) as [L2 D2].
  { intros d Hd. split; [exists (mkposreal 1 Rlt_0_1); intros t _; eexists; reflexivity|]. cbn [fin]. destruct (HE d Hd) as (V & N & W). apply bending_derive; assumption. }
  rewrite (power_scatter _ _ _ w Hg). rewrite (shell_lsum (fun i a => v3_dot a (w i))) by exact HA. split.
  - eapply filter_imp; [|exact (filter_and _ _ L1 L2)]. intros s [[y Hy] [z Hz]]. exists (y + z). unfold shell_energy. rewrite Hy, Hz. reflexivity.
  - eapply is_derive_ext_loc; [eapply filter_imp; [|exact (filter_and _ _ L1 L2)]|].
    + intros s [[y Hy] [z Hz]]. unfold shell_energy. rewrite Hy, Hz. cbn [ext_add fin]. instantiate (1 := fun s => fin (ext_sum (map (fun t => membrane_energy t dqdv (move x (fun i => v3_scale dqdv (w i)) s) (move v w s)) (sh_tris S))) + fin (ext_sum (map (fun d => Fin (bending_energy d (move x (fun i => v3_scale dqdv (w i)) s) (sh_faces S))) (sh_dihedrals S)))).
      cbv beta. rewrite Hy, Hz. reflexivity.
    + rewrite Rmult_plus_distr_l, <- !rsum_scale. apply @is_derive_plus; [exact D1|]. match goal with |- is_derive _ _ (rsum (map ?f (sh_dihedrals S))) => replace (rsum (map f (sh_dihedrals S))) with (rsum (map (fun d => tet_dot (bending_gradient d x (sh_faces S)) (corners (di_edge d) (fun i => v3_scale dqdv (w i)) (sh_faces S))) (sh_dihedrals S))) end; [exact D2|].
      apply rsum_ext. intros d _. unfold corners, sum4, tet_row, tet_dot. cbn [t0 t1 t2 t3]. generalize (bending_gradient d x (sh_faces S)). intros b.
      generalize (w (edge_vert (di_edge d) (sh_faces S) 0)), (w (edge_vert (di_edge d) (sh_faces S) 1)), (w (edge_vert (di_edge d) (sh_faces S) 2)), (w (edge_vert (di_edge d) (sh_faces S) 3)). clear. intros. dm. unm. ring.
Qed.

(** * The Hessian *)
Definition gterm (h : R) (vf : nat -> nat) (y z : nat -> v3) (n k row col : nat) : R :=
  if Nat.eqb n k && Nat.eqb row col then h * v3_get (y (vf n)) row * v3_get (z (vf k)) col
  else h * (v3_get (y (vf n)) row * v3_get (z (vf k)) col + v3_get (y (vf k)) col * v3_get (z (vf n)) row).
Definition form_term (y z : nat -> R) (t : nat * nat * R) : R := let '(r, c, h) := t in if Nat.eqb r c then h * y r * z c else h * (y r * z c + y c * z r).
Definition inj_on (vf : nat -> nat) (n k : nat) : Prop := vf n = vf k -> n = k.
Lemma swapped_eq vf n k row col : inj_on vf n k -> (row < 3)%nat -> (col < 3)%nat -> Nat.eqb (3 * vf n + row) (3 * vf k + col) = (Nat.eqb n k && Nat.eqb row col)%bool.
Proof.
  intros I Hr Hc. destruct (Nat.eqb_spec (3 * vf n + row) (3 * vf k + col)) as [E|E].
  - apply coord_inj in E as [A ->]; [|assumption|assumption]. apply I in A. subst. rewrite !Nat.eqb_refl. reflexivity.
  - symmetry. apply andb_false_iff. destruct (Nat.eqb_spec n k) as [->|]; [|left; reflexivity]. right. apply Nat.eqb_neq. intros ->. apply E. reflexivity.
Qed.
Lemma form_swapped vf y z n k row col h : inj_on vf n k -> (row < 3)%nat -> (col < 3)%nat ->
  form_term (coords y) (coords z) (swapped_index (vf n) (vf k) row col 0 0, h) = gterm h vf y z n k row col.
Proof.
  intros I Hr Hc. unfold form_term, swapped_index, gterm. rewrite !Nat.add_0_r. pose proof (swapped_eq vf n k row col I Hr Hc) as E. destruct (Nat.ltb (vf n) (vf k)) eqn:Es.
  - rewrite Nat.eqb_sym, E, !coords_at by assumption. destruct (Nat.eqb n k && Nat.eqb row col) eqn:Ed; [|ring].
    apply andb_true_iff in Ed. destruct Ed as [E1 _]. apply Nat.eqb_eq in E1. subst k. rewrite Nat.ltb_irrefl in Es. discriminate Es.
  - rewrite E, !coords_at by assumption. reflexivity.
Qed.
Lemma lower_form_terms ts y z : lower_form ts y z = rsum (map (form_term y z) ts). Proof. reflexivity. Qed.
Lemma tri_entries_bounds n k row col : In (n, k, row, col) tri_entries -> (n < 3 /\ k < 3 /\ row < 3 /\ col < 3)%nat /\ lower n k row col = true.
Proof.
  intros H. change tri_entries with (ltac:(let l := eval vm_compute in tri_entries in exact l)) in H. cbn [In] in H.
  repeat destruct H as [H|H]; try (injection H as <- <- <- <-; split; [lia|reflexivity]). contradiction.
Qed.
Lemma edge_diag_bounds v row col i : In (v, row, col, i) edge_diag_entries -> (v < 4 /\ row < 3 /\ col < 3 /\ i = row * (row + 1) / 2 + col /\ col <= row)%nat.
Proof.
  intros H. change edge_diag_entries with (ltac:(let l := eval vm_compute in edge_diag_entries in exact l)) in H. cbn [In] in H.
  repeat destruct H as [H|H]; try (injection H as <- <- <- <-; cbn; lia). contradiction.
Qed.
Lemma edge_lower_bounds rv cv b row col : In (rv, cv, b, (row, col)) edge_lower_entries -> (rv < 4 /\ cv < rv /\ row < 3 /\ col < 3 /\ b = rv * (rv - 1) / 2 + cv)%nat.
Proof.
  intros H. change edge_lower_entries with (ltac:(let l := eval vm_compute in edge_lower_entries in exact l)) in H. cbn [In] in H.
  repeat destruct H as [H|H]; try (injection H as <- <- <- <- <-; cbn; lia). contradiction.
Qed.
Lemma tri_local_sum H vf y z : rsum (map (fun p => let '(n, k, row, col) := p in gterm (H n k row col) vf y z n k row col) tri_entries) =
  sum3 (fun n => sum3 (fun row => v3_get (y (vf n)) row * sum3 (fun k => sum3 (fun col => sym_entry H n k row col * v3_get (z (vf k)) col)))).
Proof.
  change tri_entries with (ltac:(let l := eval vm_compute in tri_entries in exact l)).
  cbv [map gterm Nat.eqb andb sum3 sym_entry lower Nat.ltb Nat.leb orb]. rewrite !rsum_cons, rsum_nil. ring.
Qed.
Lemma edge_local_sum E vf y z : (forall i j r c, E i j r c = E j i c r) -> 
  rsum (map (fun p => let '(v, row, col, _) := p in gterm (E v v row col) vf y z v v row col) edge_diag_entries)
  + rsum (map (fun p => let '(rv, cv, _, (row, col)) := p in gterm (E rv cv row col) vf y z rv cv row col) edge_lower_entries) =
  sum4 (fun i => sum3 (fun r => v3_get (y (vf i)) r * sum4 (fun j => sum3 (fun c => E i j r c * v3_get (z (vf j)) c)))).
Proof.
  intros HS.
  transitivity (sum4 (fun i => sum3 (fun r => v3_get (y (vf i)) r * sum4 (fun j => sum3 (fun c => sym_entry E i j r c * v3_get (z (vf j)) c))))).
  - change edge_diag_entries with (ltac:(let l := eval vm_compute in edge_diag_entries in exact l)). change edge_lower_entries with (ltac:(let l := eval vm_compute in edge_lower_entries in exact l)).
    cbv [map gterm Nat.eqb andb sum3 sum4 sym_entry lower Nat.ltb Nat.leb orb]. rewrite !rsum_cons, rsum_nil. ring.
  - assert (X : forall i j r c, sym_entry E i j r c = E i j r c) by (intros i j r c; unfold sym_entry; destruct (lower i j r c); [reflexivity|symmetry; apply HS]).
    unfold sum4, sum3. rewrite !X. reflexivity.
Qed.
