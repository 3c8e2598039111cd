From Coq Require Import Reals ZArith List Arith Bool Lra Lia Psatz FunctionalExtensionality.
From Coquelicot Require Import Coquelicot.
From Verif Require Import Calc Vec3 Mat3 RList ElasticModel ElasticSpec ElasticProofs ElasticMeshProofs ElasticHessProofs MassProofs VolumeProofs AngleModel AngleSpec AngleProofs AngleHessProofs AngleRefProofs ShellModel ShellSpec ShellProofs ShellMeshProofs ShellHessProofs.
Import ListNotations.
Local Open Scope R_scope.

(** * Pattern *)
Lemma swapped_lower vf n k row col a b : inj_on vf n k -> lower n k row col = true -> (row < 3)%nat -> (col < 3)%nat ->
  exists r c, swapped_index (vf n) (vf k) row col a b = ((r + a)%nat, (c + b)%nat) /\ (c <= r)%nat /\ (exists p, In p [vf n; vf k] /\ (r < 3 * p + 3)%nat).
Proof.
  intros I Hl Hr Hc. unfold swapped_index. destruct (Nat.ltb_spec (vf n) (vf k)) as [H|H].
  - exists (3 * vf k + col)%nat, (3 * vf n + row)%nat. split; [reflexivity|]. split; [lia|]. exists (vf k). split; [right; left; reflexivity|lia].
  - exists (3 * vf n + row)%nat, (3 * vf k + col)%nat. split; [reflexivity|]. split; [|exists (vf n); split; [left; reflexivity|lia]].
    destruct (Nat.eq_dec (vf n) (vf k)) as [E|E]; [|lia]. apply I in E. subst k. apply lower_spec in Hl. lia.
Qed.
Lemma shell_indices_length S a b : length (shell_hessian_indices S a b) = shell_hessian_size S.
Proof.
  unfold shell_hessian_indices, shell_hessian_size. rewrite app_length. f_equal.
  - induction (sh_tris S) as [|t l IH]; [reflexivity|]. cbn [flat_map length]. rewrite app_length, map_length, IH. change (length tri_entries) with 45%nat. lia.
  - induction (sh_dihedrals S) as [|t l IH]; [reflexivity|]. cbn [flat_map length]. rewrite app_length, edge_indices_length, IH. lia.
Qed.
Lemma shell_values_length S s x : length (shell_hessian_values S s x) = shell_hessian_size S.
Proof.
  unfold shell_hessian_values, shell_hessian_size. rewrite app_length. f_equal.
  - induction (sh_tris S) as [|t l IH]; [reflexivity|]. cbn [flat_map length]. rewrite app_length, map_length, IH. change (length tri_entries) with 45%nat. lia.
  - induction (sh_dihedrals S) as [|t l IH]; [reflexivity|]. cbn [flat_map length]. rewrite app_length, edge_values_length, IH. lia.
Qed.
Lemma shell_indices_lower S n a b p : shell_in_range n S -> shell_distinct S -> In p (shell_hessian_indices S a b) -> exists r c, p = ((r + a)%nat, (c + b)%nat) /\ (c <= r < 3 * n)%nat.
Proof.
  intros [RT RE] [DT DE] H. unfold shell_hessian_indices in H. apply in_app_or in H. destruct H as [H|H]; apply in_flat_map in H; destruct H as (e & He & H).
  - apply in_map_iff in H. destruct H as ([[[i k] row] col] & <- & H). destruct (tri_entries_bounds _ _ _ _ H) as [(A & B & C & D) L].
    destruct (swapped_lower (face_vertex e) i k row col a b) as (r & c & E & Q & (v & Hv & Hr)); try assumption; [apply face_inj; [apply DT; exact He|exact A|exact B]|].
    exists r, c. split; [exact E|]. split; [exact Q|]. assert (v < n)%nat; [|lia]. destruct (RT e He) as (R0 & R1 & R2). cbn [In] in Hv. destruct Hv as [<-|[<-|[]]]; [destruct i as [|[|i]]|destruct k as [|[|k]]]; assumption.
  - assert (V : forall i, (i < 4)%nat -> (edge_vert (di_edge e) (sh_faces S) i < n)%nat). { intros i Hi. apply (RE e); [exact He|]. unfold edge_vertices. apply in_map. destruct i as [|[|[|[|i]]]]; cbn; try lia; auto. }
    unfold edge_indices in H. apply in_app_or in H. destruct H as [H|H]; apply in_map_iff in H.
    + destruct H as ([[[i row] col] q] & <- & H). destruct (edge_diag_bounds _ _ _ _ H) as (A & B & C & _ & D). eexists _, _. split; [reflexivity|]. specialize (V i A). lia.
    + destruct H as ([[[i k] q] [row col]] & <- & H). destruct (edge_lower_bounds _ _ _ _ _ H) as (A & B & C & D & _). destruct (swapped_lower (edge_vert (di_edge e) (sh_faces S)) i k row col a b) as (r & c & E & Q & (v & Hv & Hr)); try assumption.
      * apply edge_inj; [apply DE; exact He|lia|lia].
      * apply lower_spec. left. lia.
      * exists r, c. split; [exact E|]. split; [exact Q|]. assert (v < n)%nat; [|lia]. cbn [In] in Hv. destruct Hv as [<-|[<-|[]]]; apply V; lia.
Qed.

(** * Diagonal *)
Lemma scatter_guarded_nth ps c j : forall l, (c < length l)%nat ->
  v3_get (nth c (scatter_guarded ps l) v3_0) j = v3_get (nth c l v3_0) j + rsum (map (fun p => if Nat.eqb (fst p) c then v3_get (snd p) j else 0) ps).
Proof.
  unfold scatter_guarded. induction ps as [|p ps IH]; intros l H; [cbn [fold_left map]; rewrite rsum_nil; ring|]. cbn [fold_left map]. rewrite IH by (rewrite add_if_present_length; exact H). rewrite add_if_present_nth, rsum_cons.
  apply Nat.ltb_lt in H. rewrite H, andb_true_r. destruct (Nat.eqb (fst p) c); [rewrite v3_get_add|]; ring.
Qed.
Definition diag_term (p : nat) (t : nat * nat * R) : R := let '(r, c, h) := t in if andb (Nat.eqb r p) (Nat.eqb c p) then h else 0.
Lemma diag_swapped vf n k row col c j h : inj_on vf n k -> (row < 3)%nat -> (col < 3)%nat -> (j < 3)%nat ->
  diag_term (3 * c + j) (swapped_index (vf n) (vf k) row col 0 0, h) = if (Nat.eqb n k && Nat.eqb row col && Nat.eqb row j && Nat.eqb (vf n) c)%bool then h else 0.
Proof.
  intros I Hr Hc Hj. unfold diag_term, swapped_index. rewrite !Nat.add_0_r.
  assert (E : (Nat.eqb (3 * vf n + row) (3 * c + j) && Nat.eqb (3 * vf k + col) (3 * c + j))%bool = (Nat.eqb n k && Nat.eqb row col && Nat.eqb row j && Nat.eqb (vf n) c)%bool).
  { apply eq_true_iff_eq. rewrite !andb_true_iff, !Nat.eqb_eq. split.
    - intros [A B]. apply coord_inj in A as [A1 A2]; [|assumption|assumption]. apply coord_inj in B as [B1 B2]; [|assumption|assumption]. assert (n = k) by (apply I; congruence). subst; auto.
    - intros [[[-> ->] ->] <-]. split; reflexivity. }
  destruct (Nat.ltb (vf n) (vf k)); [rewrite andb_comm|]; rewrite E; reflexivity.
Qed.
Lemma tri_diag_get t s x i j : (i < 3)%nat -> (j < 3)%nat -> v3_get (tri_diagonal t s x i) j = tri_value t s x (i, i, j, j).
Proof.
  intros Hi Hj. unfold tri_diagonal, tri_value. cbv zeta. destruct i as [|[|[|i]]]; try lia; destruct j as [|[|[|j]]]; try lia; cbn; ring.
Qed.
Lemma edge_diag_get d faces s x i j : (i < 4)%nat -> (j < 3)%nat -> v3_get (edge_diagonal d faces s x i) j = s * bending_entry d x faces i i j j.
Proof.
  intros Hi Hj. unfold edge_diagonal, bending_entry, stored_entry. cbv zeta. rewrite Nat.eqb_refl, Nat.leb_refl, !tet_get_row. generalize (tet_row (edge_angle_gradient (di_edge d) x faces) i), (nth i (fst (edge_angle_hessian (di_edge d) x faces)) []).
  intros [a b c] h. destruct j as [|[|[|j]]]; try lia; cbn; ring.
Qed.
Lemma tri_diag_local (h : nat * nat * nat * nat -> R) (vf : nat -> nat) c j : (j < 3)%nat ->
  rsum (map (fun p => let '(n, k, row, col) := p in if (Nat.eqb n k && Nat.eqb row col && Nat.eqb row j && Nat.eqb (vf n) c)%bool then h p else 0) tri_entries) =
  rsum (map (fun i => if Nat.eqb (vf i) c then h (i, i, j, j) else 0) [0; 1; 2]%nat).
Proof.
  intros Hj. change tri_entries with (ltac:(let l := eval vm_compute in tri_entries in exact l)). destruct j as [|[|[|j]]]; try lia; cbv [map Nat.eqb andb]; fold Nat.eqb; rewrite !rsum_cons, rsum_nil; ring.
Qed.
Lemma edge_diag_local (h : nat -> nat -> nat -> R) (vf : nat -> nat) c j : (j < 3)%nat ->
  rsum (map (fun p => let '(v, row, col, _) := p in if (Nat.eqb v v && Nat.eqb row col && Nat.eqb row j && Nat.eqb (vf v) c)%bool then h v row col else 0) edge_diag_entries) =
  rsum (map (fun i => if Nat.eqb (vf i) c then h i j j else 0) [0; 1; 2; 3]%nat).
Proof.
  intros Hj. change edge_diag_entries with (ltac:(let l := eval vm_compute in edge_diag_entries in exact l)). destruct j as [|[|[|j]]]; try lia; cbv [map Nat.eqb andb]; fold Nat.eqb; rewrite !rsum_cons, rsum_nil; ring.
Qed.
Lemma shell_diagonal S scale x l c j : shell_distinct S -> (c < length l)%nat -> (j < 3)%nat ->
  v3_get (nth c (add_shell_hessian_diagonal S scale x l) v3_0) j = v3_get (nth c l v3_0) j + diagonal_sum (combine (shell_hessian_indices S 0 0) (shell_hessian_values S scale x)) (3 * c + j).
Proof.
  intros [DT DE] Hc Hj. unfold add_shell_hessian_diagonal. rewrite scatter_guarded_nth by exact Hc. f_equal. change (diagonal_sum ?ts ?p) with (rsum (map (diag_term p) ts)).
  rewrite shell_triplets, !map_app, !rsum_app, !rsum_flat_map. f_equal; apply rsum_ext.
  - intros t Ht. rewrite !map_map. cbn [fst snd].
    rewrite (rsum_ext (fun p => diag_term (3 * c + j) (tri_index t 0 0 p, tri_value t scale x p)) (fun p => let '(n, k, row, col) := p in if (Nat.eqb n k && Nat.eqb row col && Nat.eqb row j && Nat.eqb (face_vertex t n) c)%bool then tri_value t scale x p else 0)).
    + rewrite tri_diag_local by exact Hj. apply rsum_ext. intros i Hi. rewrite tri_diag_get by (try exact Hj; cbn [In] in Hi; lia). reflexivity.
    + intros [[[n k] row] col] Hp. destruct (tri_entries_bounds n k row col Hp) as [(A & B & C & D) _]. unfold tri_index. apply (diag_swapped (face_vertex t)); try assumption. apply face_inj; [apply DT; exact Ht|exact A|exact B].
  - intros d Hd. rewrite edge_triplets, map_app, rsum_app, !map_map. cbn [fst snd].
    rewrite (rsum_ext _ (fun p => let '(v, row, col, _) := p in if (Nat.eqb v v && Nat.eqb row col && Nat.eqb row j && Nat.eqb (edge_vert (di_edge d) (sh_faces S) v) c)%bool then scale * bending_entry d x (sh_faces S) v v row col else 0) edge_diag_entries).
    rewrite (rsum_zero _ edge_lower_entries).
    + rewrite (edge_diag_local (fun v row col => scale * bending_entry d x (sh_faces S) v v row col)) by exact Hj. rewrite Rplus_0_r. apply rsum_ext. intros i Hi. rewrite edge_diag_get by (try exact Hj; cbn [In] in Hi; lia). reflexivity.
    + intros [[[rv cv] b] [row col]] Hp. destruct (edge_lower_bounds _ _ _ _ _ Hp) as (A & B & C & D & _). rewrite diag_swapped; try assumption; [|apply edge_inj; [apply DE; exact Hd|lia|lia]]. destruct (Nat.eqb_spec rv cv); [lia|reflexivity].
    + intros [[[v row] col] i] Hp. destruct (edge_diag_bounds _ _ _ _ Hp) as (A & B & C & _). apply diag_swapped; try assumption. intros _. reflexivity.
Qed.

(** * Momentum *)
Lemma shell_functional S dqdv x v n g L : additive L -> (forall i, L i v3_0 = 0) -> add_shell_gradient S dqdv x v (repeat v3_0 n) = Some g ->
  lsum L 0 g = rsum (map (fun t => tri_lsum L t (tri_forces t dqdv x v)) (sh_tris S)) + rsum (map (fun d => sum4 (fun i => L (edge_vert (di_edge d) (sh_faces S) i) (tet_row (bending_gradient d x (sh_faces S)) i))) (sh_dihedrals S)).
Proof. intros HA H0 Hg. destruct (scatter_lsum L _ HA _ _ Hg) as [_ E]. rewrite E, lsum_zero by exact H0. rewrite (shell_lsum L) by exact HA. ring. Qed.
Lemma tri_forces_total t dqdv x v : tri_total (tri_forces t dqdv x v) = v3_0.
Proof.
  destruct (tri_gradient_torque (f_DX_inv t) (f_area t) (f_lambda t) (f_mu t) (tri_gather t x)) as [_ T]. unfold tri_forces. cbv zeta. change (tri_elem_of t (tri_gather t x)) with (at_tri (f_DX_inv t) (f_area t) (f_lambda t) (f_mu t) (tri_gather t x)).
  revert T. generalize (tri_gradient (at_tri (f_DX_inv t) (f_area t) (f_lambda t) (f_mu t) (tri_gather t x))), (m23_scale (f_mu t * f_area t * f_damping t) (m2_m23 (m2_transpose (f_DX_inv t)) (m23_scale dqdv (tri_dF (at_tri (f_DX_inv t) (f_area t) (f_lambda t) (f_mu t) (tri_gather t x)) (tri_gather t v))))).
  clear. intros g D. d2. un2. intros H. injection H as H1 H2 H3. apply v3_ext; lra.
Qed.
Lemma tri_forces_torque t dqdv x v : f_damping t = 0 -> tri_torque (tri_gather t x) (tri_forces t dqdv x v) = v3_0.
Proof.
  intros H0. destruct (tri_gradient_torque (f_DX_inv t) (f_area t) (f_lambda t) (f_mu t) (tri_gather t x)) as [T _]. unfold tri_forces. cbv zeta. change (tri_elem_of t (tri_gather t x)) with (at_tri (f_DX_inv t) (f_area t) (f_lambda t) (f_mu t) (tri_gather t x)).
  rewrite H0, Rmult_0_r. revert T. generalize (tri_gradient (at_tri (f_DX_inv t) (f_area t) (f_lambda t) (f_mu t) (tri_gather t x))), (m2_m23 (m2_transpose (f_DX_inv t)) (m23_scale dqdv (tri_dF (at_tri (f_DX_inv t) (f_area t) (f_lambda t) (f_mu t) (tri_gather t x)) (tri_gather t v)))), (tri_gather t x).
  clear. intros g D q. d2. un2. intros H. injection H as H1 H2 H3. apply v3_ext; lra.
Qed.
Lemma bending_balance d x faces : valid_edge (di_edge d) faces -> tet_total (bending_gradient d x faces) = v3_0 /\ tet_torque (corners (di_edge d) x faces) (bending_gradient d x faces) = v3_0.
Proof.
  intros V. destruct (angle_gradient_balance (di_edge d) x faces V) as [A B]. unfold bending_gradient. revert A B. generalize (edge_angle_gradient (di_edge d) x faces), (corners (di_edge d) x faces), (bending_dw d x faces). clear. intros g c k. unfold tet_total, tet_torque, tet_scale. dm. unm.
  intros A B. injection A as A1 A2 A3. injection B as B1 B2 B3. split; f_equal.
  all: match goal with
    | |- ?l = 0 => first [ replace l with (k * 0) by (rewrite <- A1; ring) ; ring | replace l with (k * 0) by (rewrite <- A2; ring); ring | replace l with (k * 0) by (rewrite <- A3; ring); ring
                       | replace l with (k * 0) by (rewrite <- B1; ring); ring | replace l with (k * 0) by (rewrite <- B2; ring); ring | replace l with (k * 0) by (rewrite <- B3; ring); ring ] end.
Qed.
Lemma shell_momentum S dqdv x v n g : (forall d, In d (sh_dihedrals S) -> valid_edge (di_edge d) (sh_faces S)) -> add_shell_gradient S dqdv x v (repeat v3_0 n) = Some g ->
  v3_total g = v3_0 /\ ((forall t, In t (sh_tris S) -> f_damping t = 0) -> torque x g = v3_0).
Proof.
  intros HV Hg. split; [rewrite total_lsum|intros H0; rewrite torque_lsum]; unfold v3_0; apply v3_ext;
    (erewrite shell_functional; [|intros i a b; try destruct (x i); destruct a, b; unm; ring|intros i; try destruct (x i); unm; ring|exact Hg]);
    (rewrite !rsum_zero; [ring| |]).
  1,3,5: intros d Hd; destruct (bending_balance d x (sh_faces S) (HV d Hd)) as [T _]; unfold tet_total in T; unfold sum4, tet_row; generalize dependent (bending_gradient d x (sh_faces S)); clear; intros; dm; revert T; unm; intros T; injection T as T1 T2 T3; assumption.
  1-3: intros t Ht; pose proof (tri_forces_total t dqdv x v) as T; unfold tri_lsum; generalize dependent (tri_forces t dqdv x v); clear; intros; d2; revert T; un2; intros T; injection T as T1 T2 T3; assumption.
  1,3,5: intros d Hd; destruct (bending_balance d x (sh_faces S) (HV d Hd)) as [_ T]; unfold tet_torque, corners in T; unfold sum4, tet_row; generalize dependent (bending_gradient d x (sh_faces S)); cbn [t0 t1 t2 t3];
    generalize (x (edge_vert (di_edge d) (sh_faces S) 0)), (x (edge_vert (di_edge d) (sh_faces S) 1)), (x (edge_vert (di_edge d) (sh_faces S) 2)), (x (edge_vert (di_edge d) (sh_faces S) 3)); clear; intros; dm; revert T; unm; intros T; injection T as T1 T2 T3; assumption.
  1-3: intros t Ht; pose proof (tri_forces_torque t dqdv x v (H0 t Ht)) as T; unfold tri_torque, tri_gather in T; cbn [q0 q1 q2] in T; unfold tri_lsum; generalize dependent (tri_forces t dqdv x v); generalize (x (f_0 t)), (x (f_1 t)), (x (f_2 t)); clear; intros; d2; revert T; un2; intros T; injection T as T1 T2 T3; assumption.
Qed.

(** * Damping *)
Lemma damping_power S dqdv x v n g g' : add_shell_gradient S dqdv x v (repeat v3_0 n) = Some g -> add_shell_gradient (undamped_shell S) dqdv x v (repeat v3_0 n) = Some g' ->
  power g v = power g' v + dqdv * rsum (map (fun t => let dF := m2_m23 (f_DX_inv t) (tri_shape (tri_gather t v)) in f_mu t * f_area t * f_damping t * m23_inner dF dF) (sh_tris S)).
Proof.
  intros Hg Hg'. assert (HA : additive (fun i a => v3_dot a (v i))) by (intros i a b; destruct a, b, (v i); unm; ring). assert (H0 : forall i, v3_dot v3_0 (v i) = 0) by (intros i; destruct (v i); unm; ring).
  rewrite !power_lsum. rewrite (shell_functional S dqdv x v n g _ HA H0 Hg), (shell_functional _ dqdv x v n g' _ HA H0 Hg'). cbn [sh_tris sh_dihedrals sh_faces undamped_shell]. rewrite map_map.
  match goal with |- ?a + ?b = ?c + ?b + ?d => enough (a = c + d) by lra end. rewrite <- rsum_scale, <- rsum_plus. apply rsum_ext. intros t _. cbv zeta. unfold tri_lsum. cbn [f_0 f_1 f_2 undamped_tri].
  unfold tri_forces. cbv zeta. change (tri_elem_of (undamped_tri t) (tri_gather (undamped_tri t) x)) with (tri_elem_of t (tri_gather t x)). rewrite !tri_dF_at. change (tri_gather (undamped_tri t) v) with (tri_gather t v). cbn [f_mu f_area f_damping f_DX_inv undamped_tri].
  generalize (tri_gradient (tri_elem_of t (tri_gather t x))). unfold tri_gather. generalize (v (f_0 t)), (v (f_1 t)), (v (f_2 t)), (f_DX_inv t). clear. intros. d2. un3. ring.
Qed.

(** * Rigid motions and tracking *)
Lemma det_rows_rot Q a b c : m3_det Q = 1 -> v3_dot (m3_mulv Q c) (v3_cross (m3_mulv Q a) (m3_mulv Q b)) = v3_dot c (v3_cross a b).
Proof.
  intros H. transitivity (m3_det Q * v3_dot c (v3_cross a b)); [|rewrite H; ring]. clear H. destruct Q as [[] [] []], a, b, c. unm. ring.
Qed.
Lemma sub_rigid Q c a b : v3_sub (rigid Q c a) (rigid Q c b) = m3_mulv Q (v3_sub a b).
Proof. destruct Q as [[] [] []], a, b, c. unfold rigid. unm. f_equal; ring. Qed.
Lemma cos_dots u v w : v3_dot (v3_cross u v) (v3_cross w u) = v3_dot u w * v3_dot v u - v3_dot u u * v3_dot v w.
Proof. destruct u, v, w. unm. ring. Qed.
Lemma edge_angle_rigid e pos faces Q c : valid_edge e faces -> rotation Q -> edge_angle e (fun i => rigid Q c (pos i)) faces = edge_angle e pos faces.
Proof.
  intros V [O D]. apply left_right_inverse in O. rewrite !edge_angle_corners by exact V. unfold sine, cosine, normal0, normal1, along, side0, side1, corners. cbn [t0 t1 t2 t3]. rewrite !sub_rigid.
  rewrite !cos_dots, det_rows_rot by exact D. unfold v3_norm. rewrite !(rows_orth Q) by exact O. reflexivity.
Qed.
Lemma incremental_rigid e r pos faces Q c : valid_edge e faces -> rotation Q -> incremental_angle e r (fun i => rigid Q c (pos i)) faces = incremental_angle e r pos faces.
Proof. intros V H. unfold incremental_angle. rewrite edge_angle_rigid by assumption. reflexivity. Qed.
Lemma shell_energy_rigid S dqdv x v Q c : (forall d, In d (sh_dihedrals S) -> valid_edge (di_edge d) (sh_faces S)) -> rotation Q ->
  shell_energy S dqdv (fun i => rigid Q c (x i)) (fun i => m3_mulv Q (v i)) = shell_energy S dqdv x v.
Proof.
  intros HV HQ. unfold shell_energy. f_equal; f_equal; apply map_ext_in.
  - intros t _. unfold membrane_energy. cbv zeta. rewrite !tri_dF_at.
    change (tri_elem_of t (tri_gather t (fun i => rigid Q c (x i)))) with (at_tri (f_DX_inv t) (f_area t) (f_lambda t) (f_mu t) (tri_map (rigid Q c) (tri_gather t x))). rewrite tri_energy_rigid by apply HQ.
    change (at_tri (f_DX_inv t) (f_area t) (f_lambda t) (f_mu t) (tri_gather t x)) with (tri_elem_of t (tri_gather t x)).
    assert (E : m2_m23 (f_DX_inv t) (tri_shape (tri_gather t (fun i => m3_mulv Q (v i)))) = m23_map (m3_mulv Q) (m2_m23 (f_DX_inv t) (tri_shape (tri_gather t v)))).
    { unfold tri_gather, m23_map. generalize (v (f_0 t)), (v (f_1 t)), (v (f_2 t)), (f_DX_inv t). clear. intros a b c B. destruct Q as [[] [] []]. d2. un2. unm. un2. apply m23_ext; ring. }
    rewrite E. unfold m23_map. cbn [w0 w1]. rewrite !rows_orth by (apply left_right_inverse; apply HQ). reflexivity.
  - intros d Hd. f_equal. unfold bending_energy. rewrite incremental_rigid by (try exact HQ; apply HV; exact Hd). reflexivity.
Qed.
Lemma incremental_idem e r x faces : incremental_angle e (incremental_angle e r x faces) x faces = incremental_angle e r x faces.
Proof.
  destruct (incremental_spec e (incremental_angle e r x faces) x faces) as [A B]. destruct (incremental_spec e r x faces) as [C _]. pose proof PI_RGT_0. apply same_angle_close; [|lra].
  destruct A as [k A], C as [m C]. exists (k - m)%Z. rewrite minus_IZR. lra.
Qed.
