From Coq Require Import Reals List Arith Bool Lra Lia Psatz.
From Coquelicot Require Import Coquelicot.
From Verif Require Import Calc Vec3 Mat3 RList ElasticModel ElasticSpec ElasticProofs ElasticMeshProofs.
Import ListNotations.
Local Open Scope R_scope.

(** * Balance of a mesh *)
Lemma tet_total_lsum s g : tet_total g = v3_0 -> tet_lsum (fun _ a => vx a) s g = 0 /\ tet_lsum (fun _ a => vy a) s g = 0 /\ tet_lsum (fun _ a => vz a) s g = 0.
Proof.
  intros H. unfold tet_lsum. unfold tet_total, v3_0 in H. destruct g as [[] [] [] []]. unfold v3_add in H. cbn in H. injection H as H1 H2 H3. cbn. lra.
Qed.
Lemma damped_total M s dqdv x v g : balanced_model M -> tet_gradient_with_damping M s dqdv x v = Some g -> tet_total g = v3_0.
Proof.
  intros HM Hg. unfold tet_gradient_with_damping in Hg. cbv zeta in Hg. change (elem_of s (gather s x)) with (at_shape (s_DX_inv s) (s_vol s) (s_lambda s) (s_mu s) (gather s x)) in Hg.
  destruct (m_gradient M (at_shape (s_DX_inv s) (s_vol s) (s_lambda s) (s_mu s) (gather s x))) as [h|] eqn:E; [|discriminate Hg]. injection Hg as <-. destruct (HM _ _ _ _ _ _ E) as [H _].
  generalize (m_product M (elem_of s (tet_sub (gather s x) (tet_scale dqdv (gather s v)))) (gather s v)). intros P. revert H. unfold tet_total. destruct h as [[] [] [] []], P as [[] [] []].
  unm. intros H. injection H as H1 H2 H3. f_equal; lra.
Qed.
Lemma undamped_torque M s dqdv x v g : balanced_model M -> s_damping s = 0 -> tet_gradient_with_damping M s dqdv x v = Some g -> tet_torque (gather s x) g = v3_0.
Proof.
  intros HM H0 Hg. unfold tet_gradient_with_damping in Hg. cbv zeta in Hg. change (elem_of s (gather s x)) with (at_shape (s_DX_inv s) (s_vol s) (s_lambda s) (s_mu s) (gather s x)) in Hg.
  destruct (m_gradient M (at_shape (s_DX_inv s) (s_vol s) (s_lambda s) (s_mu s) (gather s x))) as [h|] eqn:E; [|discriminate Hg]. injection Hg as <-. destruct (HM _ _ _ _ _ _ E) as [_ H]. rewrite H0.
  generalize (m_product M (elem_of s (tet_sub (gather s x) (tet_scale dqdv (gather s v)))) (gather s v)). intros P. revert H. generalize (gather s x). unfold tet_torque. intros y.
  destruct h as [[] [] [] []], P as [[] [] []], y as [[] [] [] []]. unm. intros H. injection H as H1 H2 H3. f_equal; [etransitivity; [|exact H1]|etransitivity; [|exact H2]|etransitivity; [|exact H3]]; ring.
Qed.
Lemma mesh_lsum_zero L M ss dqdv x v : (forall s g, In s ss -> tet_gradient_with_damping M s dqdv x v = Some g -> tet_lsum L s g = 0) -> mesh_lsum L M ss dqdv x v = 0.
Proof.
  induction ss as [|s ss IH]; intros H; [reflexivity|]. simpl. rewrite IH by (intros s' g Hs; apply H; right; exact Hs).
  destruct (tet_gradient_with_damping M s dqdv x v) as [g|] eqn:E; [rewrite (H s g (or_introl eq_refl) E)|]; ring.
Qed.
Lemma mesh_total M ss dqdv x v n g : balanced_model M -> add_mesh_gradient M ss dqdv x v (repeat v3_0 n) = Some g -> v3_total g = v3_0.
Proof.
  intros HM H. rewrite total_lsum.
  assert (HL : forall L, additive L -> (forall i, L i v3_0 = 0) -> (forall s t, In s ss -> tet_gradient_with_damping M s dqdv x v = Some t -> tet_lsum L s t = 0) -> lsum L 0 g = 0).
  { intros L HA HZ HS. destruct (mesh_scatter L M ss dqdv x v HA _ _ H) as (_ & B & _). rewrite B, lsum_zero, mesh_lsum_zero by assumption. ring. }
  unfold v3_0. f_equal; apply HL; try (intros i a b; destruct a, b; reflexivity); try reflexivity; intros s t Hs Ht; destruct (tet_total_lsum s t (damped_total M s dqdv x v t HM Ht)) as (A & B & C); assumption.
Qed.
Lemma mesh_torque M ss dqdv x v n g : balanced_model M -> (forall s, In s ss -> s_damping s = 0) -> add_mesh_gradient M ss dqdv x v (repeat v3_0 n) = Some g -> torque x g = v3_0.
Proof.
  intros HM H0 H. rewrite torque_lsum.
  assert (HL : forall L, additive L -> (forall i, L i v3_0 = 0) -> (forall s t, In s ss -> tet_gradient_with_damping M s dqdv x v = Some t -> tet_lsum L s t = 0) -> lsum L 0 g = 0).
  { intros L HA HZ HS. destruct (mesh_scatter L M ss dqdv x v HA _ _ H) as (_ & B & _). rewrite B, lsum_zero, mesh_lsum_zero by assumption. ring. }
  assert (HT : forall s t, In s ss -> tet_gradient_with_damping M s dqdv x v = Some t -> tet_torque (gather s x) t = v3_0) by (intros s t Hs Ht; exact (undamped_torque M s dqdv x v t HM (H0 s Hs) Ht)).
  unfold v3_0. f_equal; apply HL; try (intros i a b; destruct (x i), a, b; unm; ring); try (intros i; destruct (x i); unm; ring);
    intros s t Hs Ht; specialize (HT s t Hs Ht); unfold tet_torque, gather in HT; unfold tet_lsum; cbn [t0 t1 t2 t3] in HT;
    destruct t as [[] [] [] []], (x (c0 s)), (x (c1 s)), (x (c2 s)), (x (c3 s)); revert HT; unm; intros HT; injection HT as H1 H2 H3; lra.
Qed.
Lemma mesh_gradient_exists M ss dqdv x v : (forall s, In s ss -> exists g, tet_gradient_with_damping M s dqdv x v = Some g) ->
  forall l, (forall s, In s ss -> in_range (length l) s) -> exists g, add_mesh_gradient M ss dqdv x v l = Some g /\ length g = length l.
Proof.
  induction ss as [|s ss IH]; intros Hg l Hr; [exists l; split; reflexivity|]. simpl. destruct (Hg s (or_introl eq_refl)) as [g E]. rewrite E. simpl.
  destruct (add_tet_some l s g (Hr s (or_introl eq_refl))) as (l' & E' & L). rewrite E'. simpl. rewrite <- L.
  apply IH; [intros s' Hs; apply Hg; right; exact Hs|]. rewrite L. intros s' Hs. apply Hr. right. exact Hs.
Qed.

(** * Hessian pattern *)
Definition eqb4 (a b : nat * nat * nat * nat) : bool := let '(n, k, i, j) := a in let '(n', k', i', j') := b in Nat.eqb n n' && Nat.eqb k k' && Nat.eqb i i' && Nat.eqb j j'.
Lemma eqb4_eq a b : eqb4 a b = true -> a = b.
Proof. destruct a as [[[n k] i] j], b as [[[n' k'] i'] j']. unfold eqb4. rewrite !andb_true_iff, !Nat.eqb_eq. intros [[[-> ->] ->] ->]. reflexivity. Qed.
Lemma entries_in n k row col : (n < 4)%nat -> (k < 4)%nat -> (row < 3)%nat -> (col < 3)%nat -> lower n k row col = true -> In (n, k, row, col) hessian_entries.
Proof.
  intros Hn Hk Hr Hc Hl. assert (E : existsb (eqb4 (n, k, row, col)) hessian_entries = true).
  { revert Hl. cases_lt; intros Hl; first [discriminate Hl|reflexivity]. }
  apply existsb_exists in E. destruct E as (t & Ht & E). apply eqb4_eq in E. rewrite E. exact Ht.
Qed.
Lemma entries_bounds t : In t hessian_entries -> let '(n, k, row, col) := t in (n < 4)%nat /\ (k < 4)%nat /\ (row < 3)%nat /\ (col < 3)%nat /\ lower n k row col = true.
Proof.
  intros H. assert (E : forallb (fun t => let '(n, k, row, col) := t in Nat.ltb n 4 && Nat.ltb k 4 && Nat.ltb row 3 && Nat.ltb col 3 && lower n k row col) hessian_entries = true) by reflexivity.
  rewrite forallb_forall in E. specialize (E t H). destruct t as [[[n k] row] col]. rewrite !andb_true_iff, !Nat.ltb_lt in E. tauto.
Qed.
Lemma entries_length : length hessian_entries = 78%nat. Proof. reflexivity. Qed.
Lemma indices_length ss a b : length (hessian_indices ss a b) = (78 * length ss)%nat.
Proof. unfold hessian_indices. induction ss as [|s ss IH]; [reflexivity|]. cbn [flat_map]. rewrite app_length, map_length, entries_length, IH. cbn [length]. lia. Qed.
Lemma values_length M ss sc dq x v : length (hessian_values M ss sc dq x v) = (78 * length ss)%nat.
Proof. unfold hessian_values. induction ss as [|s ss IH]; [reflexivity|]. cbn [flat_map]. rewrite app_length, map_length, entries_length, IH. cbn [length]. lia. Qed.
Lemma cell_inj s n k : distinct_vertices s -> (n < 4)%nat -> (k < 4)%nat -> cell_vertex s n = cell_vertex s k -> n = k.
Proof.
  intros Hd Hn Hk He. unfold distinct_vertices in Hd.
  assert (E : forall i, (i < 4)%nat -> nth i [c0 s; c1 s; c2 s; c3 s] 0%nat = cell_vertex s i) by (intros i Hi; cases_lt; reflexivity).
  apply (proj1 (NoDup_nth [c0 s; c1 s; c2 s; c3 s] 0%nat) Hd); [exact Hn|exact Hk|]. rewrite !E by assumption. exact He.
Qed.
Lemma coord_inj a b i j : (i < 3)%nat -> (j < 3)%nat -> (3 * a + i = 3 * b + j)%nat -> a = b /\ i = j.
Proof. intros. lia. Qed.
Lemma lower_total n k i j : lower n k i j = false -> lower k n j i = true.
Proof. unfold lower. rewrite orb_false_iff, orb_true_iff, andb_true_iff, andb_false_iff, Nat.ltb_ge, Nat.ltb_lt, Nat.eqb_eq, Nat.leb_le, Nat.eqb_neq, Nat.leb_gt. lia. Qed.
Lemma lower_spec n k i j : lower n k i j = true <-> (k < n)%nat \/ (k = n /\ j <= i)%nat.
Proof. unfold lower. rewrite orb_true_iff, andb_true_iff, Nat.ltb_lt, Nat.eqb_eq, Nat.leb_le. tauto. Qed.

Lemma index_lower s a b t : distinct_vertices s -> In t hessian_entries -> exists r c, hessian_index s a b t = ((r + a)%nat, (c + b)%nat) /\ (c <= r)%nat.
Proof.
  intros Hd Ht. pose proof (entries_bounds t Ht) as Hb. destruct t as [[[n k] row] col]. destruct Hb as (Hn & Hk & Hr & Hc & Hl). unfold hessian_index.
  destruct (Nat.ltb_spec (cell_vertex s n) (cell_vertex s k)) as [H|H].
  - exists (3 * cell_vertex s k + col)%nat, (3 * cell_vertex s n + row)%nat. split; [reflexivity|lia].
  - exists (3 * cell_vertex s n + row)%nat, (3 * cell_vertex s k + col)%nat. split; [reflexivity|]. rewrite lower_spec in Hl.
    destruct (Nat.eq_dec (cell_vertex s n) (cell_vertex s k)) as [E|E]; [|lia]. apply (cell_inj s n k Hd Hn Hk) in E. lia.
Qed.
Lemma entry_unique s n k i j : distinct_vertices s -> (n < 4)%nat -> (k < 4)%nat -> (i < 3)%nat -> (j < 3)%nat ->
  (3 * cell_vertex s k + j <= 3 * cell_vertex s n + i)%nat ->
  let t := if lower n k i j then (n, k, i, j) else (k, n, j, i) in
  In t hessian_entries /\ hessian_index s 0 0 t = ((3 * cell_vertex s n + i)%nat, (3 * cell_vertex s k + j)%nat) /\
  forall t', In t' hessian_entries -> hessian_index s 0 0 t' = ((3 * cell_vertex s n + i)%nat, (3 * cell_vertex s k + j)%nat) -> t' = t.
Proof.
  intros Hd Hn Hk Hi Hj Hle. cbv zeta.
  assert (Hc : n = k /\ (j <= i)%nat \/ n <> k /\ (cell_vertex s k < cell_vertex s n)%nat).
  { destruct (Nat.eq_dec n k) as [->|Hnk]; [left; lia|right]. split; [exact Hnk|]. assert (cell_vertex s k <> cell_vertex s n) by (intros E; apply Hnk; symmetry; apply (cell_inj s k n); assumption). lia. }
  split; [|split].
  - destruct (lower n k i j) eqn:E; [apply entries_in; assumption|]. apply entries_in; try assumption. apply lower_total. exact E.
  - destruct (lower n k i j) eqn:E; unfold hessian_index; rewrite !Nat.add_0_r.
    + destruct (Nat.ltb_spec (cell_vertex s n) (cell_vertex s k)) as [H|H]; [|reflexivity]. exfalso. destruct Hc as [[-> _]|[_ Hc]]; lia.
    + destruct (Nat.ltb_spec (cell_vertex s k) (cell_vertex s n)) as [H|H]; [reflexivity|]. exfalso. destruct Hc as [[-> Hc]|[_ Hc]]; [|lia].
      assert (lower k k i j = true) by (apply lower_spec; lia). congruence.
  - intros t' Ht'. pose proof (entries_bounds t' Ht') as Hb. destruct t' as [[[n' k'] i'] j']. destruct Hb as (Hn' & Hk' & Hi' & Hj' & Hl'). unfold hessian_index. rewrite !Nat.add_0_r.
    destruct (Nat.ltb_spec (cell_vertex s n') (cell_vertex s k')) as [H|H]; intros E.
    + apply (f_equal fst) in E as E1. apply (f_equal snd) in E as E2. cbv [fst snd] in E1, E2.
      apply coord_inj in E1 as [A1 ->]; [|assumption|assumption]. apply coord_inj in E2 as [A2 ->]; [|assumption|assumption]. apply (cell_inj s) in A1; [|assumption|assumption|assumption]. apply (cell_inj s) in A2; [|assumption|assumption|assumption]. subst n' k'.
      assert (n <> k) by (intros ->; lia). rewrite lower_spec in Hl'. destruct (lower n k i j) eqn:El; [rewrite lower_spec in El; lia|reflexivity].
    + apply (f_equal fst) in E as E1. apply (f_equal snd) in E as E2. cbv [fst snd] in E1, E2.
      apply coord_inj in E1 as [A1 ->]; [|assumption|assumption]. apply coord_inj in E2 as [A2 ->]; [|assumption|assumption]. apply (cell_inj s) in A1; [|assumption|assumption|assumption]. apply (cell_inj s) in A2; [|assumption|assumption|assumption]. subst n' k'.
      rewrite Hl'. reflexivity.
Qed.

(** * The assembled matrix *)
Lemma coords_at d c j : (j < 3)%nat -> coords d (3 * c + j) = v3_get (d c) j.
Proof.
  intros H. unfold coords. assert (E : (Nat.div (3 * c + j) 3 = c /\ Nat.modulo (3 * c + j) 3 = j)%nat).
  { replace (3 * c + j)%nat with (j + c * 3)%nat by lia. rewrite Nat.div_add, Nat.mod_add, Nat.div_small, Nat.mod_small by lia. lia. }
  destruct E as [-> ->]. reflexivity.
Qed.
Lemma gather_get s d n j : tet_get (gather s d) n j = v3_get (d (cell_vertex s n)) j.
Proof. destruct n as [|[|[|n]]]; reflexivity. Qed.
(** The contribution of one local entry. *)
Definition local_term (H : nat -> nat -> nat -> nat -> R) (y z : tet) (t : nat * nat * nat * nat) : R :=
  let '(n, k, row, col) := t in
  if Nat.eqb n k && Nat.eqb row col then H n k row col * tet_get y n row * tet_get z k col
  else H n k row col * (tet_get y n row * tet_get z k col + tet_get y k col * tet_get z n row).
Lemma local_sum H y z : rsum (map (local_term H y z) hessian_entries) = sum4 (fun n => sum3 (fun row => tet_get y n row * sym_apply H z n row)).
Proof.
  change hessian_entries with (ltac:(let l := eval vm_compute in hessian_entries in exact l)).
  cbv [map local_term Nat.eqb andb sum4 sum3 sym_apply sym_entry lower Nat.ltb Nat.leb orb]. rewrite !rsum_cons, rsum_nil. ring.
Qed.
Lemma form_of_entry s y z t h : distinct_vertices s -> In t hessian_entries ->
  (let '(r, c) := hessian_index s 0 0 t in if Nat.eqb r c then h * coords y r * coords z c else h * (coords y r * coords z c + coords y c * coords z r))
  = local_term (fun _ _ _ _ => h) (gather s y) (gather s z) t.
Proof.
  intros Hd Ht. pose proof (entries_bounds t Ht) as Hb. destruct t as [[[n k] row] col]. destruct Hb as (Hn & Hk & Hr & Hc & Hl). unfold hessian_index, local_term. rewrite !Nat.add_0_r, !gather_get.
  assert (E : Nat.eqb (3 * cell_vertex s n + row) (3 * cell_vertex s k + col) = (Nat.eqb n k && Nat.eqb row col)).
  { destruct (Nat.eqb_spec (3 * cell_vertex s n + row) (3 * cell_vertex s k + col)) as [E|E].
    - apply coord_inj in E as [A ->]; [|assumption|assumption]. apply (cell_inj s) in A; [|assumption|assumption|assumption]. subst. rewrite !Nat.eqb_refl. reflexivity.
    - symmetry. apply andb_false_iff. destruct (Nat.eqb_spec n k) as [->|]; [|left; reflexivity]. right. apply Nat.eqb_neq. intros ->. apply E. reflexivity. }
  destruct (Nat.ltb (cell_vertex s n) (cell_vertex s k)) eqn:Es.
  - rewrite Nat.eqb_sym, E. rewrite !coords_at by assumption. destruct (Nat.eqb n k && Nat.eqb row col) eqn:Ed; [|ring].
    apply andb_true_iff in Ed. destruct Ed as [E1 _]. apply Nat.eqb_eq in E1. subst k. rewrite Nat.ltb_irrefl in Es. discriminate Es.
  - rewrite E. rewrite !coords_at by assumption. reflexivity.
Qed.
Lemma combine_app {A B} (l l' : list A) (m m' : list B) : length l = length m -> combine (l ++ l') (m ++ m') = combine l m ++ combine l' m'.
Proof. revert m. induction l as [|a l IH]; intros [|b m] H; simpl in *; try discriminate; [reflexivity|]. rewrite IH by congruence. reflexivity. Qed.
Lemma combine_map {A B C} (f : A -> B) (g : A -> C) l : combine (map f l) (map g l) = map (fun a => (f a, g a)) l.
Proof. induction l as [|a l IH]; [reflexivity|]. simpl. rewrite IH. reflexivity. Qed.
Lemma mesh_form M ss sc dq x v y z : (forall s, In s ss -> distinct_vertices s) ->
  lower_form (combine (hessian_indices ss 0 0) (hessian_values M ss sc dq x v)) (coords y) (coords z) =
  rsum (map (fun s => rsum (map (local_term (fun n k r c => hessian_value M s sc dq x v (n, k, r, c)) (gather s y) (gather s z)) hessian_entries)) ss).
Proof.
  unfold lower_form, hessian_indices, hessian_values. induction ss as [|s ss IH]; intros H; [reflexivity|]. cbn [flat_map].
  rewrite combine_app by (rewrite !map_length; reflexivity). rewrite map_app, rsum_app. cbn [map]. rewrite rsum_cons. f_equal; [|apply IH; intros s' Hs; apply H; right; exact Hs].
  rewrite combine_map, map_map. apply rsum_ext. intros t Ht. pose proof (form_of_entry s y z t (hessian_value M s sc dq x v t) (H s (or_introl eq_refl)) Ht) as E.
  destruct (hessian_index s 0 0 t) as [r c]. rewrite E. destruct t as [[[n k] row] col]. reflexivity.
Qed.

(** * The assembled matrix is the derivative of the assembled gradient *)
Definition smooth_model (M : tet_model) : Prop :=
  forall B v lam m x d u g, m_gradient M (at_shape B v lam m x) = Some g ->
    locally 0 (fun s => exists g', m_gradient M (at_shape B v lam m (tet_line x d s)) = Some g') /\
    is_derive (fun s => tet_dot (tet_or_zero (m_gradient M (at_shape B v lam m (tet_line x d s)))) u) 0 (tet_dot (close_rows (m_product M (at_shape B v lam m x) d)) u).
Definition block_model (M : tet_model) : Prop :=
  forall B v lam m x d n row, (n < 4)%nat -> (row < 3)%nat -> sym_apply (m_hessian M (at_shape B v lam m x)) d n row = tet_get (close_rows (m_product M (at_shape B v lam m x) d)) n row.
Lemma nh_smooth : smooth_model neo_hookean.
Proof.
  intros B v lam m x d u g Hg. change (nh_gradient (at_shape B v lam m x) = Some g) in Hg. change (m_gradient neo_hookean) with nh_gradient. change (m_product neo_hookean) with nh_product.
  set (F := m3_mul B (shape_matrix x)). set (D := m3_mul B (shape_matrix d)).
  assert (HJ : 0 < m3_det F).
  { unfold nh_gradient in Hg. cbv zeta in Hg. change (deformation_gradient (at_shape B v lam m x)) with F in Hg. destruct (Rle_dec (m3_det F) 0); [discriminate Hg|lra]. }
  assert (Hl : locally 0 (fun s => nh_gradient (at_shape B v lam m (tet_line x d s)) = Some (close_rows (m3_scale v (m3_mul (m3_transpose B) (nh_stress lam m (m3_line F D s))))))).
  { eapply filter_imp; [|exact (det_line_pos F D HJ)]. intros s Hs. cbv beta in Hs. rewrite nh_gradient_some; rewrite elem_gradient_line; [reflexivity|exact Hs]. }
  split; [eapply filter_imp; [|exact Hl]; intros s Hs; eexists; exact Hs|].
  eapply is_derive_ext_loc; [eapply filter_imp; [|exact Hl]; intros s Hs; cbv beta in Hs; rewrite Hs; cbn [tet_or_zero]; symmetry; apply close_rows_dot|].
  rewrite nh_product_pos by exact HJ. change (DX_inv (at_shape B v lam m x)) with B. change (vol (at_shape B v lam m x)) with v. rewrite close_rows_dot.
  apply @is_derive_scal. exact (nh_stress_derive lam m F D (m3_mul B (shape_matrix u)) HJ).
Qed.
Lemma snh_smooth : smooth_model stable_neo_hookean.
Proof.
  intros B v lam m x d u g _. change (m_gradient stable_neo_hookean) with snh_gradient. change (m_product stable_neo_hookean) with snh_product.
  split; [exists (mkposreal 1 Rlt_0_1); intros s _; eexists; reflexivity|].
  apply is_derive_ext with (f := fun s => v * m3_inner (snh_stress lam m (m3_line (m3_mul B (shape_matrix x)) (m3_mul B (shape_matrix d)) s)) (m3_mul B (shape_matrix u))).
  - intros s. unfold snh_gradient. cbn [tet_or_zero]. rewrite elem_gradient_line. symmetry. apply close_rows_dot.
  - rewrite snh_product_eq. change (DX_inv (at_shape B v lam m x)) with B. change (vol (at_shape B v lam m x)) with v. rewrite close_rows_dot. apply @is_derive_scal. apply snh_stress_derive.
Qed.
Lemma sym_apply_0 H d n row : (forall n k r c, H n k r c = 0) -> sym_apply H d n row = 0.
Proof.
  intros H0. assert (E : forall n k r c, sym_entry H n k r c = 0) by (intros; unfold sym_entry; destruct (lower n0 k r c); apply H0).
  unfold sym_apply, sum4, sum3. rewrite !E. ring.
Qed.
Lemma nh_block : block_model neo_hookean.
Proof.
  intros B v lam m x d n row Hn Hr. destruct (Rlt_dec 0 (m3_det (m3_mul B (shape_matrix x)))) as [HJ|HJ]; [exact (nh_blocks B v lam m x d n row HJ Hn Hr)|].
  change (m_hessian neo_hookean) with nh_hessian. change (m_product neo_hookean) with nh_product. rewrite sym_apply_0.
  - unfold nh_product. cbv zeta. change (deformation_gradient (at_shape B v lam m x)) with (m3_mul B (shape_matrix x)). destruct (Rlt_dec 0 (m3_det (m3_mul B (shape_matrix x)))); [contradiction|].
    cases_lt; unm; cbv [tet_get v3_get]; cbn; ring.
  - intros. unfold nh_hessian. change (deformation_gradient (at_shape B v lam m x)) with (m3_mul B (shape_matrix x)). destruct (Rle_dec (m3_det (m3_mul B (shape_matrix x))) 0); [reflexivity|lra].
Qed.
Lemma snh_block : block_model stable_neo_hookean.
Proof. intros B v lam m x d n row Hn Hr. apply snh_blocks; assumption. Qed.

Lemma tet_dot_get a b : sum4 (fun n => sum3 (fun row => tet_get b n row * tet_get a n row)) = tet_dot a b.
Proof. destruct a as [[] [] [] []], b as [[] [] [] []]. cbv [sum4 sum3 tet_get v3_get]. unm. ring. Qed.
Lemma sym_apply_combine H1 H2 a sc d n row : sym_apply (fun n k r c => (H1 n k r c + H2 n k r c * a) * sc) d n row = (sym_apply H1 d n row + sym_apply H2 d n row * a) * sc.
Proof.
  assert (E : forall n k r c, sym_entry (fun n k r c => (H1 n k r c + H2 n k r c * a) * sc) n k r c = (sym_entry H1 n k r c + sym_entry H2 n k r c * a) * sc)
    by (intros; unfold sym_entry; destruct (lower n0 k r c); reflexivity).
  unfold sym_apply, sum4, sum3. rewrite !E. ring.
Qed.
(** The matrix of one element as a bilinear form. *)
Definition tet_form (M : tet_model) (s : solid_tet) (dqdv : R) (x v y z : nat -> v3) : R :=
  let tx := gather s x in let tx0 := tet_sub tx (tet_scale dqdv (gather s v)) in
  tet_dot (close_rows (m_product M (elem_of s tx) (gather s z))) (gather s y) + s_damping s * tet_dot (close_rows (m_product M (elem_of s tx0) (gather s z))) (gather s y).
Lemma sum43_ext f g : (forall n row, (n < 4)%nat -> (row < 3)%nat -> f n row = g n row) -> sum4 (fun n => sum3 (f n)) = sum4 (fun n => sum3 (g n)).
Proof. intros H. unfold sum4, sum3. rewrite !H by lia. reflexivity. Qed.
Lemma mesh_form_tets M ss sc dq x v y z : block_model M -> (forall s, In s ss -> distinct_vertices s) ->
  lower_form (combine (hessian_indices ss 0 0) (hessian_values M ss sc dq x v)) (coords y) (coords z) = sc * rsum (map (fun s => tet_form M s dq x v y z) ss).
Proof.
  intros HM Hd. rewrite mesh_form by exact Hd. rewrite <- rsum_scale. apply rsum_ext. intros s _. rewrite local_sum. unfold hessian_value, tet_form. cbv zeta.
  set (tx := gather s x). set (tx0 := tet_sub tx (tet_scale dq (gather s v))).
  rewrite <- !tet_dot_get. rewrite (sum43_ext _ (fun n row => sc * (tet_get (gather s y) n row * tet_get (close_rows (m_product M (elem_of s tx) (gather s z))) n row)
     + sc * s_damping s * (tet_get (gather s y) n row * tet_get (close_rows (m_product M (elem_of s tx0) (gather s z))) n row))).
  - unfold sum4, sum3. ring.
  - intros n row Hn Hr. rewrite sym_apply_combine.
    change (elem_of s tx) with (at_shape (s_DX_inv s) (s_vol s) (s_lambda s) (s_mu s) tx). change (elem_of s tx0) with (at_shape (s_DX_inv s) (s_vol s) (s_lambda s) (s_mu s) tx0).
    rewrite !HM by assumption. ring.
Qed.
Lemma tet_force_derive M s dqdv x v w u g : good_model M -> smooth_model M -> tet_gradient_with_damping M s dqdv x v = Some g ->
  locally 0 (fun t => exists g', tet_gradient_with_damping M s dqdv (move x (fun i => v3_scale dqdv (w i)) t) (move v w t) = Some g') /\
  is_derive (fun t => tet_dot (tet_or_zero (tet_gradient_with_damping M s dqdv (move x (fun i => v3_scale dqdv (w i)) t) (move v w t))) (gather s u)) 0 (dqdv * tet_form M s dqdv x v u w).
Proof.
  intros [_ G2] HS Hg. unfold tet_gradient_with_damping in Hg. cbv zeta in Hg.
  change (elem_of s (gather s x)) with (at_shape (s_DX_inv s) (s_vol s) (s_lambda s) (s_mu s) (gather s x)) in Hg.
  set (B := s_DX_inv s) in *. set (vo := s_vol s) in *. set (la := s_lambda s) in *. set (mm := s_mu s) in *.
  destruct (m_gradient M (at_shape B vo la mm (gather s x))) as [h|] eqn:Eh; [|discriminate Hg]. clear Hg.
  set (w' := fun i => v3_scale dqdv (w i)).
  destruct (HS B vo la mm (gather s x) (gather s w') (gather s u) h Eh) as [L1 D1].
  set (x0 := tet_sub (gather s x) (tet_scale dqdv (gather s v))) in *.
  destruct (G2 B vo la mm x0) as (q & Q1 & Q2 & Q3). destruct (G2 B vo la mm (gather s x)) as (p & P1 & P2 & P3).
  assert (HE : locally 0 (fun t => exists g', tet_gradient_with_damping M s dqdv (move x w' t) (move v w t) = Some g' /\
    tet_dot g' (gather s u) = tet_dot (tet_or_zero (m_gradient M (at_shape B vo la mm (tet_line (gather s x) (gather s w') t)))) (gather s u)
      + s_damping s * dqdv * (q (shape_matrix (gather s v)) (shape_matrix (gather s u)) + t * q (shape_matrix (gather s w)) (shape_matrix (gather s u))))).
  { eapply filter_imp; [|exact L1]. intros t [g' Hg']. unfold tet_gradient_with_damping. cbv zeta.
    assert (Hp : tet_sub (gather s (move x w' t)) (tet_scale dqdv (gather s (move v w t))) = x0) by apply prev_const. rewrite !Hp.
    change (elem_of s x0) with (at_shape B vo la mm x0). rewrite (gather_move s v w t), (gather_move s x w' t).
    change (elem_of s (tet_line (gather s x) (gather s w') t)) with (at_shape B vo la mm (tet_line (gather s x) (gather s w') t)). rewrite Hg'. eexists. split; [reflexivity|].
    cbn [tet_or_zero]. rewrite <- Q3, <- shape_line, <- Q1. generalize (m_product M (at_shape B vo la mm x0) (tet_line (gather s v) (gather s w) t)). generalize (gather s u). clear. intros. dm. unm. ring. }
  split; [eapply filter_imp; [|exact HE]; intros t (g' & Ht & _); exists g'; exact Ht|].
  eapply is_derive_ext_loc; [eapply filter_imp; [|exact HE]; intros t (g' & Ht & Hv); cbv beta; rewrite Ht; cbn [tet_or_zero]; symmetry; exact Hv|].
  unfold tet_form. cbv zeta. fold x0. change (elem_of s x0) with (at_shape B vo la mm x0). change (elem_of s (gather s x)) with (at_shape B vo la mm (gather s x)).
  replace (dqdv * _) with (tet_dot (close_rows (m_product M (at_shape B vo la mm (gather s x)) (gather s w'))) (gather s u) + s_damping s * dqdv * q (shape_matrix (gather s w)) (shape_matrix (gather s u))).
  - apply @is_derive_plus; [exact D1|]. apply @is_derive_scal. apply line_0 with (a := q (shape_matrix (gather s v)) (shape_matrix (gather s u))) (c := 0). intros t. ring.
  - rewrite Q1, !P1. unfold w'. change (gather s (fun i => v3_scale dqdv (w i))) with (tet_scale dqdv (gather s w)).
    replace (shape_matrix (tet_scale dqdv (gather s w))) with (m3_line m3_0 (shape_matrix (gather s w)) dqdv) by (generalize (gather s w); clear; intros; dm; unm; apply m3_ext; ring).
    rewrite P3. assert (Z : p m3_0 (shape_matrix (gather s u)) = 0).
    { pose proof (P3 m3_0 m3_0 1 (shape_matrix (gather s u))) as E. replace (m3_line m3_0 m3_0 1) with m3_0 in E by (unm; apply m3_ext; ring). lra. }
    rewrite Z. ring.
Qed.
Lemma tet_lsum_dot s g u : tet_lsum (fun i a => v3_dot a (u i)) s g = tet_dot g (gather s u).
Proof. reflexivity. Qed.
Lemma mesh_force_derive M ss dqdv x v w u : good_model M -> smooth_model M -> (forall s, In s ss -> exists g, tet_gradient_with_damping M s dqdv x v = Some g) ->
  locally 0 (fun t => forall s, In s ss -> exists g, tet_gradient_with_damping M s dqdv (move x (fun i => v3_scale dqdv (w i)) t) (move v w t) = Some g) /\
  is_derive (fun t => mesh_lsum (fun i a => v3_dot a (u i)) M ss dqdv (move x (fun i => v3_scale dqdv (w i)) t) (move v w t)) 0 (dqdv * rsum (map (fun s => tet_form M s dqdv x v u w) ss)).
Proof.
  intros HM HS. induction ss as [|s ss IH]; intros H.
  - split; [exists (mkposreal 1 Rlt_0_1); intros t _ s []|]. simpl. rewrite rsum_nil, Rmult_0_r. apply @is_derive_const.
  - destruct (H s (or_introl eq_refl)) as [g Hg]. destruct (tet_force_derive M s dqdv x v w u g HM HS Hg) as [L1 D1].
    destruct IH as [L2 D2]; [intros s' Hs'; apply H; right; exact Hs'|]. split.
    + eapply filter_imp; [|exact (filter_and _ _ L1 L2)]. intros t [A C] s' [<-|Hs]; [exact A|exact (C s' Hs)].
    + cbn [map]. rewrite rsum_cons, Rmult_plus_distr_l. cbn [mesh_lsum]. apply @is_derive_plus; [|exact D2].
      eapply is_derive_ext; [|exact D1]. intros t. cbv beta.
      destruct (tet_gradient_with_damping M s dqdv (move x (fun i => v3_scale dqdv (w i)) t) (move v w t)) as [g'|]; [rewrite tet_lsum_dot; reflexivity|].
      cbn [tet_or_zero]. generalize (gather s u). intros a. dm. unm. ringR.
Qed.

(** * The assembled diagonal *)
Lemma add_if_present_nth l i g j : nth j (add_if_present l i g) v3_0 = if (Nat.eqb i j && Nat.ltb j (length l))%bool then v3_add (nth j l v3_0) g else nth j l v3_0.
Proof.
  unfold add_if_present. revert i j. induction l as [|a l IH]; intros i j.
  - simpl. rewrite andb_false_r. reflexivity.
  - destruct i as [|i], j as [|j]; try reflexivity; [cbn [add_at]; destruct (add_at l i g); reflexivity|]. specialize (IH i j). cbn [add_at]. destruct (add_at l i g) as [l'|]; cbn [option_map nth length]; change (Nat.ltb (S j) (S (length l))) with (Nat.ltb j (length l)); exact IH.
Qed.
Lemma add_if_present_length l i g : length (add_if_present l i g) = length l.
Proof.
  unfold add_if_present. revert i. induction l as [|a l IH]; intros [|i]; try reflexivity. specialize (IH i). cbn [add_at]. destruct (add_at l i g); cbn [option_map length]; congruence.
Qed.
Definition v3_if (b : bool) (g : v3) : v3 := if b then g else v3_0.
Lemma v3_add_0_r a : v3_add a v3_0 = a.
Proof. destruct a. unm. f_equal; ring. Qed.
Lemma tet_diagonal_nth M s sc dq x v l c : (c < length l)%nat ->
  nth c (fold_left (fun l i => add_if_present l (cell_vertex s i) (tet_diagonal M s sc dq x v i)) (seq 0 4) l) v3_0 =
  v3_add (nth c l v3_0) (v3_add (v3_add (v3_add (v3_if (Nat.eqb (c0 s) c) (tet_diagonal M s sc dq x v 0)) (v3_if (Nat.eqb (c1 s) c) (tet_diagonal M s sc dq x v 1)))
    (v3_if (Nat.eqb (c2 s) c) (tet_diagonal M s sc dq x v 2))) (v3_if (Nat.eqb (c3 s) c) (tet_diagonal M s sc dq x v 3))).
Proof.
  intros H. cbn [seq fold_left]. rewrite !add_if_present_nth, !add_if_present_length. apply Nat.ltb_lt in H. rewrite H, !andb_true_r. cbn [cell_vertex].
  generalize (nth c l v3_0), (tet_diagonal M s sc dq x v 0), (tet_diagonal M s sc dq x v 1), (tet_diagonal M s sc dq x v 2), (tet_diagonal M s sc dq x v 3). intros a b0 b1 b2 b3.
  unfold v3_if. destruct (Nat.eqb (c0 s) c), (Nat.eqb (c1 s) c), (Nat.eqb (c2 s) c), (Nat.eqb (c3 s) c); dm; unm; f_equal; ring.
Qed.
Lemma tet_diagonal_length M s sc dq x v l : length (fold_left (fun l i => add_if_present l (cell_vertex s i) (tet_diagonal M s sc dq x v i)) (seq 0 4) l) = length l.
Proof. cbn [seq fold_left]. rewrite !add_if_present_length. reflexivity. Qed.
Lemma entry_diagonal s t c j : distinct_vertices s -> In t hessian_entries -> (j < 3)%nat ->
  (let '(r, q) := hessian_index s 0 0 t in Nat.eqb r (3 * c + j) && Nat.eqb q (3 * c + j))%bool =
  (let '(n, k, row, col) := t in Nat.eqb n k && Nat.eqb row col && Nat.eqb row j && Nat.eqb (cell_vertex s n) c)%bool.
Proof.
  intros Hd Ht Hj. pose proof (entries_bounds t Ht) as Hb. destruct t as [[[n k] row] col]. destruct Hb as (Hn & Hk & Hr & Hc & Hl). unfold hessian_index. rewrite !Nat.add_0_r.
  apply eq_true_iff_eq. destruct (Nat.ltb (cell_vertex s n) (cell_vertex s k)); rewrite !andb_true_iff, !Nat.eqb_eq.
  all: split; [intros [A B]; apply coord_inj in A as [A1 A2]; [|assumption|assumption]; apply coord_inj in B as [B1 B2]; [|assumption|assumption]; assert (n = k) by (apply (cell_inj s); congruence); subst; auto|intros [[[-> ->] ->] <-]; split; reflexivity].
Qed.
Lemma diagonal_local s (h : nat * nat * nat * nat -> R) c j : distinct_vertices s -> (j < 3)%nat ->
  rsum (map (fun t => let '(r, q) := hessian_index s 0 0 t in if (Nat.eqb r (3 * c + j) && Nat.eqb q (3 * c + j))%bool then h t else 0) hessian_entries) =
  (if Nat.eqb (c0 s) c then h (0, 0, j, j)%nat else 0) + (if Nat.eqb (c1 s) c then h (1, 1, j, j)%nat else 0) + (if Nat.eqb (c2 s) c then h (2, 2, j, j)%nat else 0) + (if Nat.eqb (c3 s) c then h (3, 3, j, j)%nat else 0).
Proof.
  intros Hd Hj. rewrite (rsum_ext _ (fun t => if (let '(n, k, row, col) := t in Nat.eqb n k && Nat.eqb row col && Nat.eqb row j && Nat.eqb (cell_vertex s n) c)%bool then h t else 0)).
  - change hessian_entries with (ltac:(let l := eval vm_compute in hessian_entries in exact l)). cases_lt; cbv [map Nat.eqb andb]; fold Nat.eqb; cbn [cell_vertex]; rewrite !rsum_cons, rsum_nil; ring.
  - intros t Ht. rewrite <- (entry_diagonal s t c j Hd Ht Hj). destruct (hessian_index s 0 0 t) as [r q]. reflexivity.
Qed.
Lemma v3_get_add a b j : v3_get (v3_add a b) j = v3_get a j + v3_get b j.
Proof. destruct a, b, j as [|[|j]]; reflexivity. Qed.
Lemma v3_get_if b (g : v3) j : v3_get (v3_if b g) j = if b then v3_get g j else 0.
Proof. destruct b, j as [|[|j]]; reflexivity. Qed.
Lemma tet_diagonal_get M s sc dq x v i j : (j < 3)%nat -> v3_get (tet_diagonal M s sc dq x v i) j = hessian_value M s sc dq x v (i, i, j, j).
Proof. intros H. cases_lt; reflexivity. Qed.
Lemma mesh_diagonal M ss sc dq x v c j : (forall s, In s ss -> distinct_vertices s) -> (j < 3)%nat -> forall l, (c < length l)%nat ->
  v3_get (nth c (add_mesh_diagonal M ss sc dq x v l) v3_0) j =
  v3_get (nth c l v3_0) j + diagonal_sum (combine (hessian_indices ss 0 0) (hessian_values M ss sc dq x v)) (3 * c + j).
Proof.
  intros Hd Hj. unfold add_mesh_diagonal, diagonal_sum, hessian_indices, hessian_values. induction ss as [|s ss IH]; intros l Hl; [simpl; rewrite rsum_nil; ring|].
  cbn [fold_left flat_map]. rewrite combine_app by (rewrite !map_length; reflexivity). rewrite map_app, rsum_app. rewrite IH by (try (intros s' Hs; apply Hd; right; exact Hs); rewrite tet_diagonal_length; exact Hl).
  rewrite tet_diagonal_nth by exact Hl. rewrite combine_map, map_map. cbv beta.
  rewrite (diagonal_local s (hessian_value M s sc dq x v) c j) by (try assumption; apply Hd; left; reflexivity). rewrite !v3_get_add, !v3_get_if, !tet_diagonal_get by exact Hj. ring.
Qed.

(** * Components *)
Lemma tet_dot_axis g n row : (n < 4)%nat -> (row < 3)%nat -> tet_dot g (tet_axis n row) = tet_get g n row.
Proof. intros Hn Hr. destruct g as [[] [] [] []]. cases_lt; cbv [tet_axis v3_axis tet_get v3_get]; unm; ring. Qed.
Lemma component_derive M B v lam m x d n row g : smooth_model M -> block_model M -> m_gradient M (at_shape B v lam m x) = Some g -> (n < 4)%nat -> (row < 3)%nat ->
  is_derive (fun s => tet_get (tet_or_zero (m_gradient M (at_shape B v lam m (tet_line x d s)))) n row) 0 (tet_get (close_rows (m_product M (at_shape B v lam m x) d)) n row).
Proof.
  intros HS HB Hg Hn Hr. destruct (HS B v lam m x d (tet_axis n row) g Hg) as [_ D]. rewrite tet_dot_axis in D by assumption.
  eapply is_derive_ext; [|exact D]. intros s. cbv beta. apply tet_dot_axis; assumption.
Qed.

(** * Damping *)
Lemma hooke_form lam m D : 0 <= lam -> 0 <= m -> 0 <= m3_inner (hooke lam m D) D.
Proof.
  intros Hl Hm. replace (m3_inner (hooke lam m D) D) with (m / 2 * m3_inner (m3_add D (m3_transpose D)) (m3_add D (m3_transpose D)) + lam * (m3_trace D * m3_trace D)).
  - apply Rplus_le_le_0_compat; apply Rmult_le_pos; try lra; [apply inner_self_nonneg|apply Rle_0_sqr].
  - unfold hooke. destruct D as [[] [] []]. unm. field.
Qed.
Lemma nh_rest_form B v lam m x d : 0 <= v -> 0 <= lam -> 0 <= m -> m3_mul B (shape_matrix x) = m3_I -> 0 <= tet_dot (close_rows (nh_product (at_shape B v lam m x) d)) d.
Proof.
  intros Hv Hl Hm HB. rewrite nh_product_pos; [|change (deformation_gradient (at_shape B v lam m x)) with (m3_mul B (shape_matrix x)); rewrite HB, det_I; lra].
  rewrite close_rows_dot. change (deformation_gradient (at_shape B v lam m x)) with (m3_mul B (shape_matrix x)). rewrite HB.
  change (DX_inv (at_shape B v lam m x)) with B. change (vol (at_shape B v lam m x)) with v. change (lambda (at_shape B v lam m x)) with lam. change (mu (at_shape B v lam m x)) with m.
  change (deformation_gradient_differential (at_shape B v lam m x) d) with (m3_mul B (shape_matrix d)).
  rewrite nh_hooke. apply Rmult_le_pos; [exact Hv|]. apply hooke_form; assumption.
Qed.
Lemma damping_part M s dqdv x v g g' : tet_gradient_with_damping M s dqdv x v = Some g -> tet_gradient_with_damping M (undamped s) dqdv x v = Some g' ->
  forall u, tet_dot g u - tet_dot g' u = s_damping s * dqdv * tet_dot (close_rows (m_product M (elem_of s (tet_sub (gather s x) (tet_scale dqdv (gather s v)))) (gather s v))) u.
Proof.
  unfold tet_gradient_with_damping. cbv zeta. change (gather (undamped s)) with (gather s). change (elem_of (undamped s)) with (elem_of s). change (s_damping (undamped s)) with 0.
  destruct (m_gradient M (elem_of s (gather s x))) as [h|]; [|discriminate]. intros E E' u. injection E as <-. injection E' as <-.
  generalize (m_product M (elem_of s (tet_sub (gather s x) (tet_scale dqdv (gather s v)))) (gather s v)). intros P. dm. unm. ring.
Qed.
