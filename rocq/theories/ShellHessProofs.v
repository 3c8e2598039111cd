From Coq Require Import Reals List Arith Bool Lra Lia Psatz FunctionalExtensionality.
From Coquelicot Require Import Coquelicot.
From Verif Require Import Calc Vec3 Mat3 RList ElasticModel ElasticSpec ElasticProofs ElasticMeshProofs ElasticHessProofs MassProofs VolumeProofs AngleModel AngleSpec AngleProofs AngleHessProofs AngleRefProofs ShellModel ShellSpec ShellProofs ShellMeshProofs.
Import ListNotations.
Local Open Scope R_scope.

Lemma stored_sym h i j r c : stored_entry h i j r c = stored_entry h j i c r.
Proof.
  unfold stored_entry. rewrite (Nat.eqb_sym j i). destruct (Nat.eqb_spec i j) as [->|E].
  - f_equal. destruct (Nat.leb_spec c r), (Nat.leb_spec r c); try lia. assert (c = r) by lia; subst; reflexivity.
  - destruct (Nat.ltb_spec j i), (Nat.ltb_spec i j); try lia; reflexivity.
Qed.
Lemma bending_entry_sym d x faces i j r c : bending_entry d x faces i j r c = bending_entry d x faces j i c r.
Proof. unfold bending_entry. rewrite (stored_sym _ i j). ring. Qed.
Lemma tet_get_row t i r : tet_get t i r = v3_get (tet_row t i) r. Proof. destruct i as [|[|[|i]]]; reflexivity. Qed.
Lemma outer_get a b k r c : m3_get (outer a (v3_scale k b)) r c = k * v3_get a r * v3_get b c.
Proof. destruct a, b, r as [|[|r]], c as [|[|c]]; cbn; ring. Qed.
Lemma diag_entry d x faces v row col i : In (v, row, col, i) edge_diag_entries -> bending_diag d x faces v i = bending_entry d x faces v v row col.
Proof.
  intros H. apply edge_diag_bounds in H. destruct H as (Hv & Hr & Hc & -> & Hl). unfold bending_diag, bending_entry. cbv zeta. rewrite !tet_get_row.
  unfold stored_entry. rewrite Nat.eqb_refl. destruct (Nat.leb_spec col row); [|lia]. generalize (nth (row * (row + 1) / 2 + col) (nth v (fst (edge_angle_hessian (di_edge d) x faces)) []) 0). intros h.
  generalize (tet_row (edge_angle_gradient (di_edge d) x faces) v). intros [a b c]. rewrite (Rmult_comm h). f_equal.
  destruct row as [|[|[|row]]], col as [|[|[|col]]]; try lia; cbn; ring.
Qed.
Lemma lower_entry d x faces rv cv b row col : In (rv, cv, b, (row, col)) edge_lower_entries -> bending_lower d x faces rv cv b row col = bending_entry d x faces rv cv row col.
Proof.
  intros H. apply edge_lower_bounds in H. destruct H as (Hv & Hl & Hr & Hc & E). unfold bending_lower, bending_entry. cbv zeta. rewrite !tet_get_row, outer_get. f_equal.
  unfold stored_entry. destruct (Nat.eqb_spec rv cv); [lia|]. destruct (Nat.ltb_spec cv rv); [|lia]. rewrite <- E. destruct (Nat.eqb_spec b 5) as [B|B]; [|ring].
  assert (L : length (snd (edge_angle_hessian (di_edge d) x faces)) = 5%nat) by (unfold edge_angle_hessian; cbv zeta; destruct (Req_EM_T _ 0); [reflexivity|]; destruct (Req_EM_T _ 0); reflexivity).
  rewrite nth_overflow by lia. destruct row as [|[|row]], col as [|[|col]]; cbn; ring.
Qed.
Lemma damping_sym t n k : damping_entry t n k = damping_entry t k n.
Proof.
  unfold damping_entry. destruct (Nat.eqb n 2) eqn:A, (Nat.eqb k 2) eqn:B; cbn [andb]; try reflexivity.
  unfold tri_ddF, m2_get. cbv zeta. destruct n as [|n], k as [|k]; try reflexivity; destruct (f_DX_inv t); un2; ring.
Qed.
Definition tri_form (t : shell_tri) (x y z : nat -> v3) : R :=
  tri_dot (tri_close (tri_product (tri_elem_of t (tri_gather t x)) (tri_gather t z))) (tri_gather t y)
  + f_area t * f_mu t * f_damping t * m23_inner (m2_m23 (f_DX_inv t) (tri_shape (tri_gather t y))) (m2_m23 (f_DX_inv t) (tri_shape (tri_gather t z))).
Definition edge_form (d : dihedral) (faces : topology) (x y z : nat -> v3) : R :=
  sum4 (fun i => sum3 (fun r => tet_get (corners (di_edge d) y faces) i r * sum4 (fun j => sum3 (fun c => bending_entry d x faces i j r c * tet_get (corners (di_edge d) z faces) j c)))).
Lemma gather_get3 t d n j : (n < 3)%nat -> tri_get (tri_gather t d) n j = v3_get (d (face_vertex t n)) j.
Proof. intros H. destruct n as [|[|[|n]]]; try lia; reflexivity. Qed.
Lemma corners_get e d faces i j : (i < 4)%nat -> tet_get (corners e d faces) i j = v3_get (d (edge_vert e faces i)) j.
Proof. intros H. destruct i as [|[|[|[|n]]]]; try lia; reflexivity. Qed.
Lemma tri_dot_get a b : sum3 (fun n => sum3 (fun row => tri_get b n row * tri_get a n row)) = tri_dot a b.
Proof. d2. cbv [sum3 tri_get v3_get]. un2. ring. Qed.
Lemma tri_values_form t scale x y z : 0 < gram (m2_m23 (f_DX_inv t) (tri_shape (tri_gather t x))) -> let H := fun n k row col => tri_value t scale x (n, k, row, col) in
  sum3 (fun n => sum3 (fun row => v3_get (y (face_vertex t n)) row * sum3 (fun k => sum3 (fun col => sym_entry H n k row col * v3_get (z (face_vertex t k)) col)))) = scale * tri_form t x y z.
Proof.
  intros HP H. set (K := tri_hessian (tri_elem_of t (tri_gather t x))).
  assert (E : forall n k r c, sym_entry H n k r c = (sym_entry K n k r c + (if Nat.eqb r c then damping_entry t n k else 0)) * scale).
  { intros n k r c. unfold H, sym_entry, tri_value. fold K. rewrite (Nat.eqb_sym c r), (damping_sym t k n). destruct (lower n k r c); reflexivity. }
  transitivity (scale * (sum3 (fun n => sum3 (fun row => tri_get (tri_gather t y) n row * tri_sym_apply K (tri_gather t z) n row)) +
    sum3 (fun n => sum3 (fun row => v3_get (y (face_vertex t n)) row * sum3 (fun k => damping_entry t n k * v3_get (z (face_vertex t k)) row))))).
  - unfold tri_sym_apply, sum3. rewrite !gather_get3 by lia. rewrite !E. cbn [Nat.eqb]. generalize (sym_entry K), (damping_entry t). intros k D. ring.
  - f_equal. unfold tri_form. f_equal.
    + rewrite <- tri_dot_get. unfold sum3. unfold K. change (tri_elem_of t (tri_gather t x)) with (at_tri (f_DX_inv t) (f_area t) (f_lambda t) (f_mu t) (tri_gather t x)). rewrite !tri_block by (lia || exact HP). reflexivity.
    + unfold tri_gather, damping_entry, tri_ddF. cbv zeta. cbv [sum3 Nat.eqb andb face_vertex m2_get m2_sum_row m2_sum_inner v3_get].
      generalize (y (f_0 t)), (y (f_1 t)), (y (f_2 t)), (z (f_0 t)), (z (f_1 t)), (z (f_2 t)), (f_DX_inv t). clear. intros. d2. un3. ring.
Qed.
Lemma face_inj t n k : NoDup [f_0 t; f_1 t; f_2 t] -> (n < 3)%nat -> (k < 3)%nat -> inj_on (face_vertex t) n k.
Proof.
  intros H Hn Hk E. inversion H as [|? ? A B]; subst. inversion B as [|? ? C D]; subst. cbn [In] in *.
  destruct n as [|[|[|n]]], k as [|[|[|k]]]; try lia; try reflexivity; cbn [face_vertex] in E; exfalso; auto.
Qed.
Lemma edge_inj e faces n k : NoDup (edge_vertices e faces) -> (n < 4)%nat -> (k < 4)%nat -> inj_on (edge_vert e faces) n k.
Proof.
  intros H Hn Hk E. unfold edge_vertices in H. cbn [map] in H. inversion H as [|? ? A B]; subst. inversion B as [|? ? C D]; subst. inversion D as [|? ? F G]; subst. cbn [In] in *.
  destruct n as [|[|[|[|n]]]], k as [|[|[|[|k]]]]; try lia; try reflexivity; exfalso; auto 10.
Qed.
Lemma edge_indices_length d faces a b : length (edge_indices d faces a b) = 78%nat.
Proof. unfold edge_indices. rewrite app_length, !map_length. reflexivity. Qed.
Lemma edge_values_length d faces s x : length (edge_values d faces s x) = 78%nat.
Proof. unfold edge_values. rewrite app_length, !map_length. reflexivity. Qed.
Lemma shell_triplets S scale x a b : combine (shell_hessian_indices S a b) (shell_hessian_values S scale x) =
  flat_map (fun t => map (fun p => (tri_index t a b p, tri_value t scale x p)) tri_entries) (sh_tris S)
  ++ flat_map (fun d => combine (edge_indices d (sh_faces S) a b) (edge_values d (sh_faces S) scale x)) (sh_dihedrals S).
Proof.
  unfold shell_hessian_indices, shell_hessian_values. rewrite combine_app by (induction (sh_tris S) as [|t l IH]; [reflexivity|]; cbn [flat_map]; rewrite !app_length, !map_length, IH; reflexivity).
  rewrite !combine_flat_map by (intros; first [rewrite !map_length; reflexivity|rewrite edge_indices_length, edge_values_length; reflexivity]). apply (f_equal2 (@app _)); [|reflexivity].
  apply f_equal2; [|reflexivity]. apply functional_extensionality. intros t. apply combine_map.
Qed.
Lemma edge_triplets d faces scale x : combine (edge_indices d faces 0 0) (edge_values d faces scale x) =
  map (fun p => let '(v, row, col, _) := p in (swapped_index (edge_vert (di_edge d) faces v) (edge_vert (di_edge d) faces v) row col 0 0, scale * bending_entry d x faces v v row col)) edge_diag_entries
  ++ map (fun p => let '(rv, cv, _, (row, col)) := p in (swapped_index (edge_vert (di_edge d) faces rv) (edge_vert (di_edge d) faces cv) row col 0 0, scale * bending_entry d x faces rv cv row col)) edge_lower_entries.
Proof.
  unfold edge_indices, edge_values. rewrite combine_app by (rewrite !map_length; reflexivity). rewrite !combine_map. f_equal; apply map_ext_in.
  - intros [[[v row] col] i] Hi. rewrite (diag_entry d x faces v row col i Hi). unfold swapped_index. rewrite Nat.ltb_irrefl. reflexivity.
  - intros [[[rv cv] b] [row col]] Hi. rewrite (lower_entry d x faces rv cv b row col Hi). reflexivity.
Qed.
Lemma shell_form S scale x y z : shell_distinct S -> (forall t, In t (sh_tris S) -> 0 < gram (m2_m23 (f_DX_inv t) (tri_shape (tri_gather t x)))) ->
  lower_form (combine (shell_hessian_indices S 0 0) (shell_hessian_values S scale x)) (coords y) (coords z) =
  scale * (rsum (map (fun t => tri_form t x y z) (sh_tris S)) + rsum (map (fun d => edge_form d (sh_faces S) x y z) (sh_dihedrals S))).
Proof.
  intros [HT HE] HP. rewrite lower_form_terms, shell_triplets, map_app, rsum_app, !rsum_flat_map, Rmult_plus_distr_l, <- !rsum_scale. f_equal; apply rsum_ext.
  - intros t Ht. rewrite map_map. rewrite (rsum_ext _ (fun p => let '(n, k, row, col) := p in gterm (tri_value t scale x (n, k, row, col)) (face_vertex t) y z n k row col)).
    + rewrite (tri_local_sum (fun n k row col => tri_value t scale x (n, k, row, col))). apply tri_values_form. apply HP. exact Ht.
    + intros [[[n k] row] col] Hp. destruct (tri_entries_bounds n k row col Hp) as [(Hn & Hk & Hr & Hc) _]. unfold tri_index. apply form_swapped; try assumption. apply face_inj; try assumption. apply HT. exact Ht.
  - intros d Hd. rewrite edge_triplets, map_app, rsum_app, !map_map.
    rewrite (rsum_ext _ (fun p => let '(v, row, col, _) := p in gterm (scale * bending_entry d x (sh_faces S) v v row col) (edge_vert (di_edge d) (sh_faces S)) y z v v row col)).
    rewrite (rsum_ext _ (fun p => let '(rv, cv, _, (row, col)) := p in gterm (scale * bending_entry d x (sh_faces S) rv cv row col) (edge_vert (di_edge d) (sh_faces S)) y z rv cv row col) edge_lower_entries).
    + rewrite (edge_local_sum (fun i j r c => scale * bending_entry d x (sh_faces S) i j r c)) by (intros; rewrite bending_entry_sym; reflexivity).
      unfold edge_form, sum4, sum3. rewrite !corners_get by lia. ring.
    + intros [[[rv cv] b] [row col]] Hp. destruct (edge_lower_bounds _ _ _ _ _ Hp) as (Hn & Hk & Hr & Hc & _). apply form_swapped; try assumption. apply edge_inj; [apply HE; exact Hd|lia|lia].
    + intros [[[v row] col] i] Hp. destruct (edge_diag_bounds _ _ _ _ Hp) as (Hn & Hr & Hc & _). apply form_swapped; try assumption. intros _. reflexivity.
Qed.
Lemma membrane_force_derive t dqdv x v w u : proper (f_DX_inv t) (tri_gather t x) ->
  is_derive (fun s => tri_dot (tri_forces t dqdv (move x (fun i => v3_scale dqdv (w i)) s) (move v w s)) (tri_gather t u)) 0 (dqdv * tri_form t x u w).
Proof.
  intros HP. set (B := f_DX_inv t). pose proof (tri_force_derive B (f_area t) (f_lambda t) (f_mu t) (tri_gather t x) (tri_gather t (fun i => v3_scale dqdv (w i))) (tri_gather t u) HP) as D.
  set (V := m2_m23 B (tri_shape (tri_gather t v))). set (W := m2_m23 B (tri_shape (tri_gather t w))). set (U := m2_m23 B (tri_shape (tri_gather t u))). set (k := f_area t * f_mu t * f_damping t * dqdv).
  apply is_derive_ext with (fun s => tri_dot (tri_gradient (at_tri B (f_area t) (f_lambda t) (f_mu t) (tri_line (tri_gather t x) (tri_gather t (fun i => v3_scale dqdv (w i))) s))) (tri_gather t u) + k * m23_inner (m23_line V W s) U).
  { intros s. unfold tri_forces. cbv zeta. rewrite tri_dF_at, !tri_gather_move, shape_line2. fold B V W. change (tri_elem_of t ?y) with (at_tri B (f_area t) (f_lambda t) (f_mu t) y).
    generalize (tri_gradient (at_tri B (f_area t) (f_lambda t) (f_mu t) (tri_line (tri_gather t x) (tri_gather t (fun i => v3_scale dqdv (w i))) s))). intros g. unfold U, k. clearbody V W B. generalize (tri_gather t u). clear. intros. d2. un3. ringR. }
  match goal with |- is_derive _ _ ?y => replace y with (tri_dot (tri_close (tri_product (at_tri B (f_area t) (f_lambda t) (f_mu t) (tri_gather t x)) (tri_gather t (fun i => v3_scale dqdv (w i))))) (tri_gather t u) + k * m23_inner W U) end.
  - apply @is_derive_plus; [exact D|]. apply @is_derive_scal. apply line_0 with (a := m23_inner V U) (c := 0). intros s. generalize V, W, U. clear. intros. d2. un3. ring.
  - pose proof (proper_gram B (tri_gather t x) HP) as G. unfold tri_form. change (tri_elem_of t (tri_gather t x)) with (at_tri B (f_area t) (f_lambda t) (f_mu t) (tri_gather t x)). rewrite !tri_product_pos, !close_dot by exact G. fold B U W.
    change (m23_inner (sh_dstress (f_lambda t) (f_mu t) ?F ?D) U) with (stiff (f_lambda t) (f_mu t) F D U). rewrite (stiff_sym _ _ _ _ U), (stiff_sym _ _ _ W U). unfold stiff.
    replace (m2_m23 B (tri_shape (tri_gather t (fun i => v3_scale dqdv (w i))))) with (m23_scale dqdv W) by (unfold W, tri_gather; generalize (w (f_0 t)), (w (f_1 t)), (w (f_2 t)), B; clear; intros; d2; un2; apply m23_ext; ring).
    unfold k. generalize (sh_dstress (f_lambda t) (f_mu t) (m2_m23 B (tri_shape (tri_gather t x))) U). generalize W, U. clear. intros. d2. un3. ring.
Qed.
Lemma shell_force_derive S dqdv x v w u n : shell_in_range n S -> shell_distinct S -> smooth_at S x ->
  exists g : R -> list v3, (forall s, add_shell_gradient S dqdv (move x (fun i => v3_scale dqdv (w i)) s) (move v w s) (repeat v3_0 n) = Some (g s)) /\
    is_derive (fun s => power (g s) u) 0 (dqdv * lower_form (combine (shell_hessian_indices S 0 0) (shell_hessian_values S 1 x)) (coords u) (coords w)).
Proof.
  intros HR HD [HT HE]. set (xx := move x (fun i => v3_scale dqdv (w i))). set (vv := move v w).
  exists (fun s => match add_shell_gradient S dqdv (xx s) (vv s) (repeat v3_0 n) with Some g => g | None => [] end).
  assert (HG : forall s, exists g, add_shell_gradient S dqdv (xx s) (vv s) (repeat v3_0 n) = Some g) by (intros s; destruct (shell_scatter_some S dqdv (xx s) (vv s) n HR) as (g & Hg & _); exists g; exact Hg).
  split; [intros s; destruct (HG s) as [g Hg]; rewrite Hg; reflexivity|].
  assert (HA : additive (fun i a => v3_dot a (u i))) by (intros i a b; destruct a, b, (u i); unfold v3_add, v3_dot; cbn; ring).
  apply is_derive_ext with (fun s => rsum (map (fun t => tri_dot (tri_forces t dqdv (xx s) (vv s)) (tri_gather t u)) (sh_tris S)) + rsum (map (fun d => tet_dot (bending_gradient d (xx s) (sh_faces S)) (corners (di_edge d) u (sh_faces S))) (sh_dihedrals S))).
  { intros s. destruct (HG s) as [g Hg]. rewrite Hg. rewrite (power_scatter _ _ _ u Hg). rewrite (shell_lsum (fun i a => v3_dot a (u i))) by exact HA. reflexivity. }
  rewrite shell_form by (try exact HD; intros t Ht; apply proper_gram, HT, Ht). rewrite Rmult_1_l, Rmult_plus_distr_l, <- !rsum_scale. apply @is_derive_plus.
  - apply (derive_rsum (fun t s => tri_dot (tri_forces t dqdv (xx s) (vv s)) (tri_gather t u)) (fun t => dqdv * tri_form t x u w)). intros t Ht. apply membrane_force_derive. apply HT. exact Ht.
  - apply (derive_rsum (fun d s => tet_dot (bending_gradient d (xx s) (sh_faces S)) (corners (di_edge d) u (sh_faces S))) (fun d => dqdv * edge_form d (sh_faces S) x u w)). intros d Hd. destruct (HE d Hd) as (V & N & W).
    pose proof (bending_force_derive d x (fun i => v3_scale dqdv (w i)) u (sh_faces S) V N W) as D. match type of D with is_derive _ _ ?y => replace (dqdv * edge_form d (sh_faces S) x u w) with y; [exact D|] end.
    unfold edge_form, sum4, sum3. rewrite !corners_get by lia. generalize (bending_entry d x (sh_faces S)). intros E.
    assert (Q : forall j c, v3_get (v3_scale dqdv (w j)) c = dqdv * v3_get (w j) c) by (intros j c; destruct (w j), c as [|[|c]]; reflexivity). rewrite !Q. ring.
Qed.
