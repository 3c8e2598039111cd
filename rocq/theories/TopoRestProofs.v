(** A shell is at rest in the configuration it was built from. *)
From Coq Require Import Reals ZArith List Arith Bool Lra Lia Permutation Sorted.
From Verif Require Import Vec3 Mat3 Calc RList ElasticModel ElasticSpec AngleModel AngleSpec AngleProofs AngleRefProofs ShellModel ShellSpec ShellProofs ShellMeshProofs StateModel UtilModel TopoModel TopoSpec TopoProofs TopoElemProofs ShellProps.
Import ListNotations.
Local Open Scope R_scope.

(** * Zips *)
Lemma in_combine_nth {A B} (l : list A) (r : list B) a b : In (a, b) (combine l r) -> exists k, nth_error l k = Some a /\ nth_error r k = Some b.
Proof.
  revert r. induction l as [|x l IH]; intros r I; [contradiction|]. destruct r as [|y r]; [contradiction|]. cbn [combine In] in I. destruct I as [E|I].
  - injection E as -> ->. exists O. auto.
  - destruct (IH r I) as (k & A1 & A2). exists (S k). auto.
Qed.
Lemma nth_combine {A B} (l : list A) (r : list B) k a b : nth_error (combine l r) k = Some (a, b) <-> nth_error l k = Some a /\ nth_error r k = Some b.
Proof.
  revert r k. induction l as [|x l IH]; intros r k; cbn [combine]; [destruct k; cbn; split; [discriminate | intros [? _]; discriminate | discriminate | intros [? _]; discriminate]|].
  destruct r as [|y r]; [destruct k; cbn; split; try discriminate; intros [_ ?]; discriminate|]. destruct k; cbn [nth_error]; [|apply IH]. split; [intros E; injection E as -> ->; auto | intros [E1 E2]; congruence].
Qed.
Lemma nth_error_map_inv {A B} (f : A -> B) l k b : nth_error (map f l) k = Some b -> exists a, nth_error l k = Some a /\ b = f a.
Proof. rewrite nth_error_map. destruct (nth_error l k); [|discriminate]. cbn. intros E. injection E as <-. eauto. Qed.
Lemma in_shell_tris t T : In t (shell_tris_of T) -> exists k, nth_error (te_triangles T) k = Some (f_0 t, f_1 t, f_2 t) /\ nth_error (te_inv T) k = Some (f_DX_inv t) /\
  nth_error (te_area T) k = Some (f_area t) /\ nth_error (te_lambda T) k = Some (f_lambda t) /\ nth_error (te_mu T) k = Some (f_mu t) /\ nth_error (te_damping T) k = Some (f_damping t).
Proof.
  unfold shell_tris_of. rewrite in_map_iff. intros ([[[a b] c] (inv & area & la & mu & da)] & <- & I). apply In_nth_error in I. destruct I as [k I]. exists k.
  rewrite !nth_combine in I. cbn. tauto.
Qed.
Lemma in_dihedrals d D : In d (dihedrals_of D) -> exists k, nth_error (de_edges D) k = Some (di_edge d) /\ nth_error (de_angles D) k = Some (di_angle d) /\
  nth_error (de_ref_angles D) k = Some (di_ref_angle d) /\ nth_error (de_ref_length D) k = Some (di_ref_length d) /\ nth_error (de_stiffness D) k = Some (di_stiffness d).
Proof.
  unfold dihedrals_of. rewrite in_map_iff. intros ([e (an & ra & le & bs)] & <- & I). apply In_nth_error in I. destruct I as [k I]. exists k. rewrite !nth_combine in I. cbn. tauto.
Qed.
Lemma Forall2_nth_r {A B} (P : A -> B -> Prop) l r k b : Forall2 P l r -> nth_error r k = Some b -> exists a, nth_error l k = Some a /\ P a b.
Proof. intros F. revert k. induction F; intros k E; [destruct k; discriminate|]. destruct k; [injection E as <-; exists x; auto | apply IHF, E]. Qed.

(** * What a built shell consists of *)
Lemma built_tri m materials a vt order S t : corners_below (length vt) (in_cells m) -> build_shell m materials a vt order = Done S -> In t (sh_tris S) ->
  exists f, triangle_at (in_cells m) f (f_0 t, f_1 t, f_2 t) /\ has_movable_corner (in_cells m) vt f /\ 0 < tri_area (ref_tri3 (in_ref_pos m) f) /\
    f_area t = tri_area (ref_tri3 (in_ref_pos m) f) /\ f_DX_inv t = m2_inv (isotropic_shape (tri_shape (ref_tri3 (in_ref_pos m) f))).
Proof.
  intros B E I. unfold build_shell in E. destruct (build_triangles _ _ _ _ _) as [T| |] eqn:ET; cbn [rbind] in E; try discriminate.
  destruct (try_dihedrals _ _ _ _ _) as [D| |]; cbn [rbind] in E; try discriminate. injection E as <-. cbn [sh_tris] in I.
  destruct (build_triangles_done _ _ _ _ _ _ B ET) as (_ & E2 & E3 & P & E4 & _). destruct (in_shell_tris t T I) as (k & N1 & N2 & N3 & _).
  rewrite E2 in N1. rewrite E3 in N3. rewrite E4 in N2. apply nth_error_map_inv in N1. destruct N1 as ([f t'] & N1 & Et). cbn [snd] in Et. subst t'.
  rewrite (map_nth_error _ _ _ (map_nth_error fst _ _ N1)) in N2. rewrite (map_nth_error _ _ _ (map_nth_error fst _ _ N1)) in N3. cbn [fst] in N2, N3. injection N2 as N2. injection N3 as N3.
  pose proof (nth_error_In _ _ N1) as IF. pose proof (proj1 (kept_spec _ _ _ _) IF) as [TA MV]. exists f. split; [exact TA | split; [exact MV | split; [|split; congruence]]].
  apply P. change f with (fst (f, (f_0 t, f_1 t, f_2 t))). apply in_map. exact IF.
Qed.
Lemma built_dihedral m materials a vt order S d : simple (in_cells m) -> corners_below (length vt) (in_cells m) -> Permutation order (edge_table (in_cells m)) ->
  build_shell m materials a vt order = Done S -> In d (sh_dihedrals S) ->
  exists e, valid_edge e (cell_to_vertex (in_cells m)) /\ valid_edge (di_edge d) (sh_faces S) /\
    (forall i, edge_vert (di_edge d) (sh_faces S) i = edge_vert e (cell_to_vertex (in_cells m)) i) /\
    (forall x, edge_angle (di_edge d) x (sh_faces S) = edge_angle e x (cell_to_vertex (in_cells m))) /\
    (exists t0 t1, triangle_at (in_cells m) (face_0 e) t0 /\ triangle_at (in_cells m) (face_1 e) t1) /\ (face_0 e < face_1 e)%nat /\
    di_angle d = edge_angle e (in_pos m) (cell_to_vertex (in_cells m)) /\ di_ref_angle d = edge_ref_angle m e /\ di_ref_length d = edge_ref_length m e /\ di_stiffness d <> 0.
Proof.
  intros SI B PE E I. unfold build_shell in E. destruct (build_triangles _ _ _ _ _) as [T| |] eqn:ET; cbn [rbind] in E; try discriminate.
  destruct (try_dihedrals _ _ _ _ _) as [D| |] eqn:ED; cbn [rbind] in E; try discriminate. injection E as <-. cbn [sh_dihedrals sh_faces] in *.
  destruct (interior_edges_lemma _ _ _ SI B PE) as (es & EE & _ & V & X). unfold try_dihedrals in ED. rewrite EE in ED. cbn [rbind] in ED.
  destruct (cell_stiffness _ _ _ _) as [st| |]; cbn [rbind] in ED; try discriminate. injection ED as <-.
  destruct (build_dihedrals_spec m st es) as (_ & _ & DT & F & A1 & A2 & A3 & A4). set (D := build_dihedrals m st es) in *.
  destruct (in_dihedrals d D I) as (k & N1 & N2 & N3 & N4 & N5). destruct (Forall2_nth_r _ _ _ _ _ F N1) as (e & Ne & (R0 & R1 & R2 & R3) & VE).
  pose proof (nth_error_In _ _ Ne) as Ie. apply filter_In in Ie. destruct Ie as [Ie SE]. specialize (V e Ie).
  rewrite A1 in N2. rewrite (map_nth_error _ _ _ N1) in N2. injection N2 as N2. rewrite A2, (map_nth_error _ _ _ Ne) in N3. rewrite A3, (map_nth_error _ _ _ Ne) in N4. rewrite A4, (map_nth_error _ _ _ Ne) in N5.
  injection N3 as N3. injection N4 as N4. injection N5 as N5.
  assert (C : forall g h, nth_error (de_cells D) g = Some h -> forall i, (i < 3)%nat -> faces_of D g i = cell_to_vertex (in_cells m) h i).
  { intros g h Ng i L. unfold faces_of. rewrite DT. apply face_corners; assumption. }
  assert (AN : forall x, edge_angle (di_edge d) x (faces_of D) = edge_angle e x (cell_to_vertex (in_cells m))) by (intros x; apply congr_angle; [exact R2 | exact R3 | apply C, R0 | apply C, R1]).
  exists e. split; [exact V | split; [apply (congr_valid e _ (cell_to_vertex (in_cells m))); [exact R2 | exact R3 | apply C, R0 | apply C, R1 | exact V] | split; [exact VE | split; [exact AN | split; [|split; [|split; [|split; [|split]]]]]]]].
  - destruct (X (fst (ends (in_cells m) e)) (snd (ends (in_cells m) e)) (face_0 e) (face_1 e)) as [X1 _].
    destruct X1 as (_ & _ & X1 & _); [exists e; rewrite <- surjective_pairing; auto|].
    destruct (proj2 (X1 (face_0 e)) (or_introl eq_refl)) as (u & Tu & _). destruct (proj2 (X1 (face_1 e)) (or_intror eq_refl)) as (w & Tw & _). exists u, w. auto.
  - destruct (X (fst (ends (in_cells m) e)) (snd (ends (in_cells m) e)) (face_0 e) (face_1 e)) as [X1 _].
    destruct X1 as (_ & L & _); [exists e; rewrite <- surjective_pairing; auto | exact L].
  - rewrite <- N2. apply AN.
  - congruence.
  - congruence.
  - rewrite <- N5. unfold stiff_edge in SE. destruct (Req_EM_T (edge_stiffness st e) 0); [discriminate | assumption].
Qed.

(** * The rest state *)
Lemma valid_opposite cells e : oriented cells -> valid_edge e (cell_to_vertex cells) -> (exists t0 t1, triangle_at cells (face_0 e) t0 /\ triangle_at cells (face_1 e) t1) ->
  (face_0 e < face_1 e)%nat ->
  face_vert1 e (cell_to_vertex cells) 0 = face_vert0 e (cell_to_vertex cells) 1 /\ face_vert1 e (cell_to_vertex cells) 1 = face_vert0 e (cell_to_vertex cells) 0.
Proof.
  intros O (S0 & S1 & _ & [H|[A B]]) (u & w & Tu & Tw) L; [exact H|]. exfalso.
  assert (DIR : forall f s t, triangle_at cells f t -> (s < 3)%nat -> directed cells f (cell_to_vertex cells f ((s + 0) mod 3)) (cell_to_vertex cells f ((s + 1) mod 3))).
  { intros f s [[x y] z] T Ls. exists x, y, z. split; [exact T|]. destruct (cell_vertex _ _ _ _ _ T) as (E0 & E1 & E2). destruct s as [|[|[|]]]; [| | |lia]; cbv [Nat.add Nat.modulo Nat.divmod Nat.sub fst snd]; rewrite ?E0, ?E1, ?E2; auto. }
  pose proof (DIR _ _ _ Tu S0) as D0. pose proof (DIR _ _ _ Tw S1) as D1. unfold face_vert0, face_vert1 in A, B. rewrite A, B in D1. pose proof (O _ _ _ _ D0 D1). lia.
Qed.
Lemma ref_edge_angle_ext e r r' : (forall i, (i < 3)%nat -> r (face_0 e) i = r' (face_0 e) i) -> (forall i, (i < 3)%nat -> r (face_1 e) i = r' (face_1 e) i) -> ref_edge_angle e r = ref_edge_angle e r'.
Proof.
  intros A B. unfold ref_edge_angle, face_vert0, face_vert1. rewrite !A by (try apply Nat.mod_upper_bound; lia). rewrite !B by (try apply Nat.mod_upper_bound; lia). reflexivity.
Qed.
Lemma face_positions m f t i : triangle_at (in_cells m) f t -> unstressed m -> (i < 3)%nat -> in_ref_pos m f i = in_pos m (cell_to_vertex (in_cells m) f i).
Proof. intros T U L. rewrite (U f t i T L). f_equal. symmetry. apply (corner_vertex _ _ _ _ T L). Qed.
Lemma unstressed_tri m f t x : triangle_at (in_cells m) f (f_0 t, f_1 t, f_2 t) -> unstressed m -> x = in_pos m -> ref_tri3 (in_ref_pos m) f = tri_gather t x.
Proof. intros T U ->. unfold ref_tri3, tri_gather. rewrite (U _ _ 0%nat T), (U _ _ 1%nat T), (U _ _ 2%nat T) by lia. reflexivity. Qed.
Lemma face_normal m f t pos : pos = in_pos m -> triangles_proper m -> triangle_at (in_cells m) f t ->
  area_normal (pos (cell_to_vertex (in_cells m) f 0%nat)) (pos (cell_to_vertex (in_cells m) f 1%nat)) (pos (cell_to_vertex (in_cells m) f 2%nat)) <> v3_0.
Proof. intros -> P T. destruct t as [[a b] c]. destruct (cell_vertex _ _ _ _ _ T) as (-> & -> & ->). exact (P _ _ _ _ T). Qed.
Lemma neg_normal a b c : area_normal b a c = v3_neg (area_normal a b c).
Proof. destruct a, b, c. unfold area_normal, v3_cross, v3_sub, v3_neg. cbn. f_equal; ring. Qed.
Lemma v3_neg_zero a : v3_neg a = v3_0 -> a = v3_0.
Proof. destruct a as [x y z]. unfold v3_neg, v3_0. cbn. intros E. injection E as A B C. f_equal; lra. Qed.
Lemma edge_nondegenerate m e : valid_edge e (cell_to_vertex (in_cells m)) -> triangles_proper m -> (exists t0 t1, triangle_at (in_cells m) (face_0 e) t0 /\ triangle_at (in_cells m) (face_1 e) t1) ->
  nondegenerate (corners e (in_pos m) (cell_to_vertex (in_cells m))).
Proof.
  intros V P (u & w & Tu & Tw). destruct (valid_normals e (in_pos m) _ V) as (A & B & _). split; [rewrite <- A | rewrite <- B].
  - apply (face_normal m (face_0 e) u (in_pos m) eq_refl P Tu).
  - unfold area_normal1. destruct (is_oriented _ _); [apply (face_normal m (face_1 e) w (in_pos m) eq_refl P Tw)|].
    intros Z. apply (face_normal m (face_1 e) w (in_pos m) eq_refl P Tw). rewrite neg_normal in Z. apply v3_neg_zero, Z.
Qed.

Lemma built_in_range m materials a vt order S : simple (in_cells m) -> corners_below (length vt) (in_cells m) -> Permutation order (edge_table (in_cells m)) ->
  build_shell m materials a vt order = Done S -> shell_in_range (length vt) S.
Proof.
  intros SI B PE E. split.
  - intros t I. destruct (built_tri _ _ _ _ _ _ _ B E I) as (f & T & _). split; [|split]; apply (B f _ _ T); cbn; auto.
  - intros d c I Ic. destruct (built_dihedral _ _ _ _ _ _ _ SI B PE E I) as (e & (L0 & L1 & _) & _ & VE & _ & (u & w & Tu & Tw) & _).
    unfold edge_vertices in Ic. apply in_map_iff in Ic. destruct Ic as (i & <- & _). rewrite VE. unfold edge_vert.
    assert (M : forall k, (k mod 3 < 3)%nat) by (intros k; apply Nat.mod_upper_bound; lia).
    assert (X0 : forall k, (face_vert0 e (cell_to_vertex (in_cells m)) k < length vt)%nat) by (intros k; unfold face_vert0; apply (B _ _ _ Tu), (corner_vertex _ _ _ _ Tu), M).
    assert (X1 : forall k, (face_vert1 e (cell_to_vertex (in_cells m)) k < length vt)%nat) by (intros k; unfold face_vert1; apply (B _ _ _ Tw), (corner_vertex _ _ _ _ Tw), M).
    destruct i as [|[|[|]]]; auto.
Qed.
Lemma incremental_self e x faces : incremental_angle e (edge_angle e x faces) x faces = edge_angle e x faces.
Proof. destruct (incremental_spec e (edge_angle e x faces) x faces) as [A B]. pose proof PI_RGT_0. apply same_angle_close; [exact A | lra]. Qed.
Lemma built_smooth m materials a vt order S : simple (in_cells m) -> corners_below (length vt) (in_cells m) -> Permutation order (edge_table (in_cells m)) ->
  build_shell m materials a vt order = Done S -> triangles_proper m -> smooth_at S (in_pos m).
Proof.
  intros SI B PE E P. split.
  - intros t I. destruct (built_tri _ _ _ _ _ _ _ B E I) as (f & T & _ & AR & _ & ->). apply tri_area_pos in AR. split.
    + apply m2_inv_left. pose proof (rest_shape_regular _ AR). lra.
    + pose proof (P _ _ _ _ T) as N. intros Z. apply N. unfold flat_normal, tri_gather in Z. cbn [q0 q1 q2] in Z. rewrite <- Z. destruct (in_pos m (f_0 t)), (in_pos m (f_1 t)), (in_pos m (f_2 t)). unfold area_normal, v3_cross, v3_sub. cbn. f_equal; ring.
  - intros d I. destruct (built_dihedral _ _ _ _ _ _ _ SI B PE E I) as (e & V & V' & VE & AN & TT & _ & DA & _). split; [exact V' | split].
    + unfold corners. rewrite !VE. apply (edge_nondegenerate m e V P TT).
    + rewrite DA, <- AN, incremental_self. rewrite Rminus_diag_eq by reflexivity. rewrite Rabs_R0. apply PI_RGT_0.
Qed.

Lemma add_zero_at n k : (k < n)%nat -> add_at (repeat v3_0 n) k v3_0 = Some (repeat v3_0 n).
Proof.
  revert k. induction n as [|n IH]; intros k L; [lia|]. destruct k; cbn [repeat add_at].
  - f_equal. f_equal. unfold v3_add, v3_0. cbn. f_equal; ring.
  - rewrite IH by lia. reflexivity.
Qed.
Lemma scatter_zero ps n : (forall p, In p ps -> (fst p < n)%nat /\ snd p = v3_0) -> scatter ps (repeat v3_0 n) = Some (repeat v3_0 n).
Proof.
  induction ps as [|p ps IH]; intros H; [reflexivity|]. cbn [scatter]. destruct (H p (or_introl eq_refl)) as [L ->]. rewrite add_zero_at by exact L. cbn [bind]. apply IH. intros q I. apply H. right. exact I.
Qed.
Lemma ext_sum_zero {A} (f : A -> ext) l : (forall x, In x l -> f x = Fin 0) -> ext_sum (map f l) = Fin 0.
Proof. induction l as [|x l IH]; intros H; [reflexivity|]. cbn [map]. unfold ext_sum. cbn [fold_right]. rewrite (H x) by (left; reflexivity). change (fold_right ext_add (Fin 0) (map f l)) with (ext_sum (map f l)). rewrite IH by (intros; apply H; right; assumption). cbn [ext_add]. f_equal. ring. Qed.
Lemma built_at_rest m materials a vt order S dqdv : simple (in_cells m) -> corners_below (length vt) (in_cells m) -> Permutation order (edge_table (in_cells m)) ->
  oriented (in_cells m) -> unstressed m -> in_ref_angle m = None -> build_shell m materials a vt order = Done S ->
  shell_energy S dqdv (in_pos m) (fun _ => v3_0) = Fin 0 /\
  add_shell_gradient S dqdv (in_pos m) (fun _ => v3_0) (repeat v3_0 (length vt)) = Some (repeat v3_0 (length vt)).
Proof.
  intros SI B PE OR U NA E. pose proof (built_in_range _ _ _ _ _ _ SI B PE E) as [R1 R2].
  assert (TR : forall t, In t (sh_tris S) -> tri_energy (tri_elem_of t (tri_gather t (in_pos m))) = Fin 0 /\ tri_gradient (tri_elem_of t (tri_gather t (in_pos m))) = Tri3 v3_0 v3_0 v3_0).
  { intros t I. destruct (built_tri _ _ _ _ _ _ _ B E I) as (f & T & _ & AR & _ & ED). apply tri_area_pos in AR. rewrite (unstressed_tri m f t (in_pos m) T U eq_refl) in AR, ED.
    unfold tri_elem_of. rewrite ED. exact (tri_rest_force_free (tri_gather t (in_pos m)) (f_area t) (f_lambda t) (f_mu t) AR). }
  assert (DF : forall t x, tri_dF (tri_elem_of t x) (tri_gather t (fun _ => v3_0)) = m23_0).
  { intros t x. unfold tri_dF, tri_gather, tri_shape, m2_m23, m23_0, v3_0, v3_sub, v3_scale, v3_add. cbn. f_equal; f_equal; ring. }
  assert (ST : forall d, In d (sh_dihedrals S) -> incremental_angle (di_edge d) (di_angle d) (in_pos m) (sh_faces S) - di_ref_angle d = 0).
  { intros d I. destruct (built_dihedral _ _ _ _ _ _ _ SI B PE E I) as (e & V & V' & VE & AN & TT & L & DA & DR & _). rewrite DA, <- AN, incremental_self, AN, DR. unfold edge_ref_angle. rewrite NA.
    destruct (valid_opposite _ _ OR V TT L) as [O1 O2]. rewrite <- (ref_angle_oriented e (in_pos m) _ V O1 O2). destruct TT as (u & w & Tu & Tw).
    rewrite (ref_edge_angle_ext e (in_ref_pos m) (fun f i => in_pos m (cell_to_vertex (in_cells m) f i))); [ring | intros i Li; exact (face_positions m _ _ i Tu U Li) | intros i Li; exact (face_positions m _ _ i Tw U Li)]. }
  split.
  - unfold shell_energy. rewrite !ext_sum_zero; [cbn [ext_add]; f_equal; ring | |].
    + intros d I. f_equal. unfold bending_energy. cbv zeta. rewrite (ST d I). ring.
    + intros t I. unfold membrane_energy. cbv zeta. rewrite (proj1 (TR t I)), DF. f_equal. unfold m23_0, v3_dot, v3_0. cbn. ring.
  - unfold add_shell_gradient. apply scatter_zero. intros p I. unfold shell_forces in I. apply in_app_or in I. destruct I as [I|I]; apply in_flat_map in I.
    + destruct I as (t & It & I). unfold membrane_forces in I. cbv zeta in I. rewrite (proj2 (TR t It)), DF in I. cbn [q0 q1 q2] in I. destruct (R1 t It) as (L0 & L1 & L2).
      assert (Z : forall c (M : m2), m23_scale c (m2_m23 M (m23_scale dqdv m23_0)) = m23_0). { intros c [? ? ? ?]. unfold m23_scale, m2_m23, m23_0, v3_scale, v3_add, v3_0. cbn. f_equal; f_equal; ring. }
      rewrite Z in I. cbn [w0 w1 m23_0] in I. assert (NZ : v3_neg v3_0 = v3_0) by (unfold v3_neg, v3_0; cbn; f_equal; ring). rewrite NZ in I.
      cbn [In] in I. repeat (destruct I as [<-|I]; [cbn [fst snd]; split; [assumption | reflexivity]|]). contradiction.
    + destruct I as (d & Id & I). unfold bending_forces in I. cbv zeta in I. apply in_map_iff in I. destruct I as (i & <- & Ii). cbn [fst snd]. split.
      * apply (R2 d _ Id). unfold edge_vertices. apply in_map. exact Ii.
      * unfold bending_gradient, bending_dw. rewrite (ST d Id), Rmult_0_r. destruct (edge_angle_gradient (di_edge d) (in_pos m) (sh_faces S)) as [g0 g1 g2 g3]. unfold tet_scale. cbn [t0 t1 t2 t3].
        assert (Z : forall w, v3_scale 0 w = v3_0) by (intros []; unfold v3_scale, v3_0; cbn; f_equal; ring). rewrite !Z. unfold tet_row. cbn [t0 t1 t2 t3]. destruct i as [|[|[|]]]; reflexivity.
Qed.
