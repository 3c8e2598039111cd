(** Properties of the interior edges of triangle meshes and of the elements of shells built from them. *)
From Coq Require Import Reals ZArith List Arith Bool Lra Lia Permutation Sorted.
From Verif Require Import Vec3 Mat3 ElasticModel ElasticSpec AngleModel AngleSpec AngleProofs AngleProps ShellModel ShellSpec StateModel UtilModel TopoModel TopoSpec TopoProofs TopoElemProofs TopoRestProofs TopoWeightProofs.
Import ListNotations.
Local Open Scope R_scope.

(** A tetrahedron followed by two triangles that share the edge 0-1, folded by 45 degrees, and a loose triangle of fixed vertices. *)
Definition fold_cells : list mcell := [MCell false [0; 1; 2; 3]%nat; MCell true [0; 1; 2]%nat; MCell true [1; 0; 3]%nat; MCell true [4; 5; 6]%nat].
Definition fold_types : list vtype := [Free; Fixed; Fixed; Fixed; Fixed; Fixed; Fixed].
Definition fold_spots (i : nat) : v3 := match i with 4%nat => V3 5 0 0 | 5%nat => V3 6 0 0 | 6%nat => V3 5 1 0 | _ => fold_pos i end.
Lemma fold_triangles f t : triangle_at fold_cells f t <-> ((f = 1 /\ t = (0, 1, 2)) \/ (f = 2 /\ t = (1, 0, 3)) \/ (f = 3 /\ t = (4, 5, 6)))%nat.
Proof.
  unfold triangle_at. split.
  - intros (c & E & T). destruct f as [|[|[|[|f]]]]; cbn in E; [| | | |destruct f; discriminate]; injection E as <-; cbn in T; [discriminate|..]; injection T as <-; auto.
  - intros [[-> ->]|[[-> ->]|[-> ->]]]; eexists; split; reflexivity.
Qed.
Ltac fold_case H := apply fold_triangles in H; destruct H as [[? H]|[[? H]|[? H]]]; (try injection H as ? ? ?); subst.
Lemma fold_simple : simple fold_cells.
Proof. intros f a b c T. fold_case T; lia. Qed.
Lemma fold_below : corners_below 7 fold_cells.
Proof. intros f t v T C. fold_case T; cbn in C; lia. Qed.
Lemma fold_oriented : oriented fold_cells.
Proof. intros f g a b (x & y & z & T & A) (x' & y' & z' & T' & A'). fold_case T; fold_case T'; lia. Qed.

(** C107: the interior edges are exactly the edges that lie in exactly two triangles one of which has a movable corner, each once, and they are
    well formed; this holds for every order in which the hash map lists its entries. *)
Theorem interior_edges_exact : forall cells vertex_type order, simple cells -> corners_below (length vertex_type) cells -> Permutation order (edge_table cells) ->
  exists es, interior_edges cells vertex_type order = Done es /\ NoDup (map (ends cells) es) /\ (forall e, In e es -> valid_edge e (cell_to_vertex cells)) /\
    forall a b f g, (exists e, In e es /\ ends cells e = (a, b) /\ face_0 e = f /\ face_1 e = g) <->
      (a < b /\ f < g)%nat /\ (forall h, adjacent cells h a b <-> h = f \/ h = g) /\ (has_movable_corner cells vertex_type f \/ has_movable_corner cells vertex_type g).
Proof.
  intros cells vt order S B P. destruct (interior_edges_lemma cells vt order S B P) as (es & E & N & V & X). exists es. split; [exact E | split; [exact N | split; [exact V|]]].
  intros a b f g. rewrite (X a b f g). tauto.
Qed.
Example interior_edges_exact_ex : simple fold_cells /\ corners_below (length fold_types) fold_cells /\ length (edge_table fold_cells) = 8%nat /\
  interior_edges fold_cells fold_types (rev (edge_table fold_cells)) = Done [IEdge 1 2 0 0].
Proof. split; [exact fold_simple | split; [exact fold_below | split; reflexivity]]. Qed.

(** C107, finding: no bending is modelled across an edge where three sheets meet, although the documentation of the elements says that bending at
    edges that are not manifold is captured. *)
Theorem nonmanifold_edges_captured_refuted : exists cells vertex_type, simple cells /\ corners_below (length vertex_type) cells /\
  (forall f, (f < 3)%nat -> adjacent cells f 0 1 /\ has_movable_corner cells vertex_type f) /\ interior_edges cells vertex_type (edge_table cells) = Done [].
Proof.
  exists [MCell true [0; 1; 2]%nat; MCell true [1; 0; 3]%nat; MCell true [0; 1; 4]%nat], [Free; Free; Free; Free; Free].
  assert (T : forall f t, triangle_at [MCell true [0; 1; 2]; MCell true [1; 0; 3]; MCell true [0; 1; 4]]%nat f t <-> ((f = 0 /\ t = (0, 1, 2)) \/ (f = 1 /\ t = (1, 0, 3)) \/ (f = 2 /\ t = (0, 1, 4)))%nat).
  { intros f t. unfold triangle_at. split.
    - intros (c & E & T). destruct f as [|[|[|f]]]; cbn in E; [| | |destruct f; discriminate]; injection E as <-; cbn in T; injection T as <-; auto.
    - intros [[-> ->]|[[-> ->]|[-> ->]]]; eexists; split; reflexivity. }
  split; [|split; [|split; [|reflexivity]]].
  - intros f a b c H. apply T in H. destruct H as [[_ H]|[[_ H]|[_ H]]]; injection H as -> -> ->; lia.
  - intros f t v H C. apply T in H. destruct H as [[_ ->]|[[_ ->]|[_ ->]]]; cbn in C |- *; lia.
  - intros f L. assert (X : exists t, triangle_at [MCell true [0; 1; 2]; MCell true [1; 0; 3]; MCell true [0; 1; 4]]%nat f t /\ corner_of 0 t /\ corner_of 1 t).
    { destruct f as [|[|[|f]]]; [exists (0, 1, 2)%nat | exists (1, 0, 3)%nat | exists (0, 1, 4)%nat | lia]; rewrite T; cbn; auto 10. }
    split; [exact X|]. destruct X as (t & Ht & H0 & _). exists t, 0%nat, Free. split; [exact Ht | split; [exact H0 | split; [reflexivity | discriminate]]].
Qed.
(** C107, limit: a triangle with a repeated vertex is paired with itself, so [simple] is needed. *)
Theorem repeated_corner_pairs_refuted : exists cells vertex_type e, corners_below (length vertex_type) cells /\
  interior_edges cells vertex_type (edge_table cells) = Done [e] /\ face_0 e = face_1 e.
Proof.
  exists [MCell true [0; 1; 0]%nat], [Free; Free], (IEdge 0 0 0 0). split; [|split; reflexivity].
  intros f t v (c & E & T) C. destruct f as [|[|f]]; cbn in E; try discriminate. injection E as <-. cbn in T. injection T as <-. cbn in C |- *. lia.
Qed.

(** C108: the five vectors of the dihedral elements stay aligned when edges without stiffness are dropped and faces are renumbered: every listed
    edge is the same edge of the mesh, with the same vertices and angle, the listed cells are those of the edges that are kept, each once, and no
    edge with stiffness is lost. *)
Theorem dihedral_elements_aligned : forall m stiffness es,
  let D := build_dihedrals m stiffness es in
  let kept := filter (fun e => if Req_EM_T ((stiffness (face_0 e) + stiffness (face_1 e)) / 2) 0 then false else true) es in
  NoDup (de_cells D) /\ (forall f, In f (de_cells D) <-> exists e, In e kept /\ (f = face_0 e \/ f = face_1 e)) /\
  de_triangles D = map (fun f => (cell_to_vertex (in_cells m) f 0, cell_to_vertex (in_cells m) f 1, cell_to_vertex (in_cells m) f 2)%nat) (de_cells D) /\
  Forall2 (fun e e' => renamed (de_cells D) e e' /\ forall i, edge_vert e' (faces_of D) i = edge_vert e (cell_to_vertex (in_cells m)) i) kept (de_edges D) /\
  de_angles D = map (fun e' => edge_angle e' (in_pos m) (faces_of D)) (de_edges D) /\
  de_ref_angles D = map (fun e => ref_edge_angle e (in_ref_pos m) + match in_ref_angle m with Some a => a (face_0 e) (start_0 e) | None => 0 end) kept /\
  de_ref_length D = map (fun e => ref_length e (in_ref_pos m) / tile_span e (in_ref_pos m)) kept /\
  de_stiffness D = map (fun e => (stiffness (face_0 e) + stiffness (face_1 e)) / 2) kept.
Proof.
  intros m st es D kept. assert (S : forall e, edge_stiffness st e = (st (face_0 e) + st (face_1 e)) / 2) by (intros e; unfold edge_stiffness; field).
  assert (K : kept = filter (stiff_edge st) es). { unfold kept. apply filter_ext. intros e. unfold stiff_edge. rewrite S. reflexivity. }
  rewrite K. destruct (build_dihedrals_spec m st es) as (A1 & A2 & A3 & A4 & A5 & A6 & A7 & A8).
  split; [exact A1 | split; [exact A2 | split; [exact A3 | split; [exact A4 | split; [exact A5 | split; [exact A6 | split; [exact A7|]]]]]]].
  fold D in A8. rewrite A8. apply map_ext. exact S.
Qed.
Definition strip_cells : list mcell := [MCell true [0; 1; 2]%nat; MCell true [1; 3; 2]%nat; MCell true [3; 1; 4]%nat].
Definition strip_input : shell_input := ShellInput strip_cells fold_pos (fun f i => fold_pos (cell_to_vertex strip_cells f i)) None None.
(** The first of two edges has no stiffness. *)
Example dihedral_elements_aligned_ex : exists e1 e2, interior_edges strip_cells [Free; Free; Free; Free; Free] (edge_table strip_cells) = Done [e1; e2] /\
  let D := build_dihedrals strip_input (fun f => match f with 0%nat => -1 | 1%nat => 1 | _ => 3 end) [e1; e2] in
  de_cells D = [1; 2]%nat /\ de_edges D = [IEdge 0 1 0 0] /\ length (de_angles D) = 1%nat /\ de_stiffness D = [2].
Proof.
  exists (IEdge 0 1 1 2), (IEdge 1 2 0 0). split; [reflexivity|]. intros D.
  assert (E1 : edge_stiffness (fun f : nat => match f with 0%nat => -1 | 1%nat => 1 | _ => 3 end) (IEdge 0 1 1 2) = 0) by (unfold edge_stiffness; cbn; lra).
  assert (E2 : edge_stiffness (fun f : nat => match f with 0%nat => -1 | 1%nat => 1 | _ => 3 end) (IEdge 1 2 0 0) = 2) by (unfold edge_stiffness; cbn; lra).
  unfold D, build_dihedrals. cbn [map]. rewrite E1, E2. cbn [retain filter]. destruct (Req_EM_T 0 0); [|congruence]. destruct (Req_EM_T 2 0); [lra|]. cbn. repeat split.
Qed.

(** C108: without an attribute, the bending stiffness of a cell is that of its material, zero if that is not a soft shell or has none;
    an attribute overrides it. *)
Theorem bending_stiffness_of_cells : forall cells materials attrib a, ids_below (length materials) a ->
  exists f, cell_stiffness cells materials attrib a = Done f /\
    match attrib with
    | Some g => f = g
    | None => forall i, (i < length cells)%nat ->
        (forall d x, nth_error materials (Z.to_nat (at_mtl_id a i)) = Some (SoftShell d (Some x)) -> f i = x) /\
        ((forall d x, nth_error materials (Z.to_nat (at_mtl_id a i)) <> Some (SoftShell d (Some x))) -> f i = 0)
    end.
Proof.
  intros cells materials attrib a I. unfold cell_stiffness. destruct attrib as [g|]; [eauto|].
  rewrite (collect_map _ (fun i => match nth_error materials (Z.to_nat (at_mtl_id a i)) with Some m => bending_of m | None => 0 end)).
  - cbn [rbind]. eexists. split; [reflexivity|]. intros i L. cbv beta.
    assert (E : forall g : nat -> R, nth i (map g (seq 0 (length cells))) 0 = g i).
    { intros g. rewrite (nth_indep _ 0 (g 0%nat)) by (rewrite map_length, seq_length; exact L). rewrite map_nth, seq_nth by exact L. reflexivity. }
    rewrite E. specialize (I i). cbv beta. destruct (nth_error materials (Z.to_nat (at_mtl_id a i))) as [m|] eqn:N.
    + split; [intros d x H; injection H as ->; reflexivity|]. intros H. destruct m as [d [x|]| | |]; try reflexivity. exfalso. exact (H d x eq_refl).
    + split; [discriminate|reflexivity].
  - intros i _. specialize (I i). rewrite Z.max_l by lia. unfold material_of. destruct (Z.ltb_spec (at_mtl_id a i) 0) as [T|_]; [lia|]. destruct (nth_error materials (Z.to_nat (at_mtl_id a i))) as [m|] eqn:N; [reflexivity|].
    apply nth_error_None in N. lia.
Qed.
Definition two_ids : cell_attribs := CellAttribs None None None None (fun i => match i with O => 1%Z | _ => 0%Z end).
Example bending_stiffness_of_cells_ex : exists f, ids_below 2 two_ids /\
  cell_stiffness strip_cells [RigidMat; SoftShell (Deformable None None 0) (Some 3)] None two_ids = Done f /\ f 0%nat = 3 /\ f 1%nat = 0.
Proof. eexists. split; [intros c; cbn; destruct c; lia|]. split; [reflexivity|]. split; reflexivity. Qed.

(** C109: the weight of an edge is its mean reference length over a third of the mean height of its two triangles, where the height of a triangle
    is twice its area over the length of the edge in it; for a common reference length this is [3 l^2 / (A0 + A1)]. *)
Theorem bending_weight_heights : forall m e, let rp := in_ref_pos m in
  let l0 := v3_norm (v3_sub (face_vert0 e rp 1) (face_vert0 e rp 0)) in let l1 := v3_norm (v3_sub (face_vert1 e rp 1) (face_vert1 e rp 0)) in
  let A0 := tri_area (ref_tri3 rp (face_0 e)) in let A1 := tri_area (ref_tri3 rp (face_1 e)) in
  (start_0 e < 3)%nat -> (start_1 e < 3)%nat -> 0 < l0 -> 0 < l1 -> 0 < A0 -> 0 < A1 ->
  edge_ref_length m e = ((l0 + l1) / 2) / ((2 * A0 / l0 + 2 * A1 / l1) / 2 / 3) /\ 0 < edge_ref_length m e /\
  (l0 = l1 -> edge_ref_length m e = 3 * (l0 * l0) / (A0 + A1)).
Proof.
  intros m e rp l0 l1 A0 A1 S0 S1 P0 P1 Q0 Q1. destruct (weight_spec m e S0 S1 P0 P1) as (_ & _ & E). fold rp l0 l1 A0 A1 in E. rewrite E.
  assert (H : 0 < A0 / l0 + A1 / l1) by (apply Rplus_lt_0_compat; apply Rdiv_lt_0_compat; assumption).
  assert (H' : 0 < A0 * l1 + A1 * l0) by (apply Rplus_lt_0_compat; apply Rmult_lt_0_compat; assumption).
  split; [|split].
  - f_equal. field. lra.
  - apply Rdiv_lt_0_compat; lra.
  - intros L. clearbody l0 l1 A0 A1. rewrite <- L in *. field. lra.
Qed.
Example bending_weight_heights_ex : let m := ShellInput fold_cells fold_spots (fun f i => fold_spots (cell_to_vertex fold_cells f i)) None None in
  edge_ref_length m (IEdge 1 2 0 0) = 6 / (1 + sqrt 2).
Proof.
  intros m. assert (N : forall x y z w, x * x + y * y + z * z = w -> v3_norm (V3 x y z) = sqrt w) by (intros x y z w <-; reflexivity).
  destruct (bending_weight_heights m (IEdge 1 2 0 0)) as (_ & _ & E); try (cbn; lia).
  - cbn. unfold v3_sub. cbn. rewrite (N _ _ _ 1) by ring. rewrite sqrt_1. lra.
  - cbn. unfold v3_sub. cbn. rewrite (N _ _ _ 1) by ring. rewrite sqrt_1. lra.
  - unfold tri_area. cbn. unfold area_normal, v3_cross, v3_sub. cbn. rewrite (N _ _ _ 1) by ring. rewrite sqrt_1. lra.
  - unfold tri_area. cbn. unfold area_normal, v3_cross, v3_sub. cbn. rewrite (N _ _ _ 2) by ring. pose proof (sqrt_lt_R0 2). lra.
  - rewrite E.
    + unfold tri_area. cbn. unfold area_normal, v3_cross, v3_sub. cbn. rewrite !(N _ _ _ 1) by ring. rewrite (N _ _ _ 2) by ring. rewrite sqrt_1. pose proof (sqrt_lt_R0 2). field. lra.
    + cbn. unfold v3_sub. cbn. rewrite !(N _ _ _ 1) by ring. reflexivity.
Qed.

(** C110: the triangle elements are the triangles with a movable corner, in the order of the mesh, with aligned vectors; reference areas are positive,
    rest shapes are inverted, and parameters come from the attribute of the cell or else from its shell material. *)
Definition attribute_or_material (attrib : option (nat -> R)) (materials : list mat) (a : cell_attribs) (get : deformable -> option R) (f : nat) (x : R) : Prop :=
  match attrib with
  | Some g => x = g f
  | None => exists d b, nth_error materials (Z.to_nat (at_mtl_id a f)) = Some (SoftShell d b) /\ get d = Some x
  end.
Lemma param_means attrib materials a get get' f x : (forall d, get d = Done x -> get' d = Some x) -> param attrib (shell_mtl materials a) get f x -> attribute_or_material attrib materials a get' f x.
Proof.
  intros G. unfold param, attribute_or_material. destruct attrib; [auto|]. unfold shell_mtl, material_of. destruct (Z.ltb _ 0); [discriminate|].
  destruct (nth_error materials _) as [m|] eqn:E; cbn [rbind]; [|discriminate]. destruct m as [d b| | |]; cbn [rbind]; try discriminate. intros H. exists d, b. auto.
Qed.
Theorem triangle_elements_exact : forall cells ref_pos materials a vertex_type T, corners_below (length vertex_type) cells ->
  build_triangles cells ref_pos materials a vertex_type = Done T ->
  StronglySorted lt (te_cells T) /\ (forall f, In f (te_cells T) <-> has_movable_corner cells vertex_type f) /\
  (let n := length (te_cells T) in length (te_triangles T) = n /\ length (te_density T) = n /\ length (te_area T) = n /\ length (te_inv T) = n /\ length (te_damping T) = n /\ length (te_lambda T) = n /\ length (te_mu T) = n) /\
  forall k f, nth_error (te_cells T) k = Some f -> exists t area inv density damping lambda mu,
    nth_error (te_triangles T) k = Some t /\ triangle_at cells f t /\
    nth_error (te_area T) k = Some area /\ area = tri_area (ref_tri3 ref_pos f) /\ 0 < area /\
    nth_error (te_inv T) k = Some inv /\ m2_mul inv (isotropic_shape (tri_shape (ref_tri3 ref_pos f))) = M2 1 0 0 1 /\
    nth_error (te_density T) k = Some density /\ attribute_or_material (at_density a) materials a m_density f density /\
    nth_error (te_damping T) k = Some damping /\ attribute_or_material (at_damping a) materials a (fun d => Some (m_damping d)) f damping /\
    nth_error (te_lambda T) k = Some lambda /\ attribute_or_material (at_lambda a) materials a (fun d => option_map lambda_of (m_elasticity d)) f lambda /\
    nth_error (te_mu T) k = Some mu /\ attribute_or_material (at_mu a) materials a (fun d => option_map mu_of (m_elasticity d)) f mu.
Proof.
  intros cells rp materials a vt T B E. destruct (build_triangles_done _ _ _ _ _ _ B E) as (E1 & E2 & E3 & P & E4 & F1 & F2 & F3 & F4). rewrite E1, E2, E3, E4.
  set (ts := filter (kept_tri vt) (indexed_triangles cells)) in *. split; [apply kept_sorted | split; [|split]].
  - intros f. rewrite in_map_iff. split.
    + intros ([g t] & <- & I). apply kept_spec in I. apply I.
    + intros M. destruct M as (t & v & k & TA & H). exists (f, t). split; [reflexivity|]. apply kept_spec. split; [exact TA | exists t, v, k; auto].
  - cbv zeta. rewrite !map_length. rewrite <- (Forall2_len _ _ _ F1), <- (Forall2_len _ _ _ F2), <- (Forall2_len _ _ _ F3), <- (Forall2_len _ _ _ F4), !map_length. repeat split.
  - intros k f N. destruct (Forall2_nth _ _ _ _ _ F1 N) as (den & D1 & D2). destruct (Forall2_nth _ _ _ _ _ F2 N) as (la & L1 & L2). destruct (Forall2_nth _ _ _ _ _ F3 N) as (mu & M1 & M2). destruct (Forall2_nth _ _ _ _ _ F4 N) as (da & A1 & A2).
    pose proof (P f (nth_error_In _ _ N)) as PA. rewrite (map_nth_error _ _ _ N). apply nth_error_map_inv in N. destruct N as ([g t] & N & ->). cbn [fst] in *. pose proof (map_nth_error fst _ _ N) as N'. cbn [fst] in N'.
    exists t, (tri_area (ref_tri3 rp g)), (m2_inv (isotropic_shape (tri_shape (ref_tri3 rp g)))), den, da, la, mu.
    split; [exact (map_nth_error snd _ _ N) | split; [exact (proj1 (proj1 (kept_spec _ _ _ _) (nth_error_In _ _ N)))|]].
    split; [reflexivity | split; [reflexivity | split; [exact PA|]]]. split; [exact (map_nth_error _ _ _ N')|].
    split; [apply m2_inv_left; pose proof (rest_shape_regular _ (proj1 (tri_area_pos _) PA)); lra|].
    split; [exact D1 | split; [revert D2; apply param_means; intros d H; unfold get_density, from_option in H; destruct (m_density d); congruence|]].
    split; [exact A1 | split; [revert A2; apply param_means; intros d H; unfold get_damping in H; congruence|]].
    split; [exact L1 | split; [revert L2; apply param_means; intros d H; unfold get_lambda, from_option in H; destruct (option_map lambda_of (m_elasticity d)); congruence|]].
    split; [exact M1 | revert M2; apply param_means; intros d H; unfold get_mu, from_option in H; destruct (option_map mu_of (m_elasticity d)); congruence].
Qed.
Definition fold_ref (f i : nat) : v3 := fold_spots (cell_to_vertex fold_cells f i).
Definition fold_materials : list mat := [SoftShell (Deformable (Some 3) None (1 / 10)) (Some 2)].
Definition fold_attribs : cell_attribs := CellAttribs None (Some (fun _ => 1)) (Some (fun f => INR f)) None (fun _ => 0%Z).
Lemma fold_area_pos f : (f = 1 \/ f = 2)%nat -> 0 < tri_area (ref_tri3 fold_ref f).
Proof. intros H. apply tri_area_pos. intros Z. apply (f_equal vz) in Z. revert Z. destruct H as [->| ->]; cbn; lra. Qed.
Lemma fold_built : exists T, build_triangles fold_cells fold_ref fold_materials fold_attribs fold_types = Done T /\ te_cells T = [1; 2]%nat /\ te_density T = [3; 3] /\ te_mu T = [1; 2].
Proof.
  unfold build_triangles. rewrite (triangle_cells_spec fold_cells fold_types fold_below). cbn [rbind]. cbv zeta. change (map fst (filter (kept_tri fold_types) (indexed_triangles fold_cells))) with [1; 2]%nat.
  change (per_cell (at_density fold_attribs) (shell_mtl fold_materials fold_attribs) get_density [1; 2]%nat) with (Done [3; 3]). cbn [rbind].
  assert (PA : forall f, In f [1; 2]%nat -> 0 < tri_area (ref_tri3 fold_ref f)) by (intros f I; apply fold_area_pos; cbn in I; lia).
  rewrite (proj2 (ref_tri_areas_done fold_ref [1; 2]%nat _) (conj eq_refl PA)). cbn [rbind]. rewrite (ref_tri_inverses_done _ _ PA). cbn [rbind]. change (per_cell (at_lambda fold_attribs) (shell_mtl fold_materials fold_attribs) get_lambda [1; 2]%nat) with (Done [1; 1]). cbn [rbind]. change (per_cell (at_mu fold_attribs) (shell_mtl fold_materials fold_attribs) get_mu [1; 2]%nat) with (Done [1; 2]). cbn [rbind].
  change (per_cell (at_damping fold_attribs) (shell_mtl fold_materials fold_attribs) get_damping [1; 2]%nat) with (Done [1 / 10; 1 / 10]). cbn [rbind].
  eexists. split; [reflexivity|]. split; [reflexivity | split; [reflexivity|]]. cbn. reflexivity.
Qed.
Example triangle_elements_exact_ex : corners_below (length fold_types) fold_cells /\ exists T, build_triangles fold_cells fold_ref fold_materials fold_attribs fold_types = Done T /\
  te_cells T = [1; 2]%nat /\ te_density T = [3; 3] /\ te_mu T = [1; 2].
Proof. split; [exact fold_below | exact fold_built]. Qed.

(** C110: with material ids and corners in range the construction does not panic (the inverse of a rest shape always exists), and every error it
    reports is justified. *)
Theorem triangle_elements_failures : forall cells ref_pos materials a vertex_type, corners_below (length vertex_type) cells -> ids_below (length materials) a ->
  match build_triangles cells ref_pos materials a vertex_type with
  | Done _ => True
  | Panic => False
  | Err (DegenerateReferenceElement ds) => ds <> [] /\ exists is, StronglySorted lt is /\ (forall f, In f is <-> has_movable_corner cells vertex_type f) /\
      forall k, In k ds <-> exists f, nth_error is k = Some f /\ tri_area (ref_tri3 ref_pos f) = 0
  | Err ObjectMaterialMismatch => exists f m, has_movable_corner cells vertex_type f /\ nth_error materials (Z.to_nat (at_mtl_id a f)) = Some m /\ (forall d b, m <> SoftShell d b)
  | Err MissingDensity => at_density a = None /\ exists f d b, has_movable_corner cells vertex_type f /\ nth_error materials (Z.to_nat (at_mtl_id a f)) = Some (SoftShell d b) /\ m_density d = None
  | Err MissingElasticityParams => (at_lambda a = None \/ at_mu a = None) /\
      exists f d b, has_movable_corner cells vertex_type f /\ nth_error materials (Z.to_nat (at_mtl_id a f)) = Some (SoftShell d b) /\ m_elasticity d = None
  | Err _ => False
  end.
Proof.
  intros cells rp materials a vt B I. pose proof (build_triangles_no_panic cells rp materials a vt B I) as NP. pose proof (build_triangles_err cells rp materials a vt) as ER.
  destruct (build_triangles cells rp materials a vt) as [T|e|] eqn:E; [exact Logic.I | | congruence]. specialize (ER e B I eq_refl). cbv zeta in ER. set (ts := filter (kept_tri vt) (indexed_triangles cells)) in *.
  assert (KS : forall f, In f (map fst ts) <-> has_movable_corner cells vt f).
  { intros f. rewrite in_map_iff. split; [intros ([g t] & <- & J); apply kept_spec in J; apply J|]. intros M. destruct M as (t & v & k & TA & H). exists (f, t). split; [reflexivity|]. apply kept_spec. split; [exact TA | exists t, v, k; auto]. }
  destruct ER as [(ds & -> & ND & D)|(c & m & Ic & N & M)].
  - split; [exact ND|]. exists (map fst ts). split; [apply kept_sorted | split; [exact KS | exact D]].
  - apply KS in Ic. destruct m as [d b| | |].
    + destruct M as [(-> & MD & AD)|(-> & ME & AE)]; [split; [exact AD | exists c, d, b; auto] | split; [exact AE | exists c, d, b; auto]].
    + subst e. exists c, (Solid d stable). split; [exact Ic | split; [exact N | discriminate]].
    + subst e. exists c, RigidMat. split; [exact Ic | split; [exact N | discriminate]].
    + subst e. exists c, FixedMat. split; [exact Ic | split; [exact N | discriminate]].
Qed.
Example triangle_elements_failures_ex : corners_below (length fold_types) fold_cells /\ ids_below (length fold_materials) fold_attribs /\
  build_triangles fold_cells fold_ref [SoftShell (Deformable None None 0) None] fold_attribs fold_types = Err MissingDensity.
Proof. split; [exact fold_below | split; [intros c; cbn; lia | reflexivity]]. Qed.

(** C110, finding: the elements ignore the material when they select triangles, so a mesh with a triangle of a rigid body is rejected. *)
Theorem rigid_triangles_supported_refuted : exists cells ref_pos vertex_type, corners_below (length vertex_type) cells /\ (forall f, has_movable_corner cells vertex_type f -> f = 0%nat) /\
  build_triangles cells ref_pos [RigidMat] (CellAttribs None None None None (fun _ => 0%Z)) vertex_type = Err ObjectMaterialMismatch.
Proof.
  exists [MCell true [0; 1; 2]%nat], (fun _ => fold_pos), [Rigid; Rigid; Rigid]. split; [|split; [|reflexivity]].
  - intros f t v (c & E & T) C. destruct f as [|[|f]]; cbn in E; try discriminate. injection E as <-. cbn in T. injection T as <-. cbn in C |- *. lia.
  - intros f (t & v & k & (c & E & T) & _). destruct f as [|[|f]]; cbn in E; try discriminate. reflexivity.
Qed.
(** C110, finding: the reported indices of degenerate elements are positions in the list of selected triangles, not cells of the mesh: here cell 0
    is blamed, a tetrahedron, although cell 1 is degenerate. *)
Theorem degenerate_cells_reported_refuted : exists cells ref_pos vertex_type, corners_below (length vertex_type) cells /\
  build_triangles cells ref_pos fold_materials fold_attribs vertex_type = Err (DegenerateReferenceElement [0%nat]) /\
  (forall t, ~ triangle_at cells 0 t) /\ tri_area (ref_tri3 ref_pos 1) = 0.
Proof.
  assert (Z : forall f, tri_area (ref_tri3 (fun _ _ => v3_0) f) = 0).
  { intros f. unfold tri_area. cbn. unfold area_normal, v3_cross, v3_sub, v3_0, v3_norm, v3_dot. cbn. match goal with |- sqrt ?x / 2 = 0 => replace x with 0 by ring end. rewrite sqrt_0. field. }
  exists [MCell false [0; 1; 2; 3]%nat; MCell true [0; 1; 2]%nat], (fun _ _ => v3_0), [Free; Free; Free; Free].
  assert (B : corners_below 4 [MCell false [0; 1; 2; 3]%nat; MCell true [0; 1; 2]%nat]).
  { intros f t v (c & E & T) C. destruct f as [|[|[|f]]]; cbn in E; try discriminate; injection E as <-; cbn in T; try discriminate. injection T as <-. cbn in C |- *. lia. }
  split; [exact B | split; [|split]].
  - unfold build_triangles. rewrite (triangle_cells_spec _ [Free; Free; Free; Free] B). cbn [rbind]. cbv zeta. match goal with |- context [map fst ?x] => change (map fst x) with [1%nat] end.
    change (per_cell (at_density fold_attribs) (shell_mtl fold_materials fold_attribs) get_density [1%nat]) with (Done [3]). cbn [rbind]. unfold ref_tri_areas. cbv zeta. cbn [map]. rewrite Z. unfold non_positive. cbn [length seq combine filter snd].
    destruct (Rle_dec 0 0); [reflexivity | lra].
  - intros t (c & E & T). cbn in E. injection E as <-. discriminate.
  - apply Z.
Qed.

(** C111: every shell built from a mesh whose triangles have positive areas satisfies the hypotheses under which its gradient and Hessian are
    derivatives: indices are in range, triangles and edges are well formed and away from singular states. *)
Theorem built_shell_smooth : forall m materials a vertex_type order S, simple (in_cells m) -> corners_below (length vertex_type) (in_cells m) ->
  Permutation order (edge_table (in_cells m)) -> build_shell m materials a vertex_type order = Done S -> triangles_proper m ->
  shell_in_range (length vertex_type) S /\ smooth_at S (in_pos m).
Proof. intros m materials a vt order S SI B PE E P. split; [exact (built_in_range m materials a vt order S SI B PE E) | exact (built_smooth m materials a vt order S SI B PE E P)]. Qed.
(** C111: a shell built from a consistently oriented mesh in its reference configuration is at rest: no energy and no force. *)
Theorem built_shell_at_rest : forall m materials a vertex_type order S dqdv, simple (in_cells m) -> corners_below (length vertex_type) (in_cells m) ->
  Permutation order (edge_table (in_cells m)) -> oriented (in_cells m) -> unstressed m -> in_ref_angle m = None -> build_shell m materials a vertex_type order = Done S ->
  shell_energy S dqdv (in_pos m) (fun _ => v3_0) = Fin 0 /\
  add_shell_gradient S dqdv (in_pos m) (fun _ => v3_0) (repeat v3_0 (length vertex_type)) = Some (repeat v3_0 (length vertex_type)).
Proof. exact built_at_rest. Qed.
Definition fold_input : shell_input := ShellInput fold_cells fold_spots fold_ref None None.
Lemma fold_shell_built : exists S, build_shell fold_input fold_materials fold_attribs fold_types (edge_table fold_cells) = Done S /\ length (sh_tris S) = 2%nat /\ length (sh_dihedrals S) = 1%nat.
Proof.
  unfold build_shell. cbn [in_cells in_ref_pos fold_input]. destruct fold_built as (T & E & C & D & M). rewrite E. cbn [rbind].
  destruct (build_triangles_done fold_cells fold_ref fold_materials fold_attribs fold_types T fold_below E) as (_ & E2 & E3 & _ & E4 & _ & F2 & F3 & F4). unfold try_dihedrals. cbn [in_cells in_bend fold_input].
  match goal with |- context [interior_edges ?a ?b ?c] => change (interior_edges a b c) with (Done [IEdge 1 2 0 0]) end. cbn [rbind]. cbn [cell_stiffness]. match goal with |- context [collect ?f ?l] => change (collect f l) with (Done [2; 2; 2; 2]) end. cbn [rbind].
  eexists. split; [reflexivity|]. cbn [sh_tris sh_dihedrals]. split.
  - unfold shell_tris_of. rewrite map_length, !combine_length, E2, E3, E4, <- (Forall2_len _ _ _ F2), <- (Forall2_len _ _ _ F3), <- (Forall2_len _ _ _ F4), !map_length. reflexivity.
  - unfold dihedrals_of, build_dihedrals. assert (X : edge_stiffness (fun i => nth i [2; 2; 2; 2] 0) (IEdge 1 2 0 0) = 2) by (unfold edge_stiffness; cbn; lra). cbn [map]. rewrite X. cbn [retain filter]. destruct (Req_EM_T 2 0); [lra|]. reflexivity.
Qed.
Example built_shell_at_rest_ex : simple (in_cells fold_input) /\ corners_below (length fold_types) (in_cells fold_input) /\ oriented (in_cells fold_input) /\ unstressed fold_input /\
  triangles_proper fold_input /\ exists S, build_shell fold_input fold_materials fold_attribs fold_types (edge_table fold_cells) = Done S /\ length (sh_tris S) = 2%nat /\ length (sh_dihedrals S) = 1%nat.
Proof.
  split; [exact fold_simple | split; [exact fold_below | split; [exact fold_oriented | split; [|split; [|exact fold_shell_built]]]]].
  - intros f t i T L. cbn [in_ref_pos in_pos in_cells fold_input] in *. unfold fold_ref. rewrite (proj1 (corner_vertex _ _ _ _ T L)). reflexivity.
  - intros f a b c T. cbn [in_cells fold_input] in T. intros Z. apply (f_equal vz) in Z. revert Z. fold_case T; cbn; lra.
Qed.
Example built_shell_smooth_ex : triangles_proper fold_input /\ exists S, build_shell fold_input fold_materials fold_attribs fold_types (edge_table fold_cells) = Done S /\ smooth_at S fold_spots.
Proof.
  destruct built_shell_at_rest_ex as (A & B & _ & _ & P & S & E & _). split; [exact P|]. exists S. split; [exact E|].
  exact (proj2 (built_shell_smooth fold_input fold_materials fold_attribs fold_types _ S A B (Permutation_refl _) E P)).
Qed.

Print Assumptions interior_edges_exact.
Print Assumptions nonmanifold_edges_captured_refuted.
Print Assumptions repeated_corner_pairs_refuted.
Print Assumptions dihedral_elements_aligned.
Print Assumptions bending_weight_heights.
Print Assumptions triangle_elements_exact.
Print Assumptions triangle_elements_failures.
Print Assumptions rigid_triangles_supported_refuted.
Print Assumptions degenerate_cells_reported_refuted.
Print Assumptions built_shell_smooth.
Print Assumptions built_shell_at_rest.
Print Assumptions bending_stiffness_of_cells.
