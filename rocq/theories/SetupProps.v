(** C114 to C122: attributes, contacts, scales and the problem built from a mesh. *)
From Coq Require Import Reals ZArith List Arith Bool Lra Lia Permutation Sorted.
From Verif Require Import RList Vec3 Mat3 ElasticModel ElasticSpec ElasticProofs AngleModel ShellModel StateModel StateSpec StateProofs UtilModel TopoModel TopoSpec TopoProofs TopoElemProofs TopoRestProofs BuildModel BuildSpec BuildProofs BuildSetupProofs BuildProblemProofs.
Import ListNotations.
Local Open Scope R_scope.

(** * An input: a tetrahedron with a fixed vertex and, apart from it, a triangle, in contact with each other *)
Definition scene_cells : list mcell := [MCell false [1; 2; 3; 0]%nat; MCell true [4; 5; 6]%nat].
Definition scene_pos (v : nat) : v3 := match v with 1%nat => V3 1 0 0 | 2%nat => V3 0 1 0 | 3%nat => V3 0 0 1 | 4%nat => V3 5 0 0 | 5%nat => V3 6 0 0 | 6%nat => V3 5 1 0 | _ => v3_0 end.
Definition scene_materials : list mat := [Solid (Deformable (Some 3) (Some (Lame 1 6)) (1 / 10)) true; SoftShell (Deformable (Some 2) (Some (Lame 1 1)) 0) None].
Definition scene_surface (id : nat) : list (list nat) := match id with O => [[0; 1; 2]; [1; 0; 6]]%nat | 1%nat => [[3; 4; 5]]%nat | _ => [] end.
Definition scene (mtl obj : slot) (fixed : option attr) (source : option (list nat)) (materials : list mat) (contacts : list contact_request) : input :=
  Input scene_cells 7 scene_pos None None mtl obj fixed source materials None None None None None None contacts scene_surface.
Definition scene_contact : contact_request := (ContactParams (1 / 2) 0 false, (0, 1)%nat, true).
Definition good_scene : input :=
  scene (Slot (Some (I32 [-3; 1]%Z)) None) (Slot (Some (I32 [0; 1]%Z)) None) (Some (U8 [9; 0; 0; 0; 0; 0; 0]%Z)) None scene_materials [scene_contact].
Lemma scene_well_formed : well_formed 7 scene_cells.
Proof. intros f c N. destruct f as [|[|f]]; cbn in N; [injection N as <-; cbn; split; [reflexivity | intros v I; lia]..|destruct f; discriminate]. Qed.
Lemma scene_simple f c : nth_error scene_cells f = Some c -> is_tri c = true -> NoDup (m_verts c).
Proof. intros N T. destruct f as [|[|f]]; cbn in N; [injection N as <-; discriminate | injection N as <-; cbn; repeat constructor; cbn; lia | destruct f; discriminate]. Qed.
Lemma scene_faces id face v : In face (scene_surface id) -> In v face -> (v < 7)%nat.
Proof. destruct id as [|[|id]]; cbn; intros I J; [destruct I as [<-|[<-|[]]] | destruct I as [<-|[]] | contradiction]; cbn in J; lia. Qed.
Lemma good_scene_posed : well_posed good_scene.
Proof.
  constructor; cbn; [exact scene_well_formed | exact scene_simple | discriminate | reflexivity | reflexivity | | reflexivity | exact scene_faces].
  intros a E. injection E as <-. reflexivity.
Qed.
Lemma table_orders : orders_edges edge_table.
Proof. intros cells. apply Permutation_refl. Qed.
Lemma scene_tet f t : tet_at scene_cells f t -> f = O /\ t = (1, 2, 3, 0)%nat.
Proof. intros (c & N & T). destruct f as [|[|f]]; cbn in N; [| |destruct f; discriminate]; injection N as <-; cbn in T; [injection T as <-; auto | discriminate]. Qed.
Lemma scene_tri f t : triangle_at scene_cells f t -> f = 1%nat /\ t = (4, 5, 6)%nat.
Proof. intros (c & N & T). destruct f as [|[|f]]; cbn in N; [| |destruct f; discriminate]; injection N as <-; cbn in T; [discriminate | injection T as <-; auto]. Qed.
Lemma scene_det mtl obj fixed source materials contacts : m3_det (shape_matrix (ref_tet4 (ref_of (scene mtl obj fixed source materials contacts)) 0)) = 1.
Proof. unfold ref_tet4, ref_of, cell_ref_pos, cell_to_vertex. cbn [scene i_cells i_pos i_ref_corners i_ref_verts scene_cells nth m_verts scene_pos]. unm. lra. Qed.
Lemma scene_area mtl obj fixed source materials contacts : 0 < tri_area (ref_tri3 (ref_of (scene mtl obj fixed source materials contacts)) 1).
Proof. apply tri_area_pos. intros Z. apply (f_equal vz) in Z. revert Z. cbn. lra. Qed.
Lemma scene_touched v : (v < 7)%nat -> exists f, touches scene_cells f v.
Proof. intros L. do 7 (destruct v as [|v]; [first [exists O; eexists; split; [reflexivity | cbn; tauto] | exists 1%nat; eexists; split; [reflexivity | cbn; tauto]]|]). lia. Qed.
Lemma good_scene_built : exists P, build_problem good_scene edge_table = Done P.
Proof.
  pose proof (problem_outcome good_scene edge_table good_scene_posed table_orders) as O. destruct (build_problem good_scene edge_table) as [P|e|]; [eauto | exfalso | contradiction].
  destruct e; cbn [outcome_spec] in O; try contradiction.
  - destruct O as (f & t & m & T & M & N). cbn [good_scene scene i_cells] in T. apply scene_tri in T. destruct T as [-> _]. cbn in M. injection M as <-. exact (N _ _ eq_refl).
  - destruct O as (_ & f & d & x & M & D). destruct f as [|[|f]]; cbn in M; [| |destruct f; cbn in M]; destruct M as [M|[b M]]; try discriminate; injection M as <-; discriminate.
  - destruct O as (_ & f & d & x & M & D). destruct f as [|[|f]]; cbn in M; [| |destruct f; cbn in M]; destruct M as [M|[b M]]; try discriminate; injection M as <-; discriminate.
  - destruct O as (f & t & T & A). cbn [good_scene scene i_cells] in T. apply scene_tri in T. destruct T as [-> _]. unfold good_scene in A. pose proof (scene_area (Slot (Some (I32 [-3; 1]%Z)) None) (Slot (Some (I32 [0; 1]%Z)) None) (Some (U8 [9; 0; 0; 0; 0; 0; 0]%Z)) None scene_materials [scene_contact]). lra.
  - destruct O as (f & t & T & A). cbn [good_scene scene i_cells] in T. apply scene_tet in T. destruct T as [-> _]. unfold good_scene in A. rewrite scene_det in A. lra.
  - destruct O as (NE & _ & H). destruct orphaned as [|v r]; [congruence|]. destruct (proj1 (H v) (or_introl eq_refl)) as [L N]. destruct (scene_touched v L) as [f Tf]. exact (N f Tf).
  - destruct O as (p & id & u & [I|[]]). unfold scene_contact in I. congruence.
  - specialize (O 1%nat _ _ 4%nat eq_refl eq_refl). cbn in O. unfold held in O. cbn in O. apply O; [discriminate | auto | reflexivity].
  - destruct O as [(p & a & b & u & [I|[]] & H) N]. unfold scene_contact in I. injection I as <- <- <- <-. destruct H as [-> | ->]; [apply (N O) | apply (N 1%nat)]; cbn; (lia || reflexivity).
Qed.

(** * Masses and forces of solids *)
(** C114: the mass attribute receives the mass of every element in total. *)
Theorem tet_mass_attribute_total : forall T masses, (forall t j, In t (tt_tets T) -> (j < 4)%nat -> (corner4 t j < length masses)%nat) ->
  length (tt_volume T) = length (tt_tets T) -> length (tt_density T) = length (tt_tets T) ->
  exists m, tet_vertex_masses T masses = Some m /\ length m = length masses /\
    rsum m = rsum masses + rsum (map (fun p => fst p * snd p) (combine (tt_volume T) (tt_density T))).
Proof.
  intros T masses B LV LD. unfold tet_vertex_masses. revert masses B LV LD. generalize (tt_volume T) (tt_density T). generalize (tt_tets T).
  induction l as [|[[[w x] y] z] l IH]; intros [|v vs] [|d ds] masses B LV LD; try discriminate; cbn [combine add_tet_masses].
  - exists masses. cbn. split; [reflexivity | split; [reflexivity | ring]].
  - destruct (add_masses_spec [w; x; y] (v * d / 3) masses) as (m1 & E1 & L1 & S1 & _).
    { intros i I. destruct I as [<-|[<-|[<-|[]]]]; [apply (B (w, x, y, z) 0%nat) | apply (B (w, x, y, z) 1%nat) | apply (B (w, x, y, z) 2%nat)]; (left; reflexivity) || lia. }
    rewrite E1. unfold bind. destruct (IH vs ds m1) as (m & E & L & S); [|injection LV; auto | injection LD; auto|].
    { intros t j I Lj. rewrite L1. apply B; [right; exact I | exact Lj]. }
    exists m. split; [exact E | split; [congruence|]]. rewrite S, S1. cbn [map fst snd]. rewrite rsum_cons. cbn [length INR]. lra.
Qed.
Example tet_mass_attribute_total_ex : let T := TetElements [0%nat] [(3, 1, 2, 0)%nat] [6] [1 / 2] [m3_I] [0] [1] [1] in
  (forall t j, In t (tt_tets T) -> (j < 4)%nat -> (corner4 t j < 4)%nat) /\ tet_vertex_masses T [0; 0; 0; 1] = Some [0; 0 + 1 / 2 * 6 / 3; 0 + 1 / 2 * 6 / 3; 1 + 1 / 2 * 6 / 3].
Proof. cbv zeta. split; [|reflexivity]. intros t j [<-|[]] L. destruct j as [|[|[|[|j]]]]; cbn; lia. Qed.

(** C114, finding: the fourth corner of a tetrahedron receives no mass although it is the corner of an element; the other three receive a third each. *)
Theorem tet_mass_fourth_corner_refuted : exists T, tt_tets T = [(0, 1, 2, 3)%nat] /\ tt_volume T = [1] /\ tt_density T = [1] /\ tet_vertex_masses T [0; 0; 0; 0] = Some [0 + 1 * 1 / 3; 0 + 1 * 1 / 3; 0 + 1 * 1 / 3; 0].
Proof. exists (TetElements [0%nat] [(0, 1, 2, 3)%nat] [1] [1] [m3_I] [0] [1] [1]). repeat split; reflexivity. Qed.
(** C114, finding: nor does it receive its elastic force: the force attribute of that vertex stays zero although the energy has a gradient there, and
    the forces on the element do not add up to zero. *)
Theorem tet_forces_fourth_corner_refuted : exists s x g forces, nh_gradient (elem_of s (gather s x)) = Some g /\ c3 s = 3%nat /\
  add_tet_forces [s] x (repeat v3_0 4) = Some forces /\ vx (t3 g) < 0 /\ nth 3 forces v3_0 = v3_0 /\ vx (nth 0 forces v3_0) + vx (nth 1 forces v3_0) + vx (nth 2 forces v3_0) + vx (nth 3 forces v3_0) < 0.
Proof.
  set (s := SolidTet 0 1 2 3 m3_I 1 0 1 0). set (x := fun v : nat => match v with O => V3 2 0 0 | 1%nat => V3 0 1 0 | 2%nat => V3 0 0 1 | _ => v3_0 end).
  set (g := Tet (V3 (3 / 2) 0 0) v3_0 v3_0 (V3 (- (3 / 2)) 0 0)).
  assert (E : nh_gradient (elem_of s (gather s x)) = Some g).
  { unfold nh_gradient. cbv zeta. assert (F : deformation_gradient (elem_of s (gather s x)) = M3 (V3 2 0 0) (V3 0 1 0) (V3 0 0 1)) by (unfold deformation_gradient, elem_of, gather; cbn [s DX_inv Dx c0 c1 c2 c3 s_DX_inv x]; unm; apply m3_ext; ring).
    assert (D : m3_det (M3 (V3 2 0 0) (V3 0 1 0) (V3 0 0 1)) = 2) by (unm; ring). rewrite F, D. destruct (Rle_dec 2 0); [lra|].
    assert (IT : m3_inv_transpose (M3 (V3 2 0 0) (V3 0 1 0) (V3 0 0 1)) = M3 (V3 (1 / 2) 0 0) (V3 0 1 0) (V3 0 0 1)) by (unfold m3_inv_transpose; rewrite D; unm; apply m3_ext; field).
    rewrite IT. cbn [elem_of vol mu lambda DX_inv s s_vol s_mu s_lambda s_DX_inv]. unfold g. unm. f_equal. f_equal; f_equal; lra. }
  exists s, x, g, [V3 (- (3 / 2)) 0 0; v3_0; v3_0; v3_0]. split; [exact E | split; [reflexivity | split; [|split; [cbn; lra | split; [reflexivity | cbn; lra]]]]].
  cbn [add_tet_forces]. rewrite E. unfold bind. cbn [s c0 c1 c2 repeat]. unfold g. cbn [t0 t1 t2]. unm. cbn. unm. apply f_equal. apply f_equal2; [|apply f_equal2; [|apply f_equal2; [|reflexivity]]]; apply f_equal3; lra.
Qed.

(** * Ids and flags *)
(** C115: after normalisation there is one material id per cell and each of them is a material; ids that already are materials are kept, all others
    become zero. *)
Theorem material_ids_normalised : forall k n m s s' ids, (0 < k)%nat -> proper_ids n s -> init_id_attribute (normalize_material k) n m s = Done s' -> read_ids s' = Done ids ->
  length ids = n /\ forall f, (0 <= nth f ids 0 < Z.of_nat k)%Z /\
    match on_cells s with
    | Some (I32 l) => nth f ids 0%Z = nth f l 0%Z <-> (0 <= nth f l 0 < Z.of_nat k)%Z
    | _ => nth f ids 0%Z = 0%Z
    end.
Proof.
  intros k n m s s' ids K PI E R. destruct (init_ids _ _ _ _ _ _ E R) as [(l & Es & ->)|[-> NT]].
  - unfold proper_ids in PI. rewrite Es in *. cbn [attr_length] in PI. rewrite map_length. split; [exact PI|]. intros f.
    assert (EQ : nth f (map (normalize_material k) l) 0%Z = normalize_material k (nth f l 0%Z)).
    { replace 0%Z with (normalize_material k 0) at 1 by (apply normalize_id; lia). apply map_nth. }
    rewrite EQ. pose proof (normalize_range k (nth f l 0%Z) K) as NR. split; [exact NR|]. split; intros H; [rewrite <- H; exact NR | apply normalize_id, H].
  - rewrite repeat_length. split; [reflexivity|]. intros f. assert (X : nth f (repeat 0%Z n) 0%Z = 0%Z) by (clear; revert f; induction n; intros [|f]; cbn; auto). rewrite X. split; [lia|].
    destruct (on_cells s) as [[]|] eqn:Es; try reflexivity. exfalso. exact (proj1 (NT l) eq_refl).
Qed.
Example material_ids_normalised_ex : proper_ids 4 (Slot (Some (I32 [1; -2; 5; 0]%Z)) None) /\
  init_id_attribute (normalize_material 3) 4 9 (Slot (Some (I32 [1; -2; 5; 0]%Z)) None) = Done (Slot (Some (I32 [1; 0; 0; 0]%Z)) None) /\
  init_id_attribute (normalize_material 3) 4 9 (Slot (Some (I64 [1; 1; 1; 1]%Z)) None) = Done (Slot (Some (I32 [0; 0; 0; 0]%Z)) None).
Proof. repeat split; reflexivity. Qed.

(** C115, finding: unsigned ids are removed from the cells and inserted at the vertices, so a problem whose materials are given by ids of type u8 or u32
    is never built, whatever the ids are. *)
Theorem unsigned_material_ids_refuted : forall i edge_order l v, i_mtl_ids i = Slot (Some (U8 l)) v \/ i_mtl_ids i = Slot (Some (U32 l)) v -> forall P, build_problem i edge_order <> Done P.
Proof.
  intros i eo l v H P E. destruct (build_problem_done i eo P E) as (mtl_ids & _ & _ & ids & _ & _ & E1 & E2 & _).
  assert (X : rbind (init_id_attribute (normalize_material (length (i_materials i))) (length (i_cells i)) (i_n i) (i_mtl_ids i)) read_ids = Err AttribError) by (destruct H as [-> | ->]; eapply unsigned_ids; [left | right]; reflexivity).
  rewrite E1 in X. cbn [rbind] in X. congruence.
Qed.
Example unsigned_material_ids_refuted_ex : let i := scene (Slot (Some (U8 [0; 1]%Z)) None) (Slot None None) None None scene_materials [] in
  i_mtl_ids i = Slot (Some (U8 [0; 1]%Z)) None /\ build_problem i edge_table = Err AttribError.
Proof. cbv zeta. split; reflexivity. Qed.

(** C116: the fixed flag of a vertex is one if the given value is not zero, as far as the values are 8 bit numbers, and zero otherwise or if there are
    no values. *)
Theorem fixed_flags_normalised : forall n a, length (init_fixed n a) = match a with Some (Other _) | None => n | Some x => attr_length x end /\
  forall v, (nth v (init_fixed n a) 0 = 0 \/ nth v (init_fixed n a) 0 = 1)%Z /\
    match a with
    | Some (I8 l) => nth v (init_fixed n a) 0%Z = 1%Z <-> nth v l 0%Z <> 0%Z
    | Some (I32 l) | Some (I64 l) | Some (U8 l) | Some (U32 l) | Some (U64 l) => (-128 <= nth v l 0 <= 127)%Z -> (nth v (init_fixed n a) 0%Z = 1%Z <-> nth v l 0%Z <> 0%Z)
    | _ => nth v (init_fixed n a) 0%Z = 0%Z
    end.
Proof.
  intros n a. assert (N : forall z, (normalize_fixed z = 0 \/ normalize_fixed z = 1)%Z /\ (normalize_fixed z = 1%Z <-> z <> 0%Z)).
  { intros z. unfold normalize_fixed. destruct (Z.eqb_spec z 0) as [->|D]; [split; [auto|]; split; intros; congruence | split; [auto | split; auto]]. }
  assert (F : forall z, (-128 <= z <= 127)%Z -> or_zero fits8 z = z).
  { intros z B. unfold or_zero, fits8. destruct (Z.leb_spec (-128) z), (Z.leb_spec z 127); cbn; lia. }
  assert (W : forall (l : list Z) v, (nth v (map (fun z => normalize_fixed (or_zero fits8 z)) l) 0 = 0 \/ nth v (map (fun z => normalize_fixed (or_zero fits8 z)) l) 0 = 1)%Z /\
    ((-128 <= nth v l 0 <= 127)%Z -> (nth v (map (fun z => normalize_fixed (or_zero fits8 z)) l) 0%Z = 1%Z <-> nth v l 0%Z <> 0%Z))).
  { intros l v. assert (EQ : nth v (map (fun z => normalize_fixed (or_zero fits8 z)) l) 0%Z = normalize_fixed (or_zero fits8 (nth v l 0%Z))) by exact (map_nth (fun z => normalize_fixed (or_zero fits8 z)) l 0%Z v).
    rewrite EQ. split; [apply N|]. intros B. rewrite (F _ B). apply N. }
  assert (Z0 : forall v, nth v (repeat 0%Z n) 0%Z = 0%Z) by (clear; induction n; intros [|v]; cbn; auto).
  destruct a as [[]|]; cbn [init_fixed attr_length]; rewrite ?map_length, ?repeat_length; (split; [reflexivity|]); intros v; try (apply W); try (rewrite Z0; auto).
  assert (EQ : nth v (map normalize_fixed l) 0%Z = normalize_fixed (nth v l 0%Z)) by exact (map_nth normalize_fixed l 0%Z v). rewrite EQ. apply N.
Qed.
Example fixed_flags_normalised_ex : init_fixed 3 (Some (I32 [5; 0; -7]%Z)) = [1; 0; 1]%Z /\ init_fixed 3 None = [0; 0; 0]%Z /\ init_fixed 2 (Some (I8 [0; 3]%Z)) = [0; 1]%Z.
Proof. repeat split; reflexivity. Qed.

(** C116, finding: values that do not fit 8 bits are taken for zero, so a vertex whose flag is 200 or 256 is free. *)
Theorem wide_fixed_flags_refuted : exists n l v, (v < length l)%nat /\ nth v l 0%Z = 200%Z /\ nth v (init_fixed n (Some (I32 l))) 0%Z = 0%Z.
Proof. exists 1%nat, [200%Z], 0%nat. cbn. auto. Qed.

(** * Sizes and scales *)
(** C117: the size of a vertex is the least size of the cells around it, where the size of a cell is the side of a square or cube of the same area or
    volume; if some vertices have no cell the error names exactly those. *)
Theorem mesh_sizes_exact : forall ref_pos cells n, well_formed n cells ->
  match rel_mesh_size ref_pos cells n with
  | Done sizes => length sizes = n /\ forall v, (v < n)%nat ->
      (exists f, touches cells f v /\ has_size cells ref_pos f (nth v sizes 0)) /\ forall f s, touches cells f v -> has_size cells ref_pos f s -> nth v sizes 0 <= s
  | Err e => exists orphaned, e = OrphanedVertices orphaned /\ orphaned <> [] /\ StronglySorted lt orphaned /\ forall v, In v orphaned <-> (v < n)%nat /\ forall f, ~ touches cells f v
  | Panic => False
  end.
Proof. exact rel_mesh_size_spec. Qed.
Definition square_cells : list mcell := [MCell true [0; 1; 2]%nat; MCell true [1; 3; 2]%nat].
Example mesh_sizes_exact_ex : well_formed 4 square_cells /\ (exists sizes, rel_mesh_size (fun f i => scene_pos i) square_cells 4 = Done sizes) /\
  rel_mesh_size (fun f i => scene_pos i) square_cells 6 = Err (OrphanedVertices [4; 5]%nat).
Proof. split; [|split; [eexists; reflexivity | reflexivity]]. intros f c N. destruct f as [|[|f]]; cbn in N; [injection N as <-; cbn; split; [reflexivity | intros v I; lia]..|destruct f; discriminate]. Qed.

(** C118: the smallest force scale is the least of one, the scale of inertia and that of gravity, where inertia counts in dynamic simulations and
    gravity if it is not zero, and the largest is the greatest of them; both are positive, so dividing by them is safe. *)
Definition force_scale (dt g s : R) : Prop := s = 1 \/ (0 < dt /\ s = 1 / (dt * dt)) \/ (g <> 0 /\ s = g).
Theorem force_scales_extreme : forall dt g, 0 <= g ->
  (exists s, min_force_scale dt g = Some s /\ 0 < s /\ force_scale dt g s /\ forall t, force_scale dt g t -> s <= t) /\
  (1 <= max_force_scale dt g /\ force_scale dt g (max_force_scale dt g) /\ forall t, force_scale dt g t -> t <= max_force_scale dt g).
Proof.
  intros dt g G. assert (MR : forall a b, (Rmax a b = a \/ Rmax a b = b) /\ a <= Rmax a b /\ b <= Rmax a b) by (intros a b; split; [unfold Rmax; destruct (Rle_dec a b); auto | split; [apply Rmax_l | apply Rmax_r]]).
  assert (MI : forall a b, (Rmin a b = a \/ Rmin a b = b) /\ Rmin a b <= a /\ Rmin a b <= b) by (intros a b; split; [unfold Rmin; destruct (Rle_dec a b); auto | split; [apply Rmin_l | apply Rmin_r]]).
  split.
  - unfold min_force_scale, ignore_zero, min_opt, option_map, force_scale. destruct (Req_EM_T 1 0); [lra|]. destruct (Req_EM_T (1 * g) 0) as [Z|Z].
    + destruct (Rlt_dec 0 dt) as [D|D].
      * pose proof (inertia_pos dt D) as PI. set (q := 1 * 1 / (dt * dt)) in *. assert (Q : 1 / (dt * dt) = q) by (unfold q; f_equal; ring). rewrite Q. eexists. split; [reflexivity|].
        destruct (MI (Rmin (1 * 1 * 1) q) (1 / 1)) as ([E|E] & A & B); destruct (MI (1 * 1 * 1) q) as ([E'|E'] & A' & B'); (split; [lra | split; [lra|]]); intros t [->|[[_ ->]|[N ->]]]; lra.
      * eexists. split; [reflexivity|]. destruct (MI (1 * 1 * 1) (1 / 1)) as ([E|E] & A & B); (split; [lra | split; [left; lra|]]); intros t [->|[[H _]|[N ->]]]; lra.
    + destruct (Rlt_dec 0 dt) as [D|D].
      * pose proof (inertia_pos dt D) as PI. set (q := 1 * 1 / (dt * dt)) in *. assert (Q : 1 / (dt * dt) = q) by (unfold q; f_equal; ring). rewrite Q. eexists. split; [reflexivity|].
        destruct (MI (Rmin (Rmin (1 * 1 * 1) q) (1 * g)) (1 / 1)) as ([E|E] & A & B); destruct (MI (Rmin (1 * 1 * 1) q) (1 * g)) as ([E'|E'] & A' & B'); destruct (MI (1 * 1 * 1) q) as ([E''|E''] & A'' & B''); (split; [lra | split; [lra|]]); intros t [->|[[_ ->]|[N ->]]]; lra.
      * eexists. split; [reflexivity|]. destruct (MI (Rmin (1 * 1 * 1) (1 * g)) (1 / 1)) as ([E|E] & A & B); destruct (MI (1 * 1 * 1) (1 * g)) as ([E'|E'] & A' & B'); (split; [lra | split; [lra|]]); intros t [->|[[H _]|[N ->]]]; lra.
  - unfold max_force_scale, force_scale. cbv zeta. destruct (Rlt_dec 0 dt) as [D|D].
    + pose proof (inertia_pos dt D) as PI. set (q := 1 * 1 / (dt * dt)) in *. assert (Q : 1 / (dt * dt) = q) by (unfold q; f_equal; ring). rewrite Q.
      destruct (MR (Rmax (Rmax (1 * 1 * 1) q) (1 * g)) (1 / 1)) as ([E|E] & A & B); destruct (MR (Rmax (1 * 1 * 1) q) (1 * g)) as ([E'|E'] & A' & B'); destruct (MR (1 * 1 * 1) q) as ([E''|E''] & A'' & B''); destruct (Req_EM_T _ 0); try lra;
        (split; [lra | split; [|intros t [->|[[_ ->]|[N ->]]]; lra]]); destruct (Req_EM_T g 0); lra.
    + destruct (MR (Rmax (Rmax (1 * 1 * 1) 0) (1 * g)) (1 / 1)) as ([E|E] & A & B); destruct (MR (Rmax (1 * 1 * 1) 0) (1 * g)) as ([E'|E'] & A' & B'); destruct (MR (1 * 1 * 1) 0) as ([E''|E''] & A'' & B''); destruct (Req_EM_T _ 0); try lra;
        (split; [lra | split; [|intros t [->|[[H _]|[N ->]]]; lra]]); destruct (Req_EM_T g 0); lra.
Qed.
Example force_scales_extreme_ex : force_scale (1 / 10) (981 / 100) 100 /\ force_scale (1 / 10) (981 / 100) 1 /\ force_scale (1 / 10) (981 / 100) (981 / 100) /\ ~ force_scale 0 0 0.
Proof. unfold force_scale. split; [right; left; split; lra | split; [auto | split; [right; right; split; lra | lra]]]. Qed.

(** C118: scaling never loosens the residual tolerance a user gives. *)
Theorem residual_tolerance_tightens : forall t dt g, 0 <= g -> 0 <= t -> exists r, residual_tolerance (Some t) dt g = Some r /\ 0 <= r <= t /\ (0 < t -> 0 < r).
Proof.
  intros t dt g G T. destruct (scales_spec dt g G) as [_ (s & E & S)]. unfold residual_tolerance. rewrite E. cbn [option_map]. exists (t * s). split; [reflexivity|].
  pose proof (Rmult_le_compat_l t s 1 T (proj2 S)). pose proof (Rmult_le_pos t s T ltac:(lra)). split; [lra|]. intros P. apply Rmult_lt_0_compat; [exact P | apply S].
Qed.
Example residual_tolerance_tightens_ex : residual_tolerance (Some 2) 2 0 = Some (2 * Rmin (Rmin (1 * 1 * 1) (1 * 1 / (2 * 2))) (1 / 1)) /\ 2 * Rmin (Rmin (1 * 1 * 1) (1 * 1 / (2 * 2))) (1 / 1) = 1 / 2.
Proof.
  unfold residual_tolerance, min_force_scale, ignore_zero, min_opt, option_map. destruct (Req_EM_T 1 0); [lra|]. destruct (Req_EM_T (1 * 0) 0); [|lra]. destruct (Rlt_dec 0 2); [|lra]. split; [reflexivity|].
  unfold Rmin. destruct (Rle_dec (1 * 1 * 1) (1 * 1 / (2 * 2))); [lra|]. destruct (Rle_dec (1 * 1 / (2 * 2)) (1 / 1)); lra.
Qed.

(** * The built problem *)
(** C119: the masses of the vertices add up to the masses of the elements; every free vertex has a positive mass and its inverse, all others have
    inverse mass zero.  Tetrahedra with the material of a shell are excluded. *)
Theorem free_vertices_have_mass : forall i edge_order P, well_posed i -> positive_densities i -> solid_tetrahedra i -> build_problem i edge_order = Done P ->
  length (p_masses P) = i_n i /\ length (p_mass_inv P) = i_n i /\
  rsum (p_masses P) = total_mass (tet_masses (nh_tets (p_solid P)) ++ tet_masses (snh_tets (p_solid P))) + total_mass (tri_masses (p_tris P)) /\
  forall v, (v < i_n i)%nat -> 0 <= nth v (p_masses P) 0 /\
    (nth_error (p_types P) v = Some Free -> 0 < nth v (p_masses P) 0 /\ nth v (p_mass_inv P) 0 = / nth v (p_masses P) 0) /\
    (nth_error (p_types P) v <> Some Free -> nth v (p_mass_inv P) 0 = 0).
Proof.
  intros i eo P W PD ST E. destruct (problem_masses i eo P W PD ST E) as (A & B & C). split; [exact A | split; [exact B | split; [|exact C]]].
  destruct (problem_mesh i eo P W E) as (types & ids & F & ET & EC & _ & ES & EB & _ & EM & _). rewrite EC, ET in ES, EB. destruct (masses_done i types ids _ _ F ES EB) as (m & E' & _ & R). rewrite EM in E'. injection E' as <-. exact R.
Qed.
Example free_vertices_have_mass_ex : well_posed good_scene /\ positive_densities good_scene /\ solid_tetrahedra good_scene /\ (exists P, build_problem good_scene edge_table = Done P) /\
  forall P, build_problem good_scene edge_table = Done P -> p_types P = [Free; Free; Free; Free; Free; Free; Fixed].
Proof.
  split; [exact good_scene_posed | split; [|split; [|split; [exact good_scene_built|]]]].
  - cbn. intros m [<-|[<-|[]]] rho E; injection E as <-; lra.
  - intros f t d b T. cbn [good_scene scene i_cells] in T. apply scene_tet in T. destruct T as [-> _]. discriminate.
  - intros P E. destruct (build_problem_done _ _ _ E) as (mtl & obj & types & ids & oids & sizes & E1 & _ & _ & _ & _ & _ & E3 & E4 & _).
    cbn in E1. injection E1 as <-. cbn in E3. injection E3 as <-. rewrite E4. reflexivity.
Qed.

(** C119, finding: the vertices of a tetrahedron with the material of a shell are free degrees of freedom, but no element is built from it; they have no
    mass, and their inverse mass is one over zero. *)
Definition shell_tet : input := Input [MCell false [1; 2; 3; 0]%nat] 4 scene_pos None None (Slot None None) (Slot None None) None None [SoftShell (Deformable (Some 2) (Some (Lame 1 1)) 0) None] None None None None None None [] (fun _ => []).
Lemma shell_tet_posed : well_posed shell_tet.
Proof.
  constructor; cbn; try exact I; try reflexivity; try discriminate; try contradiction.
  - intros f c N. destruct f as [|f]; cbn in N; [injection N as <-; cbn; split; [reflexivity | intros v J; lia] | destruct f; discriminate].
  - intros f c N T. destruct f as [|f]; cbn in N; [injection N as <-; discriminate | destruct f; discriminate].
Qed.
Lemma shell_tet_cells f t : tet_at (i_cells shell_tet) f t -> f = O /\ t = (1, 2, 3, 0)%nat.
Proof. intros (c & N & T). destruct f as [|f]; cbn in N; [|destruct f; discriminate]. injection N as <-. cbn in T. injection T as <-. auto. Qed.
Lemma shell_tet_no_tri f t : ~ triangle_at (i_cells shell_tet) f t.
Proof. intros (c & N & T). destruct f as [|f]; cbn in N; [|destruct f; discriminate]. injection N as <-. discriminate. Qed.
Lemma shell_tet_material f : cell_material shell_tet f = Some (SoftShell (Deformable (Some 2) (Some (Lame 1 1)) 0) None).
Proof. reflexivity. Qed.
Lemma shell_tet_built : exists P, build_problem shell_tet edge_table = Done P.
Proof.
  pose proof (problem_outcome shell_tet edge_table shell_tet_posed table_orders) as O. destruct (build_problem shell_tet edge_table) as [P|e|]; [eauto | exfalso | contradiction].
  destruct e; cbn [outcome_spec] in O; try contradiction.
  - destruct O as (f & t & m & T & _). exact (shell_tet_no_tri f t T).
  - destruct O as (_ & f & d & x & [M|[b M]] & D); rewrite shell_tet_material in M; [injection M as <- <- | discriminate]. discriminate.
  - destruct O as (_ & f & d & x & [M|[b M]] & D); rewrite shell_tet_material in M; [injection M as <- <- | discriminate]. discriminate.
  - destruct O as (f & t & T & _). exact (shell_tet_no_tri f t T).
  - destruct O as (f & t & T & A). apply shell_tet_cells in T. destruct T as [-> _]. revert A. unfold ref_tet4, ref_of, cell_ref_pos, cell_to_vertex. cbn [shell_tet i_cells i_pos i_ref_corners i_ref_verts nth m_verts scene_pos]. unm. lra.
  - destruct O as (NE & _ & H). destruct orphaned as [|v r]; [congruence|]. destruct (proj1 (H v) (or_introl eq_refl)) as [L N]. apply (N O). eexists. split; [reflexivity|]. cbn in L |- *. lia.
  - destruct O as (p & id & u & []).
  - specialize (O 0%nat _ _ 1%nat eq_refl (shell_tet_material 0)). apply O; [discriminate | cbn; auto | reflexivity].
  - destruct O as [(p & a & b & u & [] & _) _].
Qed.
Theorem shell_tetrahedra_have_mass_refuted : exists i P v, well_posed i /\ positive_densities i /\ build_problem i edge_table = Done P /\
  nth_error (p_types P) v = Some Free /\ nth v (p_masses P) 0 = 0 /\ nth v (p_mass_inv P) 0 = 1 / 0.
Proof.
  destruct shell_tet_built as [P E]. exists shell_tet, P, O. split; [exact shell_tet_posed | split; [|split; [exact E|]]].
  - cbn. intros m [<-|[]] rho H. injection H as <-. lra.
  - destruct (build_problem_done _ _ _ E) as (mtl & obj & types & ids & oids & sizes & E1 & E2 & _ & _ & _ & _ & E3 & E4 & E5 & _ & _ & _ & E7 & E8 & _ & E10 & E11 & _).
    cbn in E1. injection E1 as <-. cbn in E2. injection E2 as <-. cbn in E3. injection E3 as <-. assert (TY : p_types P = [Free; Free; Free; Free]) by (rewrite E4; reflexivity).
    rewrite TY in E7, E8, E11. rewrite E5 in E7, E8. cbv [sorted_cells shell_tet i_cells i_materials] in E7, E8. unfold build_solid, build_tets in E7. cbn in E7. unfold ref_tet_volumes in E7. cbn in E7. injection E7 as E7.
    unfold build_triangles, ref_tri_areas in E8. cbn in E8. unfold ref_tri_areas in E8. cbn in E8. injection E8 as E8. rewrite <- E7, <- E8 in E10. cbn in E10. injection E10 as E10. rewrite E11, <- E10, TY. cbn. auto.
Qed.

(** C120: the contacts of a built problem are the ones asked for, in order, between different objects that exist, with the given tolerance, a positive
    stiffness for positive tolerances, and surfaces that count as fixed when all their vertices are. *)
Definition contact_as_asked (i : input) (P : problem) (c : contact_request) (k : contact) : Prop :=
  let '(p, (a, b), use_fixed) := c in
  ct_object k = a /\ ct_collider k = b /\ a <> b /\ ct_use_fixed k = use_fixed /\ ct_tolerance k = cp_tolerance p /\
  (exists f, (f < length (i_cells i))%nat /\ cell_object i f = a) /\ (exists f, (f < length (i_cells i))%nat /\ cell_object i f = b) /\
  (0 < cp_stiffness p -> ct_stiffness k = cp_stiffness p) /\ (cp_stiffness p <= 0 -> 0 < cp_tolerance p -> ct_stiffness k * cp_tolerance p = 1) /\
  (ct_object_fixed k = true <-> forall face v, In face (i_surface i a) -> In v face -> nth_error (p_types P) v = Some Fixed) /\
  (ct_collider_fixed k = true <-> forall face v, In face (i_surface i b) -> In v face -> nth_error (p_types P) v = Some Fixed).
Theorem contacts_as_asked : forall i edge_order P, well_posed i -> build_problem i edge_order = Done P -> Forall2 (contact_as_asked i P) (i_contacts i) (p_contacts P).
Proof.
  intros i eo P W E. destruct (build_problem_done i eo P E) as (mtl & obj & types & ids & oids & sizes & E1 & E2 & E3 & E4 & _ & _ & ET & EY & _ & _ & _ & _ & _ & _ & _ & _ & _ & _ & NS & EC).
  destruct (mesh_steps i W) as (mtl' & types' & ids' & D1 & D2 & D3 & F). rewrite E1 in D1. injection D1 as <-. rewrite E2 in D2. injection D2 as <-. rewrite ET in D3. injection D3 as <-.
  pose proof (objects_spec i obj oids (wp_obj i W) E3 E4) as OS. pose proof (mf_sorted _ _ _ F) as LS. rewrite EY in EC.
  assert (B : forall id face v, In face (i_surface i id) -> In v face -> (v < length (sort_types types))%nat) by (intros id face v; rewrite LS; apply (wp_surface i W)).
  apply collect_done in EC. assert (NO : forall c, In c (i_contacts i) -> fst (snd (fst c)) <> snd (snd (fst c))).
  { intros c I X. assert (Y : has_self_contact (i_contacts i) = true) by (apply existsb_exists; exists c; split; [exact I | apply Nat.eqb_eq, X]). congruence. }
  revert NO. clear NS. induction EC as [|c k cs ks Ek _ IH]; intros NO; [constructor|]. constructor; [|apply IH; intros; apply NO; right; assumption].
  pose proof (build_contact_spec i types oids c B) as SC. rewrite Ek in SC. specialize (NO c (or_introl eq_refl)). destruct c as [[p [a b]] u]. cbn in NO. destruct SC as (SA & SB & Ea & Eb & Eu & Et & Es).
  pose proof (contact_surface_spec oids (i_surface i) (sort_types types) a (B a)) as CA. rewrite SA in CA. destruct CA as [XA FA].
  pose proof (contact_surface_spec oids (i_surface i) (sort_types types) b (B b)) as CB. rewrite SB in CB. destruct CB as [XB FB].
  unfold contact_as_asked. rewrite EY. split; [exact Ea | split; [exact Eb | split; [exact NO | split; [exact Eu | split; [exact Et | split; [apply OS, XA | split; [apply OS, XB | split; [|split; [|split; [exact FA | exact FB]]]]]]]]]].
  - intros S. rewrite Es. destruct (Rle_dec (cp_stiffness p) 0); [lra | reflexivity].
  - intros S T. rewrite Es. destruct (Rle_dec (cp_stiffness p) 0); [field; lra | lra].
Qed.
Example contacts_as_asked_ex : well_posed good_scene /\ i_contacts good_scene = [scene_contact] /\ exists P k, build_problem good_scene edge_table = Done P /\ p_contacts P = [k] /\ ct_stiffness k * (1 / 2) = 1 /\ ct_object_fixed k = false.
Proof.
  split; [exact good_scene_posed | split; [reflexivity|]]. destruct good_scene_built as [P E]. pose proof (contacts_as_asked _ _ P good_scene_posed E) as C. cbn [good_scene scene i_contacts] in C.
  inversion C as [|c k cs ks Hk Hr Ec Ek]. inversion Hr. subst. exists P, k. cbn in Hk. destruct Hk as (_ & _ & _ & _ & _ & _ & _ & _ & S & FO & _). split; [exact E | split; [congruence | split; [apply S; lra|]]].
  destruct (ct_object_fixed k); [|reflexivity]. exfalso. pose proof (proj1 FO eq_refl [0; 1; 2]%nat 0%nat (or_introl eq_refl) (or_introl eq_refl)) as X. destruct free_vertices_have_mass_ex as (_ & _ & _ & _ & Y). rewrite (Y P E) in X. discriminate.
Qed.

(** C120: in a dynamic simulation every contact is recorded. *)
Theorem dynamic_contacts_recorded : forall dt cs, fold_left (add_contact (Some dt)) cs [] = cs.
Proof.
  intros dt cs. assert (H : forall acc, fold_left (add_contact (Some dt)) cs acc = acc ++ cs).
  { induction cs as [|c cs IH]; intros acc; cbn [fold_left]; [symmetry; apply app_nil_r|]. rewrite IH. unfold add_contact. rewrite orb_true_r, <- app_assoc. reflexivity. }
  apply (H []).
Qed.
Example dynamic_contacts_recorded_ex : fold_left (add_contact (Some 1)) [scene_contact; (ContactParams 1 1 true, (1, 0)%nat, false)] [] = [scene_contact; (ContactParams 1 1 true, (1, 0)%nat, false)].
Proof. reflexivity. Qed.
(** C120, finding: in a static simulation a contact that also has friction parameters is dropped as a whole, without an error, so the objects penetrate
    freely; the same contact without friction is kept. *)
Theorem static_contacts_recorded_refuted : exists tol k ids fixed, add_contact None [] (ContactParams tol k true, ids, fixed) = [] /\ add_contact None [] (ContactParams tol k false, ids, fixed) <> [].
Proof. exists 1, 1, (0, 1)%nat, false. split; [reflexivity | discriminate]. Qed.

(** C121: from a well formed mesh with materials, ids that are not unsigned, and no own source indices, building a problem does not panic, and every error
    it returns is justified by the input. *)
Theorem build_problem_total : forall i edge_order, well_posed i -> orders_edges edge_order ->
  match build_problem i edge_order with
  | Done _ => True
  | Panic => False
  | Err (OrphanedVertices l) => l <> [] /\ StronglySorted lt l /\ forall v, In v l <-> (v < i_n i)%nat /\ forall f, ~ touches (i_cells i) f v
  | Err (InvertedReferenceElement _) => exists f t, tet_at (i_cells i) f t /\ m3_det (shape_matrix (ref_tet4 (cell_ref_pos (i_cells i) (i_pos i) (i_ref_corners i) (i_ref_verts i)) f)) <= 0
  | Err (DegenerateReferenceElement _) => exists f t, triangle_at (i_cells i) f t /\ tri_area (ref_tri3 (cell_ref_pos (i_cells i) (i_pos i) (i_ref_corners i) (i_ref_verts i)) f) = 0
  | Err ObjectMaterialMismatch => exists f t m, triangle_at (i_cells i) f t /\ cell_material i f = Some m /\ forall d b, m <> SoftShell d b
  | Err MissingDensity => i_density i = None /\ exists f d x, (cell_material i f = Some (SoftShell d x) \/ exists b, cell_material i f = Some (Solid d b)) /\ m_density d = None
  | Err MissingElasticityParams => (i_lambda i = None \/ i_mu i = None) /\ exists f d x, (cell_material i f = Some (SoftShell d x) \/ exists b, cell_material i f = Some (Solid d b)) /\ m_elasticity d = None
  | Err NothingToSolve => forall f c m v, nth_error (i_cells i) f = Some c -> cell_material i f = Some m -> m <> FixedMat -> In v (m_verts c) -> held i v
  | Err UnimplementedFeature => exists p id fixed, In (p, (id, id), fixed) (i_contacts i)
  | Err (ContactObjectIdError id) => (exists p a b fixed, In (p, (a, b), fixed) (i_contacts i) /\ (id = a \/ id = b)) /\ forall f, (f < length (i_cells i))%nat -> cell_object i f <> id
  | Err AttribError => False
  end.
Proof. exact problem_outcome. Qed.
Definition with_contacts (cs : list contact_request) : input := scene (Slot (Some (I32 [0; 1]%Z)) None) (Slot (Some (I32 [0; 1]%Z)) None) None None scene_materials cs.
Lemma with_contacts_posed cs : well_posed (with_contacts cs).
Proof. constructor; cbn; [exact scene_well_formed | exact scene_simple | discriminate | reflexivity | reflexivity | discriminate | reflexivity | exact scene_faces]. Qed.
(** A request for a contact of object 0 with object 7 fails, and so it must be one of the errors above. *)
Example build_problem_total_ex : orders_edges edge_table /\ well_posed good_scene /\ (exists P, build_problem good_scene edge_table = Done P) /\
  well_posed (with_contacts [(ContactParams 1 1 false, (0, 7)%nat, true)]) /\ (forall f, (f < 2)%nat -> cell_object (with_contacts [(ContactParams 1 1 false, (0, 7)%nat, true)]) f <> 7%nat) /\
  forall P, build_problem (with_contacts [(ContactParams 1 1 false, (0, 7)%nat, true)]) edge_table <> Done P.
Proof.
  split; [exact table_orders | split; [exact good_scene_posed | split; [exact good_scene_built | split; [apply with_contacts_posed | split]]]].
  - intros f L. destruct f as [|[|f]]; cbn; [discriminate | discriminate | lia].
  - intros P E. pose proof (contacts_as_asked _ _ P (with_contacts_posed _) E) as C. cbn [with_contacts scene i_contacts] in C. inversion C as [|c k cs ks Hk Hr Ec Ek]. cbn in Hk. destruct Hk as (_ & _ & _ & _ & _ & _ & (f & L & X) & _).
    cbn in L. destruct f as [|[|f]]; cbn in X; [discriminate | discriminate | lia].
Qed.

(** C121, finding: without any material the construction panics on the first cell, instead of reporting an error. *)
Theorem no_materials_panic_refuted : exists i m, well_posed i /\ i_materials i = [m] /\
  build_problem (Input (i_cells i) (i_n i) (i_pos i) None None (i_mtl_ids i) (i_obj_ids i) (i_fixed i) (i_source i) [] None None None None None None [] (i_surface i)) edge_table = Panic.
Proof. exists shell_tet, (SoftShell (Deformable (Some 2) (Some (Lame 1 1)) 0) None). split; [exact shell_tet_posed | split; reflexivity]. Qed.
(** C121, finding: source indices given with the mesh must be smaller than the number of its vertices, or the construction panics. *)
Theorem source_indices_panic_refuted : exists i source, well_posed i /\ length source = i_n i /\ NoDup source /\
  build_problem (Input (i_cells i) (i_n i) (i_pos i) None None (i_mtl_ids i) (i_obj_ids i) (i_fixed i) (Some source) (i_materials i) None None None None None None [] (i_surface i)) edge_table = Panic.
Proof. exists shell_tet, [10; 11; 12; 13]%nat. split; [exact shell_tet_posed | split; [reflexivity | split; [repeat constructor; cbn; lia | reflexivity]]]. Qed.
(** C121, finding: object ids of an unsigned 8 bit type make the construction panic, even if no contacts are asked for, when there are as many cells as
    vertices; the ids are then accepted as ids of the vertices and missing on the cells. *)
Definition two_pieces (obj : slot) : input :=
  Input [MCell true [0; 1; 2]%nat; MCell true [1; 3; 2]%nat; MCell true [0; 3; 1]%nat; MCell true [0; 2; 3]%nat] 4 scene_pos None None (Slot None None) obj None None [SoftShell (Deformable (Some 2) (Some (Lame 1 1)) 0) None] None None None None None None [] (fun _ => []).
Lemma two_pieces_posed obj : proper_ids 4 obj -> well_posed (two_pieces obj).
Proof.
  intros PI. constructor; cbn; [| | discriminate | reflexivity | exact PI | discriminate | reflexivity | contradiction].
  - intros f c N. do 4 (destruct f as [|f]; [cbn in N; injection N as <-; cbn; split; [reflexivity | intros v J; lia]|]). destruct f; discriminate.
  - intros f c N _. do 4 (destruct f as [|f]; [cbn in N; injection N as <-; cbn; repeat constructor; cbn; lia|]). destruct f; discriminate.
Qed.
Theorem unsigned_object_ids_panic_refuted : (exists P, build_problem (two_pieces (Slot (Some (I32 [0; 0; 0; 0]%Z)) None)) edge_table = Done P) /\
  build_problem (two_pieces (Slot (Some (U8 [0; 0; 0; 0]%Z)) None)) edge_table = Panic.
Proof.
  assert (X : exists P, build_problem (two_pieces (Slot (Some (I32 [0; 0; 0; 0]%Z)) None)) edge_table = Done P).
  { pose proof (problem_outcome _ edge_table (two_pieces_posed (Slot (Some (I32 [0; 0; 0; 0]%Z)) None) eq_refl) table_orders) as Q.
    destruct (build_problem (two_pieces (Slot (Some (I32 [0; 0; 0; 0]%Z)) None)) edge_table) as [P|e|]; [eauto | exfalso | contradiction]. destruct e; cbn [outcome_spec] in Q; try contradiction.
    - destruct Q as (f & t & m & _ & M & N). cbn in M. injection M as <-. exact (N _ _ eq_refl).
    - destruct Q as (_ & f & d & x & M & D). cbn in M. destruct M as [M|[b M]]; try discriminate; injection M as <-; discriminate.
    - destruct Q as (_ & f & d & x & M & D). cbn in M. destruct M as [M|[b M]]; try discriminate; injection M as <-; discriminate.
    - destruct Q as (f & t & (c & N & T) & A). enough (0 < tri_area (ref_tri3 (ref_of (two_pieces (Slot (Some (I32 [0; 0; 0; 0]%Z)) None))) f)) by (unfold ref_of in *; lra).
      apply tri_area_pos. intros Z. do 4 (destruct f as [|f]; [first [apply (f_equal vz) in Z; revert Z; cbn; lra | apply (f_equal vx) in Z; revert Z; cbn; lra | apply (f_equal vy) in Z; revert Z; cbn; lra]|]). destruct f; discriminate.
    - destruct Q as (f & t & (c & N & T) & A). do 4 (destruct f as [|f]; [cbn in N; injection N as <-; discriminate|]). destruct f; discriminate.
    - destruct Q as (NE & _ & H). destruct orphaned as [|v r]; [congruence|]. destruct (proj1 (H v) (or_introl eq_refl)) as [L N]. cbn in L. destruct v as [|[|[|[|v]]]]; [apply (N O) | apply (N O) | apply (N O) | apply (N 1%nat) | lia]; (eexists; split; [reflexivity | cbn; tauto]).
    - destruct Q as (p & id & u & []).
    - specialize (Q O _ _ O eq_refl eq_refl). cbn in Q. unfold held in Q. cbn in Q. apply Q; [discriminate | auto | reflexivity].
    - destruct Q as [(p & a & b & u & [] & H) N]. }
  split; [exact X|]. destruct X as [P E].
  exact (objects_unread _ _ _ (Slot (Some (U8 [0; 0; 0; 0]%Z)) None) (Slot None (Some (I32 [0; 0; 0; 0]%Z))) E eq_refl ltac:(discriminate)).
Qed.

(** C122: the mesh of the problem is the given one up to the order of its vertices; the two index vectors are inverse to each other, and cells keep their
    order, kind and corners, at the same positions. *)
Theorem sorted_mesh_is_given : forall i edge_order P, well_posed i -> build_problem i edge_order = Done P ->
  Permutation (p_orig_index P) (seq 0 (i_n i)) /\ length (p_cells P) = length (i_cells i) /\
  (forall v, (v < i_n i)%nat -> exists w, nth_error (p_state_index P) v = Some (Some w) /\ nth_error (p_orig_index P) w = Some v) /\
  (forall f c, nth_error (i_cells i) f = Some c -> exists c', nth_error (p_cells P) f = Some c' /\ is_tri c' = is_tri c /\
    Forall2 (fun v w => nth_error (p_orig_index P) w = Some v /\ p_pos P w = i_pos i v) (m_verts c) (m_verts c')).
Proof. exact sorted_mesh. Qed.
Lemma good_scene_order P : build_problem good_scene edge_table = Done P -> p_orig_index P = [1; 2; 3; 4; 5; 6; 0]%nat.
Proof.
  intros E. destruct (build_problem_done _ _ _ E) as (mtl & obj & types & ids & oids & sizes & E1 & _ & _ & _ & _ & _ & E3 & E4 & _ & _ & E7 & _).
  cbn in E1. injection E1 as <-. cbn in E3. injection E3 as <-. rewrite E7. reflexivity.
Qed.
Example sorted_mesh_is_given_ex : well_posed good_scene /\ exists P, build_problem good_scene edge_table = Done P /\ p_orig_index P = [1; 2; 3; 4; 5; 6; 0]%nat.
Proof. split; [exact good_scene_posed|]. destruct good_scene_built as [P E]. exists P. split; [exact E | exact (good_scene_order P E)]. Qed.

(** C122: a problem built without reference attributes from consistently oriented triangles and solids is in equilibrium: shell and plain solids store no
    energy and no element exerts a force. *)
Theorem built_problem_at_rest : forall i edge_order P dqdv, well_posed i -> orders_edges edge_order -> build_problem i edge_order = Done P ->
  i_ref_corners i = None -> i_ref_verts i = None -> i_ref_angle i = None -> oriented (i_cells i) -> stiff_solids i ->
  let n := i_n i in let still := fun _ : nat => v3_0 in
  shell_energy (shell_of P) dqdv (p_pos P) still = Fin 0 /\ add_shell_gradient (shell_of P) dqdv (p_pos P) still (repeat v3_0 n) = Some (repeat v3_0 n) /\
  mesh_energy neo_hookean (solid_tets_of (nh_tets (p_solid P))) dqdv (p_pos P) still = Fin 0 /\
  add_mesh_gradient neo_hookean (solid_tets_of (nh_tets (p_solid P))) dqdv (p_pos P) still (repeat v3_0 n) = Some (repeat v3_0 n) /\
  add_mesh_gradient stable_neo_hookean (solid_tets_of (snh_tets (p_solid P))) dqdv (p_pos P) still (repeat v3_0 n) = Some (repeat v3_0 n).
Proof.
  intros i eo P dqdv W PE E NC NV NA OR ST. destruct (problem_mesh i eo P W E) as (types & ids & F & ET & EC & _ & ES & _). rewrite EC, ET in ES.
  exact (problem_at_rest i eo P dqdv W PE E NC NV NA OR (stable_lambda i types ids _ F ST ES)).
Qed.
Example built_problem_at_rest_ex : well_posed good_scene /\ orders_edges edge_table /\ (exists P, build_problem good_scene edge_table = Done P) /\
  i_ref_corners good_scene = None /\ i_ref_verts good_scene = None /\ i_ref_angle good_scene = None /\ oriented (i_cells good_scene) /\ stiff_solids good_scene.
Proof.
  split; [exact good_scene_posed | split; [exact table_orders | split; [exact good_scene_built | split; [reflexivity | split; [reflexivity | split; [reflexivity | split]]]]]].
  - intros f g a b (x & y & z & T & _) (x' & y' & z' & T' & _). cbn [good_scene scene i_cells] in T, T'. apply scene_tri in T. apply scene_tri in T'. destruct T as [-> _], T' as [-> _]. reflexivity.
  - cbn. intros d e [J|[J|[]]] EE; [|discriminate]. injection J as <-. cbn in EE. injection EE as <-. cbn. lra.
Qed.

(** C122: reference positions given on vertices mean the same as given on the corners of cells at those vertices, and none given mean
    the positions themselves; the attribute on corners takes precedence. *)
Definition with_refs (i : input) (corners : option (nat -> nat -> v3)) (verts : option (nat -> v3)) : input :=
  Input (i_cells i) (i_n i) (i_pos i) corners verts (i_mtl_ids i) (i_obj_ids i) (i_fixed i) (i_source i) (i_materials i) (i_density i) (i_lambda i) (i_mu i) (i_damping i)
    (i_ref_angle i) (i_bend i) (i_contacts i) (i_surface i).
Theorem reference_attributes_agree : forall i edge_order q r v,
  build_problem (with_refs i None (Some q)) edge_order = build_problem (with_refs i (Some (fun f k => q (nth k (m_verts (nth f (i_cells i) (MCell false []))) O))) None) edge_order /\
  build_problem (with_refs i None None) edge_order = build_problem (with_refs i None (Some (i_pos i))) edge_order /\
  build_problem (with_refs i (Some r) v) edge_order = build_problem (with_refs i (Some r) None) edge_order.
Proof. intros i eo q r v. split; [|split]; reflexivity. Qed.
Example reference_attributes_agree_ex : exists P, build_problem (with_refs good_scene None None) edge_table = Done P.
Proof. exact good_scene_built. Qed.

Print Assumptions tet_mass_attribute_total.
Print Assumptions tet_mass_fourth_corner_refuted.
Print Assumptions tet_forces_fourth_corner_refuted.
Print Assumptions material_ids_normalised.
Print Assumptions unsigned_material_ids_refuted.
Print Assumptions fixed_flags_normalised.
Print Assumptions wide_fixed_flags_refuted.
Print Assumptions mesh_sizes_exact.
Print Assumptions force_scales_extreme.
Print Assumptions residual_tolerance_tightens.
Print Assumptions free_vertices_have_mass.
Print Assumptions shell_tetrahedra_have_mass_refuted.
Print Assumptions contacts_as_asked.
Print Assumptions dynamic_contacts_recorded.
Print Assumptions static_contacts_recorded_refuted.
Print Assumptions build_problem_total.
Print Assumptions no_materials_panic_refuted.
Print Assumptions source_indices_panic_refuted.
Print Assumptions unsigned_object_ids_panic_refuted.
Print Assumptions sorted_mesh_is_given.
Print Assumptions built_problem_at_rest.
Print Assumptions reference_attributes_agree.
