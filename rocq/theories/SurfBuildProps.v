(** C136-C138: building implicit surfaces from triangle meshes and point clouds. *)
From Coq Require Import String Reals List Bool ZArith Lra Lia.
From Verif Require Import Vec3 RList KernelModel FieldModel FieldSpec FieldProofs NeighborModel NeighborSpec NeighborProofs UpdateProps SurfJacSpec SurfBuildModel SurfBuildSpec SurfBuildProofs.
Import ListNotations.
Local Open Scope R_scope.

(** C136: every vertex of a mesh lists the triangles around it, each once if corners differ; there are no lists without triangles; and an index
    that is out of bounds panics. *)
Theorem dual_topology_exact n ts :
  ((forall t v, In t ts -> In v (tri_verts t) -> (v < n)%nat) -> exists dual, compute_dual_topo n ts = Some dual /\ length dual = (if is_nil ts then 0 else n)%nat /\
     (forall i t, In t (nth i dual []) <-> ((i < length dual)%nat /\ (t < length ts)%nat /\ In i (tri_verts (nth t ts (0, 0, 0)%nat)))) /\
     ((forall t, In t ts -> distinct_corners t) -> forall i, NoDup (nth i dual []))) /\
  ((exists t v, In t ts /\ In v (tri_verts t) /\ (n <= v)%nat) -> compute_dual_topo n ts = None).
Proof. split; [apply dual_topo_spec|]. intros (t & v & T & V & L). exact (dual_topo_none n ts t v T V L). Qed.
Example dual_topology_example : compute_dual_topo 5 [(0, 1, 2)%nat; (1, 3, 2)%nat] = Some [[0]; [0; 1]; [0; 1]; [1]; []]%nat /\ compute_dual_topo 3 [(0, 1, 2)%nat; (1, 3, 2)%nat] = None /\ compute_dual_topo 3 [] = Some [].
Proof. repeat split. Qed.

(** What samples of a built surface hold. *)
Definition built_from (m : mesh) (b : base) : Prop :=
  (well_formed b /\ current b /\ sampled b) /\
  (sb_verts b = me_verts m /\ sb_topo b = me_faces m) /\
  ((forall t, In t (me_faces m) -> distinct_corners t) -> me_faces m <> [] -> proper_mesh b) /\
  (forall i, (i < length (sb_samples b))%nat -> let s := smp (sb_samples b) i in
     match sb_type b with
     | SVertex => s_value s = scalar_at (scalars "offset"%string (me_vattr m)) i /\ s_vel s = vector_at (vectors "V"%string (me_vattr m)) i
     | SFace => s_value s = scalar_at (scalars "offset"%string (me_fattr m)) i /\
         let '(u, v, w) := nth i (me_faces m) (0, 0, 0)%nat in let V := vector_at (vectors "V"%string (me_vattr m)) in v3_scale 3 (s_vel s) = v3_add (v3_add (V u) (V v)) (V w)
     end) /\
  (forall N, sb_type b = SVertex -> vectors "N"%string (me_vattr m) = Some N -> N <> [] -> map s_nml (sb_samples b) = N) /\
  (sb_type b = SFace \/ vectors "N"%string (me_vattr m) = None -> (forall t, In t (me_faces m) -> distinct_corners t) -> in_place b).

Lemma build_base_tri b m : bu_mesh b = SMTri m -> attributes_fit m ->
  (valid_mesh m -> (bu_type b = SFace -> me_faces m <> []) -> exists B, build_base b = Some (Some B) /\ sb_bg B = bu_bg b /\ sb_type B = bu_type b /\ built_from m B) /\
  (bu_type b = SFace -> me_faces m = [] -> build_base b = Some None) /\
  (~ valid_mesh m -> build_base b = None).
Proof.
  intros M A. destruct (offsets_fit m A) as [LO NO]. destruct (face_offsets_fit m A) as [LF NF]. destruct (velocities_fit m A) as [LV NV]. assert (LN := normals_fit m A).
  unfold build_base. rewrite M. split; [|split].
  - intros VM NE. destruct (dual_topo_spec (length (me_verts m)) (me_faces m) VM) as (dual & ED & LD & ID & ND).
    assert (CE : corners_exist (length (me_verts m)) (me_faces m) = true) by (apply corners_exist_spec; exact VM).
    destruct (bu_type b) eqn:T.
    + rewrite (negb_eqb _ _ (eq_sym LO)), (negb_eqb _ _ (eq_sym LV)), CE. set (given := vertex_normals m) in *.
      assert (G : is_nil given = true \/ is_nil given = false /\ length given = length (me_verts m)) by (destruct given; [left; reflexivity|right; split; [reflexivity|apply LN; discriminate]]).
      set (normals := if is_nil given then map (vertex_normal (me_verts m) (me_faces m)) (seq 0 (length (me_verts m))) else given).
      assert (LL : length normals = length (me_verts m)) by (unfold normals; destruct G as [->|[-> G]]; [rewrite map_length, seq_length; reflexivity|exact G]).
      replace (negb (is_nil given) && negb (Nat.eqb (length given) (length (me_verts m))))%bool with false by (destruct G as [->|[-> G]]; [reflexivity|rewrite (negb_eqb _ _ G); reflexivity]).
      replace (is_nil given && negb true)%bool with false by (rewrite andb_false_r; reflexivity). cbv zeta. fold normals. unfold finish. rewrite ED. cbn [option_map]. eexists. split; [reflexivity|]. rewrite T. cbn [sb_bg sb_type]. split; [reflexivity|]. split; [reflexivity|].
      destruct (samples_of_spec (length (me_verts m)) (me_verts m) normals (vertex_velocities m) (vertex_offsets m) eq_refl LL LV LO) as (S1 & S2 & S3).
      assert (S4 := samples_of_normals (length (me_verts m)) (me_verts m) normals (vertex_velocities m) (vertex_offsets m) eq_refl LL LV LO).
      set (SS := samples_of (me_verts m) normals (vertex_velocities m) (vertex_offsets m)) in *.
      unfold built_from. cbn [sb_verts sb_topo sb_type sb_samples]. refine (conj (conj _ (conj _ _)) (conj (conj eq_refl eq_refl) (conj _ (conj _ (conj _ _))))).
      * unfold well_formed. cbn [sb_topo sb_verts sb_type sb_samples sb_dual]. split; [exact VM|]. split; [exact S1|]. split; [|exact ID].
        destruct (me_faces m); [left; cbn in LD; destruct dual; [reflexivity|discriminate]|right; exact LD].
      * reflexivity.
      * exact S2.
      * intros D NF'. split; cbn [sb_topo sb_dual sb_verts sb_type]; [exact D|]. intros _. split; [|exact (ND D)]. rewrite LD. destruct (me_faces m); [congruence|reflexivity].
      * intros i L. rewrite S1 in L. rewrite (S3 i L). cbn [s_value s_vel]. rewrite NO, NV. split; reflexivity.
      * intros N _ EN NN. rewrite S4. unfold normals, given, vertex_normals. rewrite EN. destruct N; [congruence|reflexivity].
      * intros [C|EN]; [discriminate|]. intros D i. cbn [sb_samples sb_type sb_verts sb_topo]. intros L. rewrite S1 in L. rewrite (S3 i L). cbn [s_pos s_nml]. split; [reflexivity|].
        unfold normals, given, vertex_normals. rewrite EN. cbn [is_nil]. rewrite (nth_indep _ v3_0 (vertex_normal (me_verts m) (me_faces m) 0)) by (rewrite map_length, seq_length; exact L). rewrite map_nth, seq_nth by exact L. apply incident_normals, D.
    + assert (NN : is_nil (me_faces m) = false) by (destruct (me_faces m); [exfalso; apply NE; reflexivity|reflexivity]). rewrite NN, (negb_eqb _ _ (eq_sym LF)), LV, CE. cbn [negb]. unfold finish. rewrite ED. cbn [option_map]. eexists. split; [reflexivity|]. rewrite T. cbn [sb_bg sb_type]. split; [reflexivity|]. split; [reflexivity|].
      set (ts := me_faces m) in *. set (P := map (tri_centroid (me_verts m)) ts). set (Q := map (tri_normal (me_verts m)) ts). set (U := map (face_velocity (vertex_velocities m)) ts).
      assert (LP : length P = length ts) by apply map_length. assert (LQ : length Q = length ts) by apply map_length. assert (LU : length U = length ts) by apply map_length.
      destruct (samples_of_spec (length ts) P Q U (face_offsets m) LP LQ LU LF) as (S1 & S2 & S3).
      set (SS := samples_of P Q U (face_offsets m)) in *.
      unfold built_from. cbn [sb_verts sb_topo sb_type sb_samples]. fold ts. refine (conj (conj _ (conj _ _)) (conj (conj eq_refl eq_refl) (conj _ (conj _ (conj _ _))))).
      * unfold well_formed. cbn [sb_topo sb_verts sb_type sb_samples sb_dual]. split; [exact VM|exact S1].
      * reflexivity.
      * exact S2.
      * intros D NF'. split; cbn [sb_topo sb_dual sb_verts sb_type]; [exact D|discriminate].
      * intros i L. rewrite S1 in L. rewrite (S3 i L). cbn [s_value s_vel]. rewrite NF. split; [reflexivity|]. unfold U. rewrite (nth_indep _ v3_0 (face_velocity (vertex_velocities m) (0, 0, 0)%nat)) by (rewrite map_length; exact L). rewrite map_nth.
        change (@nth (nat * nat * nat) i ts) with (@nth triangle i ts). generalize (@nth triangle i ts (0, 0, 0)%nat). intros [[x y] z]. unfold face_velocity, pt. rewrite !NV. apply v3_eq; unfold v3_scale, v3_add, v3_0; cbn [vx vy vz]; field.
      * intros N C. discriminate.
      * intros _ _ i. cbn [sb_samples sb_type sb_verts sb_topo]. intros L. rewrite S1 in L. rewrite (S3 i L). cbn [s_pos s_nml]. unfold P, Q.
        rewrite (nth_indep _ v3_0 (tri_centroid (me_verts m) (0, 0, 0)%nat)) by (rewrite map_length; exact L). rewrite map_nth.
        rewrite (nth_indep _ v3_0 (tri_normal (me_verts m) (0, 0, 0)%nat)) by (rewrite map_length; exact L). rewrite map_nth. split; reflexivity.
  - intros -> ->. reflexivity.
  - intros NV'. assert (CE : corners_exist (length (me_verts m)) (me_faces m) = false).
    { destruct (corners_exist (length (me_verts m)) (me_faces m)) eqn:C; [|reflexivity]. exfalso. apply NV'. exact (proj1 (corners_exist_spec _ _) C). }
    destruct (proj1 (corners_exist_false _ _) CE) as (t & v & IT & IV & L). assert (DN := dual_topo_none _ _ t v IT IV L). destruct (bu_type b).
    + rewrite (negb_eqb _ _ (eq_sym LO)), (negb_eqb _ _ (eq_sym LV)). cbv zeta. destruct (andb _ _); [reflexivity|]. destruct (andb _ _); [reflexivity|]. unfold finish. rewrite DN. reflexivity.
    + replace (is_nil (me_faces m)) with false by (destruct (me_faces m); [destruct IT|reflexivity]). rewrite (negb_eqb _ _ (eq_sym LF)), CE. reflexivity.
Qed.
Lemma build_base_cloud b m : bu_mesh b = SMCloud m -> bu_type b = SVertex -> attributes_fit m -> me_faces m = [] ->
  (vertex_normals m <> [] -> exists B, build_base b = Some (Some B) /\ sb_bg B = bu_bg b /\ sb_type B = SVertex /\ built_from m B) /\
  (vertex_normals m = [] -> build_base b = Some None).
Proof.
  intros M T A F. destruct (offsets_fit m A) as [LO NO]. destruct (velocities_fit m A) as [LV NV]. assert (LN := normals_fit m A). unfold build_base. rewrite M, T, (negb_eqb _ _ (eq_sym LO)). split; [|intros ->; reflexivity].
  intros NE. specialize (LN NE). replace (is_nil (vertex_normals m)) with false by (destruct (vertex_normals m); [congruence|reflexivity]). rewrite (negb_eqb _ _ (eq_sym LN)). unfold finish. cbn [compute_dual_topo is_nil option_map].
  eexists. split; [reflexivity|]. rewrite T. cbn [sb_bg sb_type]. split; [reflexivity|]. split; [reflexivity|].
  destruct (samples_of_spec (length (me_verts m)) (me_verts m) (vertex_normals m) (vertex_velocities m) (vertex_offsets m) eq_refl LN LV LO) as (S1 & S2 & S3).
  assert (S4 := samples_of_normals (length (me_verts m)) (me_verts m) (vertex_normals m) (vertex_velocities m) (vertex_offsets m) eq_refl LN LV LO).
  unfold built_from. rewrite F. cbn [sb_verts sb_topo sb_type sb_samples]. refine (conj (conj _ (conj _ _)) (conj (conj eq_refl eq_refl) (conj _ (conj _ (conj _ _))))).
  - unfold well_formed. cbn [sb_topo sb_verts sb_type sb_samples sb_dual]. split; [intros t v []|]. split; [exact S1|]. split; [left; reflexivity|]. intros i t. destruct i; (split; [intros []|intros (B & _); inversion B]).
  - reflexivity.
  - exact S2.
  - intros _ C. congruence.
  - intros i L. rewrite S1 in L. rewrite (S3 i L). cbn [s_value s_vel]. rewrite NO, NV. split; reflexivity.
  - intros N _ EN NN. rewrite S4. unfold vertex_normals. rewrite EN. reflexivity.
  - intros [C|EN]; [discriminate|]. exfalso. apply NE. unfold vertex_normals. rewrite EN. reflexivity.
Qed.
Definition tri_builder (m : mesh) (p : params) : builder := Builder (pa_kernel p) (pa_bg p) (SMTri m) (pa_step p) (pa_radius p) (pa_type p).
Definition cloud_builder (m : mesh) (p : params) : builder := Builder (pa_kernel p) (pa_bg p) (SMCloud m) (pa_step p) (pa_radius p) SVertex.
Lemma tri_builder_eq m p : mls_from_trimesh m p = build_mls (tri_builder m p).
Proof. unfold mls_from_trimesh, with_radius, tri_builder. destruct p as [k g t s [r|]]; reflexivity. Qed.
Lemma cloud_builder_eq m p : mls_from_pointcloud m p = build_mls (cloud_builder m p).
Proof. unfold mls_from_pointcloud, with_radius, cloud_builder. destruct p as [k g t s [r|]]; reflexivity. Qed.
Lemma build_mls_cases b : (bu_kernel b = KHrbf /\ build_mls b = Some None) \/
  (exists t, bu_kernel b = KGlobal t /\ build_mls b = option_map (option_map (MGlobal t)) (build_base b)) \/
  (exists k, local_of (bu_kernel b) = Some k /\ multiplier_of (bu_kernel b) = Some (radius_multiplier k) /\ (forall r, asked_kernel (bu_kernel b) r = as_spherical k r) /\ build_mls b = option_map (option_map MLocal) (build_local_mls b)).
Proof.
  unfold build_mls. destruct (bu_kernel b) eqn:K; [right; right|right; right|right; right|right; right|right; left|left]; try (eexists; split; [reflexivity|]; split; [reflexivity|]; try split; try reflexivity; fail); [|split; reflexivity].
  exists tolerance. split; reflexivity.
Qed.
(** The surface asked for: samples as the mesh says, background field, sample type, kernel and maximal step as the parameters say. *)
Definition as_asked (m : mesh) (p : params) (type : sample_type) (radius : R -> Prop) (s : mls) : Prop :=
  built_from m (mls_base s) /\ sb_bg (mls_base s) = pa_bg p /\ sb_type (mls_base s) = type /\
  match s with
  | MGlobal t _ => pa_kernel p = KGlobal t
  | MLocal l => radius (lm_base_radius l) /\ lm_max_step l = pa_step p /\ multiplier_of (pa_kernel p) = Some (radius_multiplier (lm_kernel l)) /\
      as_spherical (lm_kernel l) (lm_base_radius l) = asked_kernel (pa_kernel p) (lm_base_radius l)
  end.
(** C136: a surface built from a triangle mesh is consistent and what was asked for; without a radius given the radius is that of the largest triangle. *)
Theorem trimesh_surface_exact m p s : attributes_fit m -> mls_from_trimesh m p = Some (Some s) ->
  valid_mesh m /\ as_asked m p (pa_type p) (fun r => match pa_radius p with Some x => r = x | None => least_radius (me_verts m) (me_faces m) r end) s.
Proof.
  intros A. rewrite tri_builder_eq. set (b := tri_builder m p). destruct (build_base_tri b m eq_refl A) as (B1 & B2 & B3). intros E.
  assert (VM : valid_mesh m /\ exists B, build_base b = Some (Some B)).
  { assert (X : exists B, build_base b = Some (Some B)).
    { destruct (build_mls_cases b) as [[_ C]|[(t & _ & C)|(k & K & _ & _ & C)]]; rewrite C in E; [discriminate| |].
      - destruct (build_base b) as [[B|]|]; try discriminate. exists B. reflexivity.
      - unfold build_local_mls in E. rewrite K in E. destruct (Req_EM_T _ _); [discriminate|]. destruct (build_base b) as [[B|]|]; try discriminate. exists B. reflexivity. }
    split; [|exact X]. destruct (corners_exist (length (me_verts m)) (me_faces m)) eqn:C; [exact (proj1 (corners_exist_spec _ _) C)|].
    rewrite B3 in X; [destruct X; discriminate|]. intros V. rewrite (proj2 (corners_exist_spec _ _) V) in C. discriminate. }
  destruct VM as [VM (B & EB)]. split; [exact VM|].
  assert (NE : bu_type b = SFace -> me_faces m <> []) by (intros T F; rewrite (B2 T F) in EB; discriminate).
  destruct (B1 VM NE) as (B' & EB' & G1 & G2 & G3). assert (B' = B) by congruence. subst B'. clear B1 B2 B3 EB'.
  destruct (build_mls_cases b) as [[_ C]|[(t & K & C)|(k & K & KM & KA & C)]]; rewrite C in E; [discriminate| |]; clear C.
  - rewrite EB in E. cbn in E. injection E as <-. unfold as_asked. cbn [mls_base]. split; [exact G3|]. split; [exact G1|]. split; [exact G2|exact K].
  - unfold build_local_mls in E. rewrite K, EB in E. destruct (Req_EM_T _ _); [discriminate|].
    destruct (build_base_radius b) as [[r|]|] eqn:ER; try discriminate. cbn in E. injection E as <-. unfold as_asked. cbn [mls_base lm_base lm_base_radius lm_max_step lm_kernel]. split; [exact G3|]. split; [exact G1|]. split; [exact G2|]. split; [|split; [reflexivity|split; [exact KM|symmetry; apply KA]]].
    unfold build_base_radius, b, tri_builder in ER. cbn [bu_mesh bu_radius] in ER. destruct (pa_radius p) as [x|]; [injection ER as ->; reflexivity|]. destruct (compute_base_radius m) as [r'|] eqn:EC; [|discriminate]. cbn in ER. injection ER as ->.
    assert (NF : me_faces m <> []) by (intros F; unfold compute_base_radius in EC; rewrite F in EC; discriminate).
    destruct (base_radius_spec m VM NF) as (r' & EC' & _ & U & L). assert (r' = r) by congruence. subst r'. split; [exact U|exact L].
Qed.
(** A square of two triangles with offsets, velocities and a kernel over twice the size of its triangles. *)
Definition square : mesh := Mesh [V3 0 0 0; V3 3 0 0; V3 0 3 0; V3 3 3 0] [(0, 1, 2)%nat; (1, 3, 2)%nat]
  [("offset"%string, AScalars [1; 2; 3; 4]); ("V"%string, AVectors [V3 0 0 3; V3 0 0 6; V3 0 0 9; V3 0 0 3])] [("offset"%string, AScalars [5; 6])].
Lemma square_ok : valid_mesh square /\ attributes_fit square /\ (forall t, In t (me_faces square) -> distinct_corners t).
Proof.
  unfold valid_mesh, attributes_fit, square. cbn [me_faces me_verts me_vattr me_fattr]. refine (conj _ (conj (conj _ (conj _ _)) _)).
  - intros t v [<-|[<-|[]]] V; cbn in V; cbn; lia.
  - intros n l [E|[E|[]]]; inversion E; reflexivity.
  - intros n l [E|[E|[]]]; inversion E; reflexivity.
  - intros n l [E|[]]; inversion E; reflexivity.
  - intros t [<-|[<-|[]]]; unfold distinct_corners, tri_verts; repeat constructor; cbn; lia.
Qed.
Definition request (ty : sample_type) (k : kernel_type) (r : option R) : params := Params k (BgParams FZero false) ty (1 / 10) r.
Example trimesh_surface_example ty : exists s, mls_from_trimesh square (request ty (KCubic 2) None) = Some (Some s).
Proof.
  destruct square_ok as (V & A & _). rewrite tri_builder_eq. destruct (build_base_tri (tri_builder square (request ty (KCubic 2) None)) square eq_refl A) as (B1 & _ & _). destruct (B1 V) as (B & EB & _); [discriminate|].
  destruct (base_radius_spec square V) as (r & ER & _); [discriminate|]. unfold build_mls. cbn [tri_builder request pa_kernel bu_kernel]. unfold build_local_mls. rewrite EB. cbn [tri_builder bu_kernel request pa_kernel local_of radius_multiplier].
  destruct (Req_EM_T 2 0); [lra|]. unfold build_base_radius. cbn [tri_builder bu_mesh bu_radius request pa_radius]. rewrite ER. cbn. eexists. reflexivity.
Qed.

Lemma valid_dec m : valid_mesh m \/ ~ valid_mesh m.
Proof. destruct (corners_exist (length (me_verts m)) (me_faces m)) eqn:C; [left; exact (proj1 (corners_exist_spec _ _) C)|right]. intros V. rewrite (proj2 (corners_exist_spec _ _) V) in C. discriminate. Qed.
Lemma no_faces_valid m : me_faces m = [] -> valid_mesh m.
Proof. intros F t v T. rewrite F in T. destruct T. Qed.
(** C136: when building from a triangle mesh panics, and when it declines.  (Otherwise it builds the surface of the theorem above.) *)
Theorem trimesh_outcome m p : attributes_fit m ->
  (mls_from_trimesh m p = None <-> pa_kernel p <> KHrbf /\ multiplier_of (pa_kernel p) <> Some 0 /\
     (~ valid_mesh m \/ (me_faces m = [] /\ pa_type p = SVertex /\ pa_radius p = None /\ multiplier_of (pa_kernel p) <> None))) /\
  (mls_from_trimesh m p = Some None <-> pa_kernel p = KHrbf \/ multiplier_of (pa_kernel p) = Some 0 \/ (pa_type p = SFace /\ me_faces m = [])).
Proof.
  intros A. rewrite tri_builder_eq. set (b := tri_builder m p). destruct (build_base_tri b m eq_refl A) as (B1 & B2 & B3).
  assert (BB : (~ valid_mesh m /\ build_base b = None) \/ (valid_mesh m /\ pa_type p = SFace /\ me_faces m = [] /\ build_base b = Some None) \/ (valid_mesh m /\ ~ (pa_type p = SFace /\ me_faces m = []) /\ exists B, build_base b = Some (Some B))).
  { destruct (valid_dec m) as [V|V]; [right|left; auto]. assert (X : (pa_type p = SFace /\ me_faces m = []) \/ ~ (pa_type p = SFace /\ me_faces m = [])).
    { destruct (pa_type p), (me_faces m); try (right; intros [? ?]; discriminate). left. auto. }
    destruct X as [[X Y]|X]; [left; auto|right]. split; [exact V|]. split; [exact X|]. destruct (B1 V) as (B & E & _); [intros T F; apply X; auto|]. exists B. exact E. }
  assert (NVF : ~ valid_mesh m -> me_faces m <> []) by (intros N F; exact (N (no_faces_valid m F))).
  destruct (build_mls_cases b) as [[K ->]|[(t & K & ->)|(k & K & KM & _ & ->)]]; cbn [tri_builder b bu_kernel] in *.
  - rewrite K. split; (split; [discriminate || (intros _; left; reflexivity)|]); [intros (C & _); congruence|reflexivity].
  - rewrite K. cbn [multiplier_of]. destruct BB as [[V ->]|[(V & T & F & ->)|(V & X & B & ->)]]; cbn [option_map]; split; split.
    + intros _. split; [discriminate|]. split; [discriminate|left; exact V].
    + reflexivity.
    + discriminate.
    + intros [C|[C|[T F]]]; try discriminate. exfalso. exact (NVF V F).
    + discriminate.
    + intros (_ & _ & [C|(_ & C & _)]); [contradiction|congruence].
    + intros _. right. right. auto.
    + reflexivity.
    + discriminate.
    + intros (_ & _ & [C|(_ & _ & _ & C)]); [contradiction|congruence].
    + discriminate.
    + intros [C|[C|C]]; try discriminate. contradiction.
  - assert (NH : pa_kernel p <> KHrbf) by (intros C; rewrite C in K; discriminate). rewrite KM. unfold build_local_mls, b. cbn [tri_builder bu_kernel]. rewrite K. destruct (Req_EM_T (radius_multiplier k) 0) as [Z|Z].
    + rewrite Z. cbn [option_map]. split; split; [discriminate|intros (_ & C & _); congruence|intros _; right; left; reflexivity|reflexivity].
    + fold b. assert (ZZ : Some (radius_multiplier k) <> Some 0) by congruence. destruct BB as [[V ->]|[(V & T & F & ->)|(V & X & B & ->)]]; cbn [option_map].
      * split; split; [intros _; auto|reflexivity|discriminate|intros [C|[C|[_ F]]]; try contradiction; exfalso; exact (NVF V F)].
      * split; split; [discriminate|intros (_ & _ & [C|(_ & C & _)]); [contradiction|congruence]|intros _; right; right; auto|reflexivity].
      * unfold build_base_radius, b. cbn [tri_builder bu_mesh bu_radius]. assert (TV : me_faces m = [] -> pa_type p = SVertex) by (intros F; destruct (pa_type p); [reflexivity|exfalso; apply X; auto]).
        destruct (pa_radius p) as [r|] eqn:PR; cbn [option_map].
        -- split; split; [discriminate|intros (_ & _ & [C|(_ & _ & C & _)]); [contradiction|discriminate]|discriminate|intros [C|[C|C]]; contradiction].
        -- assert (FD : me_faces m = [] \/ me_faces m <> []) by (destruct (me_faces m); [left; reflexivity|right; discriminate]). destruct FD as [F|F].
           ++ replace (compute_base_radius m) with (@None R) by (unfold compute_base_radius; rewrite F; reflexivity). cbn [option_map]. split; split; [intros _|reflexivity|discriminate|intros [C|[C|C]]; contradiction].
              split; [exact NH|]. split; [exact ZZ|]. right. split; [exact F|]. split; [exact (TV F)|]. split; [reflexivity|discriminate].
           ++ destruct (base_radius_spec m V F) as (r & -> & _). cbn [option_map]. split; split; [discriminate|intros (_ & _ & [C|(C & _)]); contradiction|discriminate|intros [C|[C|C]]; contradiction].
Qed.
Example trimesh_outcome_example :
  mls_from_trimesh (Mesh [V3 0 0 0] [(0, 0, 1)%nat] [] []) (request SFace (KGlobal 1) None) = None /\ mls_from_trimesh (Mesh [V3 0 0 0] [] [] []) (request SVertex (KCubic 2) None) = None /\
  mls_from_trimesh (Mesh [V3 0 0 0] [] [] []) (request SFace (KGlobal 1) None) = Some None /\ mls_from_trimesh square (request SFace (KCubic 0) None) = Some None /\ mls_from_trimesh square (request SFace KHrbf (Some 1)) = Some None.
Proof.
  assert (A1 : attributes_fit (Mesh [V3 0 0 0] [(0, 0, 1)%nat] [] [])) by (split; [|split]; intros n l []). assert (A2 : attributes_fit (Mesh [V3 0 0 0] [] [] [])) by (split; [|split]; intros n l []). destruct square_ok as (_ & A3 & _).
  refine (conj _ (conj _ (conj _ (conj _ _)))).
  - apply (trimesh_outcome _ _ A1). split; [discriminate|]. split; [discriminate|]. left. intros V. specialize (V (0, 0, 1)%nat 1%nat (or_introl eq_refl)). cbn in V. specialize (V ltac:(auto)). lia.
  - apply (trimesh_outcome _ _ A2). cbn. split; [discriminate|]. split; [intros C; injection C; lra|]. right. repeat split. discriminate.
  - apply (trimesh_outcome _ _ A2). right. right. split; reflexivity.
  - apply (trimesh_outcome _ _ A3). right. left. reflexivity.
  - apply (trimesh_outcome _ _ A3). left. reflexivity.
Qed.

(** C136: surfaces from point clouds: the sample type asked for is ignored, normals are required, as is the radius of a local kernel. *)
Theorem pointcloud_surface_exact m p : attributes_fit m -> me_faces m = [] ->
  (forall s, mls_from_pointcloud m p = Some (Some s) -> as_asked m p SVertex (fun r => pa_radius p = Some r) s) /\
  mls_from_pointcloud m p <> None /\
  (mls_from_pointcloud m p = Some None <-> pa_kernel p = KHrbf \/ multiplier_of (pa_kernel p) = Some 0 \/ vectors "N"%string (me_vattr m) = None \/ me_verts m = [] \/ (pa_radius p = None /\ multiplier_of (pa_kernel p) <> None)).
Proof.
  intros A F. rewrite cloud_builder_eq. set (b := cloud_builder m p). destruct (build_base_cloud b m eq_refl eq_refl A F) as (B1 & B2).
  assert (ND : (vertex_normals m = [] /\ (vectors "N"%string (me_vattr m) = None \/ me_verts m = [])) \/ (vertex_normals m <> [] /\ vectors "N"%string (me_vattr m) <> None /\ me_verts m <> [])).
  { assert (LN := normals_fit m A). unfold vertex_normals in *. destruct (vectors "N"%string (me_vattr m)) as [N|] eqn:EN; [|left; auto]. destruct A as (_ & A & _). specialize (A _ _ (vectors_in _ _ _ EN)).
    destruct N; [left; split; [reflexivity|right; destruct (me_verts m); [reflexivity|discriminate]]|right]. split; [discriminate|]. split; [discriminate|]. destruct (me_verts m); discriminate. }
  destruct (build_mls_cases b) as [[K ->]|[(t & K & ->)|(k & K & KM & KA & ->)]]; cbn [cloud_builder b bu_kernel] in *.
  - refine (conj _ (conj _ _)); [discriminate|discriminate|]. rewrite K. split; [intros _; left; reflexivity|reflexivity].
  - rewrite K. cbn [multiplier_of]. destruct ND as [(N & D)|(N & D1 & D2)].
    + rewrite (B2 N). cbn. refine (conj _ (conj _ _)); [discriminate|discriminate|]. split; [tauto|reflexivity].
    + destruct (B1 N) as (B & EB & G1 & G2 & G3). rewrite EB. cbn [option_map]. refine (conj _ (conj _ _)); [|discriminate|].
      * intros s E. injection E as <-. unfold as_asked. cbn [mls_base]. auto.
      * split; [discriminate|]. intros [C|[C|[C|[C|[_ C]]]]]; try discriminate; contradiction || congruence.
  - assert (NH : pa_kernel p <> KHrbf) by (intros C; rewrite C in K; discriminate). rewrite KM. unfold build_local_mls, b. cbn [cloud_builder bu_kernel]. rewrite K. destruct (Req_EM_T (radius_multiplier k) 0) as [Z|Z].
    + rewrite Z. cbn. refine (conj _ (conj _ _)); [discriminate|discriminate|]. split; [tauto|reflexivity].
    + fold b. assert (ZZ : Some (radius_multiplier k) <> Some 0) by congruence. destruct ND as [(N & D)|(N & D1 & D2)].
      * rewrite (B2 N). cbn. refine (conj _ (conj _ _)); [discriminate|discriminate|]. split; [tauto|reflexivity].
      * destruct (B1 N) as (B & EB & G1 & G2 & G3). rewrite EB. unfold build_base_radius, b. cbn [cloud_builder bu_mesh bu_radius]. destruct (pa_radius p) as [r|] eqn:PR; cbn [option_map].
        -- refine (conj _ (conj _ _)); [|discriminate|].
           ++ intros s E. injection E as <-. unfold as_asked. cbn [mls_base lm_base lm_base_radius lm_max_step lm_kernel]. split; [exact G3|]. split; [exact G1|]. split; [exact G2|]. split; [reflexivity|]. split; [reflexivity|]. split; [exact KM|symmetry; apply KA].
           ++ split; [discriminate|]. intros [C|[C|[C|[C|[C _]]]]]; try contradiction; discriminate.
        -- refine (conj _ (conj _ _)); [discriminate|discriminate|]. split; [intros _|reflexivity]. right. right. right. right. split; [reflexivity|discriminate].
Qed.
Definition two_points : mesh := Mesh [V3 0 0 0; V3 1 0 0] [] [("N"%string, AVectors [V3 0 0 1; V3 0 0 2]); ("offset"%string, AScalars [1; 2])] [].
Example pointcloud_surface_example : attributes_fit two_points /\ exists s, mls_from_pointcloud two_points (request SFace (KApproximate 2 (1 / 10)) (Some 3)) = Some (Some s).
Proof.
  assert (A : attributes_fit two_points) by (split; [|split]; intros n l H; cbn in H; [destruct H as [E|[E|[]]]|destruct H as [E|[E|[]]]|destruct H]; inversion E; reflexivity). split; [exact A|].
  destruct (pointcloud_surface_exact two_points (request SFace (KApproximate 2 (1 / 10)) (Some 3)) A eq_refl) as (_ & N & D).
  destruct (mls_from_pointcloud two_points (request SFace (KApproximate 2 (1 / 10)) (Some 3))) as [[s|]|]; [exists s; reflexivity| |congruence].
  exfalso. destruct (proj1 D eq_refl) as [C|[C|[C|[C|[C _]]]]]; cbn in C; try discriminate. injection C. lra.
Qed.

(** C137: the radius computed is the smallest with which balls around the centroids contain the triangles. *)
Theorem base_radius_smallest m r : valid_mesh m -> compute_base_radius m = Some r -> 0 <= r /\ least_radius (me_verts m) (me_faces m) r.
Proof.
  intros V E. assert (NF : me_faces m <> []) by (intros F; unfold compute_base_radius in E; rewrite F in E; discriminate).
  destruct (base_radius_spec m V NF) as (r' & E' & P & U & L). assert (r' = r) by congruence. subst r'. split; [exact P|]. split; [exact U|exact L].
Qed.
Example base_radius_example : valid_mesh square /\ compute_base_radius square = Some (sqrt 5).
Proof.
  split; [apply square_ok|]. unfold compute_base_radius, square. cbn [me_verts me_faces length corners_exist forallb tri_verts Nat.ltb Nat.leb andb map fold_left]. f_equal.
  unfold farthest, tri_centroid, centroid, pt, norm2, v3_dot, v3_sub, v3_add, v3_scale. cbn [nth vx vy vz]. f_equal.
  repeat match goal with |- context [Rmax ?a ?b] => unfold Rmax at 1; destruct (Rle_dec a b) end; try lra.
Qed.
(** C137: with a radius multiplier of one or more, every point of the surface finds a sample of its triangle among its neighbours: its face or one of its corners. *)
Theorem surface_within_reach m p l o hash qs n : attributes_fit m -> mls_from_trimesh m p = Some (Some (MLocal l)) -> pa_radius p = None -> 1 <= radius_multiplier (lm_kernel l) -> 0 <= pa_step p -> faithful o ->
  exists n' changed, reset o hash qs (QLocal l n) = Some (QLocal l n', changed) /\
  forall k t, (k < length qs)%nat -> In t (me_faces m) -> on_triangle (me_verts m) t (nth k qs v3_0) ->
    exists i, In i (nth k (n_trivial n') []) /\ gap (sb_samples (lm_base l)) (nth k qs v3_0) i <= lm_radius l /\
      match pa_type p with SVertex => In i (tri_verts t) | SFace => nth i (me_faces m) (0, 0, 0)%nat = t end.
Proof.
  intros A E PR M1 ST F. destruct (trimesh_surface_exact m p (MLocal l) A E) as (VM & G & _ & GT & GR). unfold built_from in G. cbn [mls_base] in *. rewrite PR in GR. destruct GR as ([U L] & GS & _).
  destruct G as ((WF & CU & SA) & (GV & GF) & _ & _ & _ & _).
  assert (R0 : 0 <= lm_base_radius l) by (destruct L as (t & v & _ & _ & <-); apply sqrt_pos).
  assert (RL : lm_base_radius l <= lm_radius l) by (unfold lm_radius; nra).
  assert (LS : length (sb_samples (lm_base l)) = match pa_type p with SVertex => length (me_verts m) | SFace => length (me_faces m) end).
  { rewrite <- (map_length s_pos). unfold sampled in SA. rewrite SA, GT, GV, GF. destruct (pa_type p); [reflexivity|apply map_length]. }
  assert (NS : sb_samples (lm_base l) <> []).
  { destruct L as (t & v & T & V & _). specialize (VM t v T V). intros C. rewrite C in LS. destruct (pa_type p); [cbn in LS; lia|]. destruct (me_faces m); [destruct T|discriminate]. }
  destruct (reset_exact o hash qs l n F WF CU) as (n' & ch & ER & _ & _ & _ & X); [rewrite GS; lra|intros _; exact NS|]. exists n', ch. split; [exact ER|].
  intros k t K T O. specialize (X k K). destruct X as (_ & (_ & X) & _). set (q := nth k qs v3_0) in *.
  destruct (triangle_reach (me_verts m) t q (lm_base_radius l) R0 (fun v V => U t v T V) O) as [RC (v & V & RV)].
  assert (POS : forall i, (i < length (sb_samples (lm_base l)))%nat -> s_pos (smp (sb_samples (lm_base l)) i) = match pa_type p with SVertex => pt (me_verts m) i | SFace => tri_centroid (me_verts m) (nth i (me_faces m) (0, 0, 0)%nat) end).
  { intros i Li. assert (EP : s_pos (smp (sb_samples (lm_base l)) i) = nth i (map s_pos (sb_samples (lm_base l))) v3_0).
    { rewrite (nth_indep _ v3_0 (s_pos sample0)) by (rewrite map_length; exact Li). rewrite map_nth. reflexivity. }
    rewrite EP. unfold sampled in SA. rewrite SA, GT, GV, GF. destruct (pa_type p); [reflexivity|]. rewrite (nth_indep _ v3_0 (tri_centroid (me_verts m) (0, 0, 0)%nat)) by (rewrite map_length, <- LS; exact Li). rewrite map_nth. reflexivity. }
  destruct (pa_type p) eqn:PT.
  - exists v. assert (Lv : (v < length (sb_samples (lm_base l)))%nat) by (rewrite LS; exact (VM t v T V)).
    assert (GG : gap (sb_samples (lm_base l)) q v <= lm_radius l) by (unfold gap, away; rewrite (POS v Lv); lra). split; [apply X; split; [exact Lv|rewrite GS; lra]|]. split; [exact GG|exact V].
  - destruct (In_nth _ _ (0, 0, 0)%nat T) as (i & Li & Ei). exists i. assert (Lv : (i < length (sb_samples (lm_base l)))%nat) by (rewrite LS; exact Li).
    assert (GG : gap (sb_samples (lm_base l)) q i <= lm_radius l) by (unfold gap, away; rewrite (POS i Lv); refine (Rle_trans _ (lm_base_radius l) _ _ RL); refine (eq_ind_r (fun x => v3_norm (v3_sub q (tri_centroid (me_verts m) x)) <= lm_base_radius l) RC Ei)).
    split; [apply X; split; [exact Lv|rewrite GS; lra]|]. split; [exact GG|exact Ei].
Qed.
Example surface_within_reach_example ty : (exists l, mls_from_trimesh square (request ty (KCubic 2) None) = Some (Some (MLocal l)) /\ 1 <= radius_multiplier (lm_kernel l)) /\ on_triangle (me_verts square) (1, 3, 2)%nat (V3 2 2 0).
Proof.
  split.
  - destruct (trimesh_surface_example ty) as (s & E). destruct (trimesh_surface_exact _ _ _ (proj1 (proj2 square_ok)) E) as (_ & _ & _ & _ & G). destruct s as [l|t b]; [|cbn in G; discriminate]. exists l. split; [exact E|].
    destruct G as (_ & _ & G & _). cbn in G. injection G as <-. lra.
  - exists (1 / 3), (1 / 3), (1 / 3). refine (conj _ (conj _ (conj _ (conj _ _)))); [lra..|]. apply v3_eq; cbn; lra.
Qed.

(** C138 (finding): "if points is empty, this function will return None": a surface without points is built when a radius is given, and its first query panics. *)
Theorem empty_surface_builds_refuted : exists s, mls_from_trimesh (Mesh [] [] [] []) (request SVertex (KCubic 2) (Some 1)) = Some (Some s) /\ sb_samples (mls_base s) = [] /\
  forall o hash q, faithful o -> query_new o hash [q] s = None.
Proof.
  assert (A : attributes_fit (Mesh [] [] [] [])) by (split; [|split]; intros n l []). destruct (trimesh_outcome (Mesh [] [] [] []) (request SVertex (KCubic 2) (Some 1)) A) as [O1 O2].
  destruct (mls_from_trimesh (Mesh [] [] [] []) (request SVertex (KCubic 2) (Some 1))) as [[s|]|] eqn:E.
  - exists s. split; [reflexivity|]. destruct (trimesh_surface_exact _ _ _ A E) as (_ & ((_ & CU & SA) & (GV & GF) & _) & _ & GT & GK). unfold sampled in SA. rewrite GT, GV in SA. cbn in SA.
    assert (EMP : sb_samples (mls_base s) = []) by (destruct (sb_samples (mls_base s)); [reflexivity|discriminate]). split; [exact EMP|]. intros o hash q F. unfold current in CU. rewrite EMP in CU. destruct (F [] q) as (_ & _ & F3 & _).
    destruct s as [l|t b]; unfold query_new, reset, compute_neighborhoods, compute_closest_set; cbn [map all_some mls_base] in *; rewrite CU, (F3 eq_refl); reflexivity.
  - exfalso. destruct (proj1 O2 eq_refl) as [C|[C|[C _]]]; cbn in C; try discriminate. injection C. lra.
  - exfalso. destruct (proj1 O1 eq_refl) as (_ & _ & [C|(_ & _ & C & _)]); [apply C; intros t v []|discriminate].
Qed.
(** C138 (finding): "if base radius is 0.0 ... this function will return None": it is built, its kernel reaching nothing. *)
Theorem zero_radius_builds_refuted ty : exists l, mls_from_trimesh square (request ty (KCubic 2) (Some 0)) = Some (Some (MLocal l)) /\ lm_radius l = 0.
Proof.
  destruct square_ok as (V & A & _). destruct (trimesh_outcome square (request ty (KCubic 2) (Some 0)) A) as [O1 O2].
  destruct (mls_from_trimesh square (request ty (KCubic 2) (Some 0))) as [[s|]|] eqn:E.
  - destruct (trimesh_surface_exact _ _ _ A E) as (_ & _ & _ & _ & GK). destruct s as [l|t b]; [|discriminate]. exists l. split; [reflexivity|]. destruct GK as (GR & _). cbn in GR. unfold lm_radius. rewrite GR. lra.
  - exfalso. destruct (proj1 O2 eq_refl) as [C|[C|[_ C]]]; try discriminate. cbn in C. injection C. lra.
  - exfalso. destruct (proj1 O1 eq_refl) as (_ & _ & [C|(C & _)]); [exact (C V)|discriminate].
Qed.
(** C138 (finding): a triangle mesh with points but without triangles panics instead of returning None or asking for a radius. *)
Theorem faceless_mesh_panics_refuted V p : pa_type p = SVertex -> pa_radius p = None -> (exists mult, multiplier_of (pa_kernel p) = Some mult /\ mult <> 0) -> mls_from_trimesh (Mesh V [] [] []) p = None.
Proof.
  intros T PR (x & K & X). apply trimesh_outcome; [split; [|split]; intros n l []|]. split; [intros C; rewrite C in K; discriminate|]. split; [rewrite K; congruence|]. right. split; [reflexivity|]. split; [exact T|]. split; [exact PR|]. congruence.
Qed.
Example faceless_mesh_example : exists mult, multiplier_of (pa_kernel (request SVertex (KApproximate 3 (1 / 10)) None)) = Some mult /\ mult <> 0.
Proof. exists 3. split; [reflexivity|lra]. Qed.
(** C138 (finding): "the offsets attribute is expected to be named offsets": an attribute of that name is not read, all values are zero. *)
Theorem documented_offsets_refuted : exists m s l, In ("offsets"%string, AScalars l) (me_vattr m) /\ (forall x, In x l -> x <> 0) /\ l <> [] /\ attributes_fit m /\
  mls_from_trimesh m (request SVertex (KCubic 2) None) = Some (Some s) /\ (0 < length (sb_samples (mls_base s)))%nat /\ forall i, (i < length (sb_samples (mls_base s)))%nat -> s_value (smp (sb_samples (mls_base s)) i) = 0.
Proof.
  set (m := Mesh [V3 0 0 0; V3 3 0 0; V3 0 3 0] [(0, 1, 2)%nat] [("offsets"%string, AScalars [1; 2; 3])] []).
  assert (A : attributes_fit m) by (split; [|split]; intros n l H; cbn in H; [destruct H as [E|[]]|destruct H as [E|[]]|destruct H]; inversion E; reflexivity).
  assert (V : valid_mesh m) by (intros t v [<-|[]] W; cbn in W; cbn; lia). destruct (trimesh_outcome m (request SVertex (KCubic 2) None) A) as [O1 O2].
  destruct (mls_from_trimesh m (request SVertex (KCubic 2) None)) as [[s|]|] eqn:E.
  - exists m, s, [1; 2; 3]. destruct (trimesh_surface_exact _ _ _ A E) as (_ & ((WF & _ & _) & (GV & _) & _ & GS & _) & _ & GT & _). destruct WF as [_ WF]. rewrite GT, GV in WF. cbn [request pa_type] in WF, GT. destruct WF as (WF & _).
    refine (conj _ (conj _ (conj _ (conj A (conj E (conj _ _)))))); [left; reflexivity|intros x [<-|[<-|[<-|[]]]]; lra|discriminate|rewrite WF; cbn; lia|].
    intros i L. specialize (GS i L). cbv zeta in GS. rewrite GT in GS. exact (proj1 GS).
  - exfalso. destruct (proj1 O2 eq_refl) as [C|[C|[C _]]]; try discriminate. cbn in C. injection C. lra.
  - exfalso. destruct (proj1 O1 eq_refl) as (_ & _ & [C|(C & _)]); [exact (C V)|discriminate].
Qed.
(** C138 (finding): the velocities of face samples are averages of the attribute "V" until the first update, which replaces them with unit edge vectors, even if nothing moved. *)
Theorem face_velocities_lost_refuted : exists s, mls_from_trimesh square (request SFace (KCubic 2) None) = Some (Some s) /\ s_vel (smp (sb_samples (mls_base s)) 0) = V3 0 0 6 /\
  forall rebuild, s_vel (smp (sb_samples (fst (update_base (mls_base s) (me_verts square) rebuild))) 0) = V3 1 0 0.
Proof.
  destruct square_ok as (V & A & _). destruct (trimesh_surface_example SFace) as (s & E). exists s. split; [exact E|]. destruct (trimesh_surface_exact _ _ _ A E) as (_ & ((WF & _ & _) & (GV & GF) & _ & GS & _) & _ & GT & _). destruct WF as [_ WF]. cbn [request pa_type] in GT. rewrite GT, GF in WF.
  split.
  - specialize (GS 0%nat ltac:(rewrite WF; cbn; lia)). cbv zeta in GS. rewrite GT in GS. destruct GS as [_ GS]. set (w := s_vel (smp (sb_samples (mls_base s)) 0)) in *. cbn in GS. destruct w as [a b c]. unfold v3_scale, v3_add in GS. cbn in GS. injection GS as G1 G2 G3. f_equal; lra.
  - intros rebuild. unfold update_base, update_samples. cbn [fst sb_samples sb_type sb_topo sb_verts]. rewrite GT, GV, GF. destruct (sb_samples (mls_base s)) as [|s0 S]; [discriminate|]. unfold square. cbn [me_verts me_faces zip_update smp nth s_vel].
    unfold tri_tangent, pt. cbn [nth]. assert (N : v3_norm (v3_sub (V3 3 0 0) (V3 0 0 0)) = 3) by (unfold v3_norm, v3_dot, v3_sub; cbn [vx vy vz]; replace ((3 - 0) * (3 - 0) + (0 - 0) * (0 - 0) + (0 - 0) * (0 - 0)) with (3 * 3) by ring; apply sqrt_square; lra).
    unfold smp. cbn [nth s_vel]. rewrite N. apply v3_eq; unfold v3_scale, v3_sub; cbn [vx vy vz]; lra.
Qed.
(** C138 (finding): a vertex of no triangle gets a zero normal, which has no direction to weigh its potential with. *)
Theorem isolated_vertices_refuted m p s i : attributes_fit m -> mls_from_trimesh m p = Some (Some s) -> pa_type p = SVertex -> vectors "N"%string (me_vattr m) = None -> (forall t, In t (me_faces m) -> distinct_corners t) ->
  (i < length (me_verts m))%nat -> (forall t, In t (me_faces m) -> ~ In i (tri_verts t)) -> s_nml (smp (sb_samples (mls_base s)) i) = v3_0.
Proof.
  intros A E T N D L H. destruct (trimesh_surface_exact _ _ _ A E) as (_ & ((WF & _ & _) & (GV & GF) & _ & _ & _ & GP) & _ & GT & _). destruct WF as [_ WF]. rewrite GT, T, GV in WF. destruct WF as (WF & _). specialize (GP (or_intror N) D i ltac:(rewrite WF; exact L)). cbv zeta in GP. rewrite GT, T in GP. destruct GP as [_ ->]. rewrite GF.
  replace (filter (has_corner i) (me_faces m)) with (@nil triangle); [reflexivity|]. symmetry. clear D GF. induction (me_faces m) as [|t ts IH]; [reflexivity|]. cbn [filter]. destruct (has_corner i t) eqn:C.
  - exfalso. unfold has_corner in C. apply existsb_exists in C. destruct C as (x & X & Q). apply Nat.eqb_eq in Q. subst x. exact (H t (or_introl eq_refl) X).
  - apply IH. intros t' T'. apply H. right. exact T'.
Qed.
Example isolated_vertices_example : let m := Mesh [V3 0 0 0; V3 3 0 0; V3 0 3 0; V3 5 5 5] [(0, 1, 2)%nat] [] [] in attributes_fit m /\ (forall t, In t (me_faces m) -> distinct_corners t /\ ~ In 3%nat (tri_verts t)) /\
  exists s, mls_from_trimesh m (request SVertex (KGlobal 1) None) = Some (Some s).
Proof.
  cbv zeta. split; [split; [|split]; intros n l []|]. split; [intros t [<-|[]]; split; [repeat constructor; cbn; lia|cbn; lia]|]. eexists. reflexivity.
Qed.

Print Assumptions dual_topology_exact.
Print Assumptions trimesh_surface_exact.
Print Assumptions trimesh_outcome.
Print Assumptions pointcloud_surface_exact.
Print Assumptions base_radius_smallest.
Print Assumptions surface_within_reach.
Print Assumptions empty_surface_builds_refuted.
Print Assumptions zero_radius_builds_refuted.
Print Assumptions faceless_mesh_panics_refuted.
Print Assumptions documented_offsets_refuted.
Print Assumptions face_velocities_lost_refuted.
Print Assumptions isolated_vertices_refuted.
