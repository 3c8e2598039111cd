(** C112, C113: solids built from meshes and materials. *)
From Coq Require Import Reals ZArith List Arith Bool Lra Lia Permutation Sorted.
From Coquelicot Require Import Coquelicot.
From Verif Require Import Vec3 Mat3 ElasticModel ElasticSpec ElasticProofs ElasticMeshProofs ElasticProps StateModel UtilModel TopoModel TopoSpec TopoProofs TopoElemProofs TopoRestProofs BuildModel BuildSpec BuildProofs.
Import ListNotations.
Local Open Scope R_scope.

(** A tetrahedron of the stable model, a triangle, a tetrahedron of the Neo-Hookean model, and one whose corners are all fixed. *)
Definition pair_cells : list mcell := [MCell false [1; 2; 3; 0]%nat; MCell true [0; 1; 2]%nat; MCell false [1; 3; 2; 4]%nat; MCell false [1; 2; 3; 5]%nat].
Definition pair_types : list vtype := [Free; Fixed; Fixed; Fixed; Free; Fixed].
Definition pair_pos (v : nat) : v3 := match v with 1%nat => V3 1 0 0 | 2%nat => V3 0 1 0 | 3%nat => V3 0 0 1 | 4%nat => V3 1 1 1 | _ => v3_0 end.
Definition pair_ref (f i : nat) : v3 := pair_pos (cell_to_vertex pair_cells f i).
Definition pair_materials : list mat := [Solid (Deformable (Some 3) (Some (Lame 1 6)) (1 / 10)) true; Solid (Deformable (Some 5) (Some (Lame 1 2)) 0) false].
Definition pair_ids (f : nat) : Z := match f with 2%nat => 1%Z | _ => 0%Z end.
Definition pair_attribs : cell_attribs := CellAttribs None None None None pair_ids.
Lemma pair_tets f t : tet_at pair_cells f t -> ((f = 0 /\ t = (1, 2, 3, 0)) \/ (f = 2 /\ t = (1, 3, 2, 4)) \/ (f = 3 /\ t = (1, 2, 3, 5)))%nat.
Proof. intros (c & N & T). destruct f as [|[|[|[|f]]]]; cbn in N; try (injection N as <-; cbn in T; (discriminate || injection T as <-; auto)). destruct f; discriminate. Qed.
Lemma pair_below : tets_below (length pair_types) pair_cells.
Proof. intros f t i TA L. cbn [length pair_types]. destruct (pair_tets f t TA) as [[_ ->]|[[_ ->]|[_ ->]]]; destruct i as [|[|[|[|i]]]]; cbn; lia. Qed.
Lemma pair_ids_below : ids_below (length pair_materials) pair_attribs.
Proof. intros c. cbn [at_mtl_id pair_attribs]. destruct c as [|[|[|c]]]; cbn; lia. Qed.
Lemma pair_unstressed : solid_unstressed pair_cells pair_ref pair_pos.
Proof. intros f t i TA L. unfold pair_ref. destruct (pair_tets f t TA) as [[-> ->]|[[-> ->]|[-> ->]]]; destruct i as [|[|[|[|i]]]]; try reflexivity; lia. Qed.
Lemma volume_0 : tet_volume (ref_tet4 pair_ref 0) = 1 / 6.
Proof. unfold tet_volume, ref_tet4, pair_ref. cbv [cell_to_vertex pair_cells nth_error nth m_verts pair_pos]. unm. lra. Qed.
Lemma volume_2 : tet_volume (ref_tet4 pair_ref 2) = 1 / 3.
Proof. unfold tet_volume, ref_tet4, pair_ref. cbv [cell_to_vertex pair_cells nth_error nth m_verts pair_pos]. unm. lra. Qed.
Lemma pair_stable : exists T, build_tets StableNeoHookean pair_cells pair_ref pair_materials pair_attribs pair_types = Done T /\ tt_cells T = [0%nat] /\ tt_tets T = [(1, 2, 3, 0)%nat] /\
  tt_density T = [3] /\ tt_volume T = [1 / 6] /\ tt_lambda T = [6] /\ tt_mu T = [8].
Proof.
  unfold build_tets. rewrite (tet_cells_spec _ _ pair_materials _ pair_types pair_below pair_ids_below). change (kept_tets StableNeoHookean pair_cells pair_materials pair_attribs pair_types) with [(0, (1, 2, 3, 0))]%nat. cbn [rbind map fst snd]. cbv zeta.
  change (per_cell (at_density pair_attribs) (solid_mtl pair_materials pair_attribs) get_solid_density [0%nat]) with (Done [3]). cbn [rbind].
  assert (P : forall f, In f [0%nat] -> 0 < tet_volume (ref_tet4 pair_ref f)) by (intros f [<-|[]]; rewrite volume_0; lra).
  rewrite (proj2 (ref_tet_volumes_done pair_ref [0%nat] _) (conj eq_refl P)). cbn [rbind]. rewrite (ref_tet_inverses_done _ _ P). cbn [rbind map].
  match goal with |- context [per_cell (at_lambda ?a) ?m ?g ?l] => let x := eval cbn in (per_cell (at_lambda a) m g l) in change (per_cell (at_lambda a) m g l) with x end. cbn [rbind].
  match goal with |- context [per_cell (at_mu ?a) ?m ?g ?l] => let x := eval cbn in (per_cell (at_mu a) m g l) in change (per_cell (at_mu a) m g l) with x end. cbn [rbind].
  match goal with |- context [per_cell (at_damping ?a) ?m ?g ?l] => let x := eval cbn in (per_cell (at_damping a) m g l) in change (per_cell (at_damping a) m g l) with x end. cbn [rbind].
  eexists. split; [reflexivity|]. cbn [tt_cells tt_tets tt_density tt_volume tt_lambda tt_mu]. rewrite volume_0. repeat split; f_equal; lra.
Qed.
Lemma pair_plain : exists T, build_tets NeoHookean pair_cells pair_ref pair_materials pair_attribs pair_types = Done T /\ tt_cells T = [2%nat] /\ tt_tets T = [(1, 3, 2, 4)%nat] /\
  tt_density T = [5] /\ tt_volume T = [1 / 3] /\ tt_lambda T = [1] /\ tt_mu T = [2].
Proof.
  unfold build_tets. rewrite (tet_cells_spec _ _ pair_materials _ pair_types pair_below pair_ids_below). change (kept_tets NeoHookean pair_cells pair_materials pair_attribs pair_types) with [(2, (1, 3, 2, 4))]%nat. cbn [rbind map fst snd]. cbv zeta.
  change (per_cell (at_density pair_attribs) (solid_mtl pair_materials pair_attribs) get_solid_density [2%nat]) with (Done [5]). cbn [rbind].
  assert (P : forall f, In f [2%nat] -> 0 < tet_volume (ref_tet4 pair_ref f)) by (intros f [<-|[]]; rewrite volume_2; lra).
  rewrite (proj2 (ref_tet_volumes_done pair_ref [2%nat] _) (conj eq_refl P)). cbn [rbind]. rewrite (ref_tet_inverses_done _ _ P). cbn [rbind map].
  match goal with |- context [per_cell (at_lambda ?a) ?m ?g ?l] => let x := eval cbn in (per_cell (at_lambda a) m g l) in change (per_cell (at_lambda a) m g l) with x end. cbn [rbind].
  match goal with |- context [per_cell (at_mu ?a) ?m ?g ?l] => let x := eval cbn in (per_cell (at_mu a) m g l) in change (per_cell (at_mu a) m g l) with x end. cbn [rbind].
  match goal with |- context [per_cell (at_damping ?a) ?m ?g ?l] => let x := eval cbn in (per_cell (at_damping a) m g l) in change (per_cell (at_damping a) m g l) with x end. cbn [rbind].
  eexists. split; [reflexivity|]. cbn [tt_cells tt_tets tt_density tt_volume tt_lambda tt_mu]. rewrite volume_2. repeat split; f_equal; lra.
Qed.

(** C112: the elements of each model are the tetrahedra with a movable corner whose material is a solid of that model, in the order of the mesh, with
    aligned vectors; volumes are positive, rest shapes are inverted, and parameters come from the attribute of the cell or else from its solid material. *)
Theorem tet_elements_exact : forall M cells ref_pos materials a vertex_type T, tets_below (length vertex_type) cells -> ids_below (length materials) a ->
  build_tets M cells ref_pos materials a vertex_type = Done T ->
  StronglySorted lt (tt_cells T) /\ (forall f, In f (tt_cells T) <-> simulated M cells materials a vertex_type f) /\
  (let n := length (tt_cells T) in length (tt_tets T) = n /\ length (tt_density T) = n /\ length (tt_volume T) = n /\ length (tt_inv T) = n /\ length (tt_damping T) = n /\ length (tt_lambda T) = n /\ length (tt_mu T) = n) /\
  forall k f, nth_error (tt_cells T) k = Some f -> exists t volume inv density damping lambda mu,
    nth_error (tt_tets T) k = Some t /\ tet_at cells f t /\
    nth_error (tt_volume T) k = Some volume /\ volume = m3_det (shape_matrix (ref_tet4 ref_pos f)) / 6 /\ 0 < volume /\
    nth_error (tt_inv T) k = Some inv /\ m3_mul inv (shape_matrix (ref_tet4 ref_pos f)) = m3_I /\
    nth_error (tt_density T) k = Some density /\ from_solid (at_density a) materials a (fun d _ => m_density d) f density /\
    nth_error (tt_damping T) k = Some damping /\ from_solid (at_damping a) materials a (fun d _ => Some (m_damping d)) f damping /\
    nth_error (tt_lambda T) k = Some lambda /\ from_solid (at_lambda a) materials a (solid_lame fst) f lambda /\
    nth_error (tt_mu T) k = Some mu /\ from_solid (at_mu a) materials a (solid_lame snd) f mu.
Proof.
  intros M cells rp materials a vt T B I E. destruct (build_tets_done _ _ _ _ _ _ _ B I E) as (E1 & E2 & E3 & P & E4 & F1 & F2 & F3 & F4). rewrite E1, E2, E3, E4.
  set (ts := kept_tets M cells materials a vt) in *. split; [apply kept_tets_sorted | split; [|split]].
  - intros f. apply kept_cells_spec.
  - cbv zeta. rewrite !map_length. rewrite <- (Forall2_len _ _ _ F1), <- (Forall2_len _ _ _ F2), <- (Forall2_len _ _ _ F3), <- (Forall2_len _ _ _ F4), !map_length. repeat split.
  - intros k f N. destruct (Forall2_nth _ _ _ _ _ F1 N) as (den & D1 & D2). destruct (Forall2_nth _ _ _ _ _ F2 N) as (la & L1 & L2). destruct (Forall2_nth _ _ _ _ _ F3 N) as (mu & M1 & M2). destruct (Forall2_nth _ _ _ _ _ F4 N) as (da & A1 & A2).
    pose proof (P f (nth_error_In _ _ N)) as PA. rewrite (map_nth_error _ _ _ N). apply nth_error_map_inv in N. destruct N as ([g t] & N & ->). cbn [fst] in *. pose proof (map_nth_error fst _ _ N) as N'. cbn [fst] in N'.
    exists t, (tet_volume (ref_tet4 rp g)), (m3_inv (shape_matrix (ref_tet4 rp g))), den, da, la, mu.
    split; [exact (map_nth_error snd _ _ N) | split; [exact (proj1 (proj1 (kept_tets_spec _ _ _ _ _ _ _) (nth_error_In _ _ N)))|]].
    split; [reflexivity | split; [reflexivity | split; [exact PA|]]]. split; [exact (map_nth_error _ _ _ N')|].
    split; [apply m3_inv_left; unfold tet_volume in PA; lra|].
    split; [exact D1 | split; [revert D2; apply solid_param_means; apply solid_getters|]].
    split; [exact A1 | split; [revert A2; apply solid_param_means; apply solid_getters|]].
    split; [exact L1 | split; [revert L2; apply solid_param_means; apply solid_getters|]].
    split; [exact M1 | revert M2; apply solid_param_means; apply solid_getters].
Qed.
Example tet_elements_exact_ex : tets_below (length pair_types) pair_cells /\ ids_below (length pair_materials) pair_attribs /\
  (exists T, build_tets StableNeoHookean pair_cells pair_ref pair_materials pair_attribs pair_types = Done T /\ tt_cells T = [0%nat] /\ tt_lambda T = [6] /\ tt_mu T = [8]) /\
  exists T, build_tets NeoHookean pair_cells pair_ref pair_materials pair_attribs pair_types = Done T /\ tt_cells T = [2%nat] /\ tt_lambda T = [1].
Proof. split; [exact pair_below | split; [exact pair_ids_below|]]. destruct pair_stable as (T & ?). destruct pair_plain as (U & ?). split; [exists T | exists U]; tauto. Qed.

(** C112: with material ids and corners in range the construction does not panic (the rest shapes that are left can be inverted), and every error it
    reports is justified. *)
Theorem tet_elements_failures : forall M cells ref_pos materials a vertex_type, tets_below (length vertex_type) cells -> ids_below (length materials) a ->
  match build_tets M cells ref_pos materials a vertex_type with
  | Done _ => True
  | Panic => False
  | Err (InvertedReferenceElement ds) => ds <> [] /\ exists is, StronglySorted lt is /\ (forall f, In f is <-> simulated M cells materials a vertex_type f) /\
      forall k, In k ds <-> exists f, nth_error is k = Some f /\ m3_det (shape_matrix (ref_tet4 ref_pos f)) <= 0
  | Err MissingDensity => at_density a = None /\ exists f d stable, simulated M cells materials a vertex_type f /\ solid_at materials a f d stable /\ m_density d = None
  | Err MissingElasticityParams => (at_lambda a = None \/ at_mu a = None) /\
      exists f d stable, simulated M cells materials a vertex_type f /\ solid_at materials a f d stable /\ m_elasticity d = None
  | Err _ => False
  end.
Proof.
  intros M cells rp materials a vt B I. pose proof (build_tets_no_panic M cells rp materials a vt B I) as NP. pose proof (build_tets_err M cells rp materials a vt) as ER.
  destruct (build_tets M cells rp materials a vt) as [T|e|] eqn:E; [exact Logic.I | | congruence]. specialize (ER e B I eq_refl). cbv zeta in ER.
  destruct ER as [(ds & -> & ND & D)|(f & d & st & S & SA & [(-> & MD & AD)|(-> & ME & AE)])].
  - split; [exact ND|]. exists (map fst (kept_tets M cells materials a vt)). split; [apply kept_tets_sorted | split; [intros f; apply kept_cells_spec|]].
    intros k. rewrite D. unfold tet_volume. split; intros (f & N & L); exists f; (split; [exact N | lra]).
  - split; [exact AD | exists f, d, st; auto].
  - split; [exact AE | exists f, d, st; auto].
Qed.
Example tet_elements_failures_ex : tets_below (length pair_types) pair_cells /\ ids_below 2 pair_attribs /\
  build_tets StableNeoHookean pair_cells pair_ref [Solid (Deformable None (Some (Lame 1 6)) 0) true; RigidMat] pair_attribs pair_types = Err MissingDensity /\
  build_tets NeoHookean pair_cells pair_ref [Solid (Deformable (Some 1) None 0) true; RigidMat] pair_attribs pair_types = Err MissingElasticityParams.
Proof.
  split; [exact pair_below | split; [exact pair_ids_below | split; [reflexivity|]]].
  unfold build_tets. match goal with |- context [tet_cells NeoHookean pair_cells ?m _ _] => rewrite (tet_cells_spec NeoHookean pair_cells m pair_attribs pair_types pair_below pair_ids_below) end.
  match goal with |- context [kept_tets ?a ?b ?c ?d ?e] => change (kept_tets a b c d e) with [(0, (1, 2, 3, 0))]%nat end. cbn [rbind map fst snd]. cbv zeta.
  match goal with |- context [per_cell (at_density ?a) ?m ?g ?l] => change (per_cell (at_density a) m g l) with (Done [1]) end. cbn [rbind].
  assert (P : forall f, In f [0%nat] -> 0 < tet_volume (ref_tet4 pair_ref f)) by (intros f [<-|[]]; rewrite volume_0; lra).
  rewrite (proj2 (ref_tet_volumes_done pair_ref [0%nat] _) (conj eq_refl P)). cbn [rbind]. rewrite (ref_tet_inverses_done _ _ P). reflexivity.
Qed.

(** C112, finding: inverted cells are reported by their position among the elements of their model, not by their index in the mesh. *)
Theorem inverted_cells_reported_refuted : exists cells ref_pos vertex_type ds f,
  build_tets NeoHookean cells ref_pos pair_materials (CellAttribs None None None None (fun c => match c with O => 0%Z | _ => 1%Z end)) vertex_type = Err (InvertedReferenceElement ds) /\
  tets_below (length vertex_type) cells /\ m3_det (shape_matrix (ref_tet4 ref_pos f)) < 0 /\ ~ In f ds /\ forall c, In c ds -> 0 < m3_det (shape_matrix (ref_tet4 ref_pos c)).
Proof.
  set (cells := [MCell false [1; 2; 3; 0]%nat; MCell false [3; 2; 1; 0]%nat]). set (rp := fun f i => pair_pos (cell_to_vertex cells f i)). exists cells, rp, [Free; Free; Free; Free], [0%nat], 1%nat.
  assert (D1 : m3_det (shape_matrix (ref_tet4 rp 1)) = -1) by (unfold ref_tet4, rp; cbv [cell_to_vertex cells nth_error nth m_verts pair_pos]; unm; lra).
  assert (D0 : m3_det (shape_matrix (ref_tet4 rp 0)) = 1) by (unfold ref_tet4, rp; cbv [cell_to_vertex cells nth_error nth m_verts pair_pos]; unm; lra).
  assert (BL : tets_below 4 cells). { intros f t i (c & N & T) L. destruct f as [|[|f]]; cbn in N; [| |destruct f; discriminate]; injection N as <-; cbn in T; injection T as <-; destruct i as [|[|[|[|i]]]]; cbn; lia. }
  split; [|split; [exact BL | split; [lra | split; [intros [H|[]]; discriminate | intros c [<-|[]]; lra]]]].
  unfold build_tets. match goal with |- context [tet_cells ?a ?b ?c ?d ?e] => change (tet_cells a b c d e) with (Done [(1, (3, 2, 1, 0))]%nat) end. cbn [rbind map fst snd]. cbv zeta.
  match goal with |- context [per_cell (at_density ?a) ?m ?g ?l] => change (per_cell (at_density a) m g l) with (Done [5]) end. cbn [rbind].
  unfold ref_tet_volumes. cbn [map]. unfold tet_volume. rewrite D1. unfold non_positive. cbn [length seq combine filter snd]. destruct (Rle_dec (-1 / 6) 0) as [_|N]; [reflexivity | lra].
Qed.

(** C113: a solid whose reference configuration is the current one is at rest: no forces on any vertex, and no energy in the Neo-Hookean elements. *)
Theorem built_solid_at_rest : forall cells ref_pos pos materials a vertex_type S dqdv, tets_below (length vertex_type) cells -> ids_below (length materials) a -> solid_unstressed cells ref_pos pos ->
  build_solid cells ref_pos materials a vertex_type = Done S -> List.Forall (fun l => l <> 0) (tt_lambda (snh_tets S)) ->
  mesh_energy neo_hookean (solid_tets_of (nh_tets S)) dqdv pos (fun _ => v3_0) = Fin 0 /\
  add_mesh_gradient neo_hookean (solid_tets_of (nh_tets S)) dqdv pos (fun _ => v3_0) (repeat v3_0 (length vertex_type)) = Some (repeat v3_0 (length vertex_type)) /\
  add_mesh_gradient stable_neo_hookean (solid_tets_of (snh_tets S)) dqdv pos (fun _ => v3_0) (repeat v3_0 (length vertex_type)) = Some (repeat v3_0 (length vertex_type)).
Proof. exact solid_at_rest. Qed.
Lemma pair_solid : exists S, build_solid pair_cells pair_ref pair_materials pair_attribs pair_types = Done S /\ tt_lambda (snh_tets S) = [6] /\ tt_mu (snh_tets S) = [8] /\ tt_tets (snh_tets S) = [(1, 2, 3, 0)%nat] /\
  tt_tets (nh_tets S) = [(1, 3, 2, 4)%nat].
Proof. unfold build_solid. destruct pair_stable as (T & -> & HT). destruct pair_plain as (U & -> & HU). cbn [rbind]. eexists. split; [reflexivity|]. cbn. tauto. Qed.
Example built_solid_at_rest_ex : tets_below (length pair_types) pair_cells /\ ids_below (length pair_materials) pair_attribs /\ solid_unstressed pair_cells pair_ref pair_pos /\
  exists S, build_solid pair_cells pair_ref pair_materials pair_attribs pair_types = Done S /\ List.Forall (fun l => l <> 0) (tt_lambda (snh_tets S)) /\ tt_tets (snh_tets S) = [(1, 2, 3, 0)%nat] /\
    tt_tets (nh_tets S) = [(1, 3, 2, 4)%nat].
Proof.
  split; [exact pair_below | split; [exact pair_ids_below | split; [exact pair_unstressed|]]]. destruct pair_solid as (S & E & L & _ & T). exists S. rewrite L. split; [exact E | split; [|exact T]]. constructor; [lra | constructor].
Qed.

(** C113: near the configuration it was built in, every element of a solid without parameter attributes answers by Hooke's law with the Lame parameters
    of the material of its cell, in both models. *)
Definition answers_by_hooke (gradient : elem -> option tet) (s : solid_tet) (pos : nat -> v3) (lambda mu : R) : Prop :=
  forall d u : tet, is_derive (fun h => tet_dot (tet_or_zero (gradient (elem_of s (tet_line (gather s pos) d h)))) u) 0
    (s_vol s * m3_inner (hooke lambda mu (m3_mul (s_DX_inv s) (shape_matrix d))) (m3_mul (s_DX_inv s) (shape_matrix u))).
Theorem built_solid_hooke : forall cells ref_pos pos materials a vertex_type S, tets_below (length vertex_type) cells -> ids_below (length materials) a -> solid_unstressed cells ref_pos pos ->
  at_lambda a = None -> at_mu a = None -> build_solid cells ref_pos materials a vertex_type = Done S -> List.Forall (fun l => l <> 0) (tt_lambda (snh_tets S)) ->
  (forall s, In s (solid_tets_of (nh_tets S)) -> exists f d e, tet_at cells f (c0 s, c1 s, c2 s, c3 s) /\ solid_at materials a f d false /\ m_elasticity d = Some e /\
     answers_by_hooke nh_gradient s pos (lambda_of e) (mu_of e)) /\
  (forall s, In s (solid_tets_of (snh_tets S)) -> exists f d e, tet_at cells f (c0 s, c1 s, c2 s, c3 s) /\ solid_at materials a f d true /\ m_elasticity d = Some e /\
     answers_by_hooke snh_gradient s pos (lambda_of e) (mu_of e)).
Proof.
  intros cells rp pos materials a vt S B I U AL AM E L. apply build_solid_done in E. destruct E as [EN ES].
  assert (X : forall M T s, build_tets M cells rp materials a vt = Done T -> In s (solid_tets_of T) -> exists f d e, tet_at cells f (c0 s, c1 s, c2 s, c3 s) /\
    solid_at materials a f d (match M with StableNeoHookean => true | NeoHookean => false end) /\ m_elasticity d = Some e /\ m3_mul (s_DX_inv s) (shape_matrix (gather s pos)) = m3_I /\
    s_lambda s = (match M with StableNeoHookean => lambda_of e + 5 * mu_of e / 6 | NeoHookean => lambda_of e end) /\ s_mu s = (match M with StableNeoHookean => 4 * mu_of e / 3 | NeoHookean => mu_of e end)).
  { intros M T s ET J. destruct (built_tet _ _ _ _ _ _ _ s B I ET J) as (f & TA & [_ (d & st & SA & EM)] & _ & _ & IV & FL & FM). rewrite AL in FL. rewrite AM in FM. cbn [from_solid] in FL, FM.
    destruct FL as (d' & st' & SA' & FL). destruct FM as (d'' & st'' & SA'' & FM). unfold solid_at in SA, SA', SA''. rewrite SA in SA', SA''. injection SA' as <- <-. injection SA'' as <- <-. unfold solid_lame in FL, FM.
    destruct (m_elasticity d) as [e|] eqn:Ee; [|discriminate]. cbn [option_map] in FL, FM. injection FL as FL. injection FM as FM. exists f, d, e. rewrite (ref_is_pos _ _ _ _ _ U TA) in IV.
    assert (ST : st = match M with StableNeoHookean => true | NeoHookean => false end).
    { clear - EM. destruct EM as [EM1 EM2]. destruct M, st; [|reflexivity|reflexivity|].
      - assert (H : NeoHookean = StableNeoHookean) by (apply EM2; split; [reflexivity | discriminate]). discriminate H.
      - destruct (EM1 eq_refl) as [H _]. discriminate H. }
    rewrite ST in SA, FL, FM. split; [exact TA | split; [exact SA | split; [exact Ee | split; [exact IV|]]]]. destruct M; cbn [fst snd] in FL, FM; split; congruence. }
  split; intros s J.
  - destruct (X NeoHookean _ s EN J) as (f & d & e & TA & SA & Ee & IV & EL & EM). exists f, d, e. split; [exact TA | split; [exact SA | split; [exact Ee|]]]. intros dx u. rewrite <- EL, <- EM.
    exact (nh_linearises_to_hooke (s_DX_inv s) (s_vol s) (s_lambda s) (s_mu s) (gather s pos) dx u IV).
  - destruct (X StableNeoHookean _ s ES J) as (f & d & e & TA & SA & Ee & IV & EL & EM). exists f, d, e. split; [exact TA | split; [exact SA | split; [exact Ee|]]]. intros dx u.
    assert (N : lambda_of e + 5 * mu_of e / 6 <> 0). { rewrite <- EL. destruct (in_solid_tets s _ J) as (k & _ & _ & _ & N4 & _). rewrite Forall_forall in L. apply L. exact (nth_error_In _ _ N4). }
    pose proof (snh_linearises_to_hooke (s_DX_inv s) (s_vol s) (lambda_of e) (mu_of e) (gather s pos) dx u N IV) as D. rewrite <- EL, <- EM in D. exact D.
Qed.
Example built_solid_hooke_ex : at_lambda pair_attribs = None /\ at_mu pair_attribs = None /\ solid_unstressed pair_cells pair_ref pair_pos /\ (exists S, build_solid pair_cells pair_ref pair_materials pair_attribs pair_types = Done S /\
  List.Forall (fun l => l <> 0) (tt_lambda (snh_tets S))) /\ solid_at pair_materials pair_attribs 0 (Deformable (Some 3) (Some (Lame 1 6)) (1 / 10)) true.
Proof. split; [reflexivity | split; [reflexivity | split; [exact pair_unstressed | split; [|reflexivity]]]]. destruct built_solid_at_rest_ex as (_ & _ & _ & S & H). exists S. tauto. Qed.

(** C113, finding: Lame parameters given as attributes of cells are passed on as they are, without the conversion applied to those of a material; an
    element of the stable model then does not answer by Hooke's law with the parameters given. *)
Theorem stable_attributes_hooke_refuted : exists cells ref_pos pos materials a vertex_type S s, tets_below (length vertex_type) cells /\ ids_below (length materials) a /\ solid_unstressed cells ref_pos pos /\
  at_lambda a = Some (fun _ => 1) /\ at_mu a = Some (fun _ => 1) /\ build_solid cells ref_pos materials a vertex_type = Done S /\ In s (solid_tets_of (snh_tets S)) /\ ~ answers_by_hooke snh_gradient s pos 1 1.
Proof.
  set (cells := [MCell false [1; 2; 3; 0]%nat]). set (a := CellAttribs None (Some (fun _ => 1)) (Some (fun _ => 1)) None (fun _ => 0%Z)). set (rp := fun f i => pair_pos (cell_to_vertex cells f i)). set (vt := [Free; Free; Free; Free]).
  assert (B : tets_below (length vt) cells). { intros f t i (c & N & T) L. destruct f as [|f]; cbn in N; [|destruct f; discriminate]. injection N as <-. cbn in T. injection T as <-. destruct i as [|[|[|[|i]]]]; cbn; lia. }
  assert (I : ids_below (length pair_materials) a) by (intros c; cbn; lia).
  assert (U : solid_unstressed cells rp pair_pos). { intros f t i (c & N & T) L. destruct f as [|f]; cbn in N; [|destruct f; discriminate]. injection N as <-. cbn in T. injection T as <-. destruct i as [|[|[|[|i]]]]; try reflexivity; lia. }
  assert (SH : shape_matrix (ref_tet4 rp 0) = m3_I) by (unfold ref_tet4, rp; cbv [cell_to_vertex cells nth_error nth m_verts pair_pos]; unm; apply m3_ext; lra).
  assert (V : tet_volume (ref_tet4 rp 0) = 1 / 6) by (unfold tet_volume; rewrite SH, det_I; lra).
  assert (P : forall f, In f [0%nat] -> 0 < tet_volume (ref_tet4 rp f)) by (intros f [<-|[]]; lra).
  assert (EN : build_tets NeoHookean cells rp pair_materials a vt = Done (TetElements [] [] [] [] [] [] [] [])).
  { unfold build_tets. rewrite (tet_cells_spec NeoHookean cells _ a vt B I). change (kept_tets NeoHookean cells pair_materials a vt) with (@nil (nat * corners4)). cbn [rbind map]. cbv zeta. cbn. unfold ref_tet_volumes. cbn. reflexivity. }
  assert (ES : build_tets StableNeoHookean cells rp pair_materials a vt = Done (TetElements [0%nat] [(1, 2, 3, 0)%nat] [3] [tet_volume (ref_tet4 rp 0)] [m3_inv (shape_matrix (ref_tet4 rp 0))] [1 / 10] [1] [1])).
  { unfold build_tets. rewrite (tet_cells_spec StableNeoHookean cells _ a vt B I). change (kept_tets StableNeoHookean cells pair_materials a vt) with [(0, (1, 2, 3, 0))]%nat. cbn [rbind map fst snd]. cbv zeta.
    match goal with |- context [per_cell (at_density a) ?m ?g ?l] => change (per_cell (at_density a) m g l) with (Done [3]) end. cbn [rbind].
    rewrite (proj2 (ref_tet_volumes_done rp [0%nat] _) (conj eq_refl P)). cbn [rbind]. rewrite (ref_tet_inverses_done _ _ P). reflexivity. }
  set (s := SolidTet 1 2 3 0 (m3_inv (shape_matrix (ref_tet4 rp 0))) (tet_volume (ref_tet4 rp 0)) 1 1 (1 / 10)).
  exists cells, rp, pair_pos, pair_materials, a, vt, (TetSolid (TetElements [] [] [] [] [] [] [] []) (TetElements [0%nat] [(1, 2, 3, 0)%nat] [3] [tet_volume (ref_tet4 rp 0)] [m3_inv (shape_matrix (ref_tet4 rp 0))] [1 / 10] [1] [1])), s.
  split; [exact B | split; [exact I | split; [exact U | split; [reflexivity | split; [reflexivity | split; [|split; [left; reflexivity|]]]]]]].
  - unfold build_solid. rewrite EN, ES. reflexivity.
  - intros H. set (d := Tet (V3 1 0 0) v3_0 v3_0 v3_0). specialize (H d d).
    assert (IV : m3_mul (s_DX_inv s) (shape_matrix (gather s pair_pos)) = m3_I).
    { change (gather s pair_pos) with (ref_tet4 rp 0). cbn [s_DX_inv s]. apply m3_inv_left. rewrite SH, det_I. lra. }
    pose proof (snh_linearises_to_hooke (s_DX_inv s) (s_vol s) (3 / 8) (3 / 4) (gather s pair_pos) d d ltac:(lra) IV) as D.
    replace (3 / 8 + 5 * (3 / 4) / 6) with 1 in D by lra. replace (4 * (3 / 4) / 3) with 1 in D by lra.
    assert (Q : s_vol s * m3_inner (hooke 1 1 (m3_mul (s_DX_inv s) (shape_matrix d))) (m3_mul (s_DX_inv s) (shape_matrix d)) =
      s_vol s * m3_inner (hooke (3 / 8) (3 / 4) (m3_mul (s_DX_inv s) (shape_matrix d))) (m3_mul (s_DX_inv s) (shape_matrix d))).
    { rewrite <- (is_derive_unique _ _ _ D). symmetry. apply is_derive_unique. exact H. }
    assert (BI : s_DX_inv s = m3_I). { cbn [s_DX_inv s]. rewrite SH. unfold m3_inv. rewrite inv_transpose_I. unm. apply m3_ext; reflexivity. }
    rewrite BI in Q. change (s_vol s) with (tet_volume (ref_tet4 rp 0)) in Q. rewrite V in Q. revert Q. unfold hooke, d. unm. lra.
Qed.

Print Assumptions tet_elements_exact.
Print Assumptions tet_elements_failures.
Print Assumptions inverted_cells_reported_refuted.
Print Assumptions built_solid_at_rest.
Print Assumptions built_solid_hooke.
Print Assumptions stable_attributes_hooke_refuted.
