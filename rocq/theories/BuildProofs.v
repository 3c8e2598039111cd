(** Lemmas about the construction of solids. *)
From Coq Require Import Reals ZArith List Arith Bool Lra Lia Permutation Sorted.
From Verif Require Import Vec3 Mat3 ElasticModel ElasticSpec ElasticProofs ElasticMeshProofs ElasticProps AngleModel ShellModel StateModel UtilModel TopoModel TopoSpec TopoProofs TopoElemProofs TopoRestProofs BuildModel BuildSpec.
Import ListNotations.
Local Open Scope R_scope.

(** * Cells that are kept *)
Lemma in_indexed cells f c : In (f, c) (indexed_cells cells) <-> nth_error cells f = Some c.
Proof. unfold indexed_cells. rewrite combine_seq_in, Nat.sub_0_r. split; [intros [_ H]; exact H | intros H; split; [lia | exact H]]. Qed.
Lemma model_eqb_eq a b : model_eqb a b = true <-> a = b.
Proof. destruct a, b; cbn; split; congruence. Qed.
Definition kept_tet (M : model) (materials : list mat) (a : cell_attribs) (vt : list vtype) (p : nat * mcell) : list (nat * corners4) :=
  match nth_error materials (Z.to_nat (at_mtl_id a (fst p))), tet_of (snd p) with
  | Some (Solid d stable), Some (w, x, y, z) => if model_eqb (model_of d stable) M && movable vt [w; x; y; z] then [(fst p, (w, x, y, z))] else []
  | _, _ => []
  end.
Definition kept_tets (M : model) (cells : list mcell) (materials : list mat) (a : cell_attribs) (vt : list vtype) : list (nat * corners4) :=
  concat (map (kept_tet M materials a vt) (indexed_cells cells)).
Lemma tet_cells_spec M cells materials a vt : tets_below (length vt) cells -> ids_below (length materials) a ->
  tet_cells M cells materials a vt = Done (kept_tets M cells materials a vt).
Proof.
  intros B I. unfold tet_cells. rewrite (collect_map _ (kept_tet M materials a vt)); [reflexivity|]. intros [f c] J. apply in_indexed in J. unfold select_tet, kept_tet. cbn [fst snd].
  destruct (material_in_range materials (at_mtl_id a f) (I f)) as (m & -> & ->). cbn [rbind]. destruct m as [d b|d st| |]; try reflexivity.
  destruct (tet_of c) as [[[[w x] y] z]|] eqn:T; [|destruct (model_eqb _ _); reflexivity]. destruct (model_eqb (model_of d st) M); [|reflexivity].
  rewrite any_not_fixed_spec; [reflexivity|]. assert (TA : tet_at cells f (w, x, y, z)) by (exists c; auto).
  intros v Iv. cbn in Iv. destruct Iv as [<-|[<-|[<-|[<-|[]]]]]; [exact (B f _ 0%nat TA ltac:(lia)) | exact (B f _ 1%nat TA ltac:(lia)) | exact (B f _ 2%nat TA ltac:(lia)) | exact (B f _ 3%nat TA ltac:(lia))].
Qed.
Lemma corner4_in t v : (let '(w, x, y, z) := t in In v [w; x; y; z]) <-> exists i, (i < 4)%nat /\ v = corner4 t i.
Proof.
  destruct t as [[[w x] y] z]. cbn [In corner4]. split.
  - intros [<-|[<-|[<-|[<-|[]]]]]; [exists 0%nat | exists 1%nat | exists 2%nat | exists 3%nat]; split; (lia || reflexivity).
  - intros (i & L & ->). destruct i as [|[|[|[|i]]]]; cbn; [tauto | tauto | tauto | tauto | lia].
Qed.
Lemma model_of_spec M d stable : model_of d stable = M <-> (M = StableNeoHookean <-> stable = true /\ m_elasticity d <> None).
Proof.
  assert (E : model_of d stable = StableNeoHookean <-> stable = true /\ m_elasticity d <> None).
  { unfold model_of. destruct (m_elasticity d), stable; split; intros H; try discriminate; try reflexivity; try (split; [reflexivity | discriminate]); destruct H as [H1 H2]; [discriminate H1 | exfalso; apply H2; reflexivity | discriminate H1]. }
  rewrite <- E. split; [intros ->; tauto|]. intros H. destruct M, (model_of d stable); try reflexivity; destruct H as [H1 H2]; [discriminate (H2 eq_refl) | discriminate (H1 eq_refl)].
Qed.
Lemma kept_tets_spec M cells materials a vt f t : In (f, t) (kept_tets M cells materials a vt) <-> tet_at cells f t /\ simulated M cells materials a vt f.
Proof.
  unfold kept_tets. rewrite in_concat. setoid_rewrite in_map_iff. split.
  - intros (l & ([g c] & <- & J) & I). apply in_indexed in J. unfold kept_tet in I. cbn [fst snd] in I. destruct (nth_error materials _) as [m|] eqn:Nm; [|contradiction]. destruct m as [d b|d st| |]; try contradiction.
    destruct (tet_of c) as [[[[w x] y] z]|] eqn:T; [|contradiction]. destruct (model_eqb (model_of d st) M) eqn:EM; cbn [andb] in I; [|contradiction]. destruct (movable vt [w; x; y; z]) eqn:Mv; [|contradiction].
    destruct I as [I|[]]. injection I as <- <-. assert (TA : tet_at cells g (w, x, y, z)) by (exists c; auto). split; [exact TA|]. split.
    + apply movable_spec in Mv. destruct Mv as (v & k & Iv & Nv & Kv). apply (corner4_in (w, x, y, z)) in Iv. destruct Iv as (i & L & ->). exists (w, x, y, z), i, k. auto.
    + exists d, st. split; [exact Nm|]. apply model_of_spec, model_eqb_eq, EM.
  - intros [(c & Nc & T) [(t' & i & k & (c' & Nc' & T') & L & Nv & Kv) (d & st & S & EM)]]. rewrite Nc in Nc'. injection Nc' as <-. rewrite T in T'. injection T' as <-.
    exists (kept_tet M materials a vt (f, c)). split; [exists (f, c); split; [reflexivity | apply in_indexed, Nc]|]. unfold kept_tet. cbn [fst snd]. rewrite S, T. destruct t as [[[w x] y] z].
    apply model_of_spec in EM. rewrite (proj2 (model_eqb_eq _ _) EM). replace (movable vt [w; x; y; z]) with true; [left; reflexivity|]. symmetry. apply movable_spec. exists (corner4 (w, x, y, z) i), k.
    split; [apply (corner4_in (w, x, y, z)); exists i; auto | auto].
Qed.
Lemma kept_tets_sorted M cells materials a vt : StronglySorted lt (map fst (kept_tets M cells materials a vt)).
Proof.
  unfold kept_tets, indexed_cells. assert (G : forall n, StronglySorted lt (map fst (concat (map (kept_tet M materials a vt) (combine (seq n (length cells)) cells)))) /\
    Forall (fun i => (n <= i)%nat) (map fst (concat (map (kept_tet M materials a vt) (combine (seq n (length cells)) cells))))); [|apply (G 0%nat)].
  induction cells as [|c cells IH]; intros n; [split; constructor|]. cbn [length seq combine map concat]. destruct (IH (S n)) as [A B]. rewrite map_app.
  assert (X : map fst (kept_tet M materials a vt (n, c)) = [] \/ map fst (kept_tet M materials a vt (n, c)) = [n]).
  { unfold kept_tet. cbn [fst snd]. destruct (nth_error materials _) as [m|]; [|left; reflexivity]. destruct m as [d b|d st| |]; try (left; reflexivity). destruct (tet_of c) as [[[[w x] y] z]|]; [|left; reflexivity].
    destruct (_ && _); [right; reflexivity | left; reflexivity]. }
  destruct X as [-> | ->]; cbn [app].
  - split; [exact A | revert B; apply Forall_impl; intros; lia].
  - split; constructor; try assumption; try lia; revert B; apply Forall_impl; intros; lia.
Qed.

(** * Volumes and rest shapes *)
Lemma m3_inv_left A : m3_det A <> 0 -> m3_mul (m3_inv A) A = m3_I /\ m3_mul A (m3_inv A) = m3_I.
Proof.
  intros N. assert (K : / m3_det A * m3_det A = 1) by (field; exact N). unfold m3_inv, m3_inv_transpose. clear N. generalize dependent (/ m3_det A). intros k K. dm. revert K. unm. intros K.
  split; apply m3_ext; try ring; rewrite <- K; ring.
Qed.
Lemma ref_tet_volumes_done ref_pos is r : ref_tet_volumes ref_pos is = Done r <->
  r = map (fun f => tet_volume (ref_tet4 ref_pos f)) is /\ forall f, In f is -> 0 < tet_volume (ref_tet4 ref_pos f).
Proof.
  unfold ref_tet_volumes. set (volumes := map _ is). destruct (non_positive volumes) as [|d ds] eqn:E.
  - split.
    + intros H. injection H as <-. split; [reflexivity|]. intros f I. apply In_nth_error in I. destruct I as [k I]. destruct (Rle_dec (tet_volume (ref_tet4 ref_pos f)) 0) as [C|C]; [|lra].
      exfalso. assert (X : In k (non_positive volumes)). { apply non_positive_spec. exists (tet_volume (ref_tet4 ref_pos f)). split; [exact (map_nth_error (fun f => tet_volume (ref_tet4 ref_pos f)) k is I) | exact C]. } rewrite E in X. exact X.
    + intros [-> _]. reflexivity.
  - split; [discriminate|]. intros [_ P]. exfalso. assert (X : In d (non_positive volumes)) by (rewrite E; left; reflexivity). apply non_positive_spec in X. destruct X as (a & N & C).
    apply nth_error_In, in_map_iff in N. destruct N as (f & <- & I). specialize (P f I). lra.
Qed.
Lemma ref_tet_inverses_done ref_pos is : (forall f, In f is -> 0 < tet_volume (ref_tet4 ref_pos f)) ->
  ref_tet_inverses ref_pos is = Done (map (fun f => m3_inv (shape_matrix (ref_tet4 ref_pos f))) is).
Proof.
  intros P. unfold ref_tet_inverses. apply collect_map. intros f I. cbv zeta. pose proof (P f I) as H. unfold tet_volume in H. destruct (Req_EM_T _ 0) as [Z|Z]; [rewrite Z in H; lra | reflexivity].
Qed.

(** * Elements *)
Lemma build_tets_done M cells ref_pos materials a vt T : tets_below (length vt) cells -> ids_below (length materials) a -> build_tets M cells ref_pos materials a vt = Done T ->
  let ts := kept_tets M cells materials a vt in let is := map fst ts in let mtl := solid_mtl materials a in
  tt_cells T = is /\ tt_tets T = map snd ts /\ tt_volume T = map (fun f => tet_volume (ref_tet4 ref_pos f)) is /\ (forall f, In f is -> 0 < tet_volume (ref_tet4 ref_pos f)) /\
  tt_inv T = map (fun f => m3_inv (shape_matrix (ref_tet4 ref_pos f))) is /\
  Forall2 (param (at_density a) mtl get_solid_density) is (tt_density T) /\ Forall2 (param (at_lambda a) mtl (get_solid_lame fst)) is (tt_lambda T) /\
  Forall2 (param (at_mu a) mtl (get_solid_lame snd)) is (tt_mu T) /\ Forall2 (param (at_damping a) mtl get_solid_damping) is (tt_damping T).
Proof.
  intros B I E ts is mtl. unfold build_tets in E. rewrite (tet_cells_spec M cells materials a vt B I) in E. fold ts in E. cbn [rbind] in E. cbv zeta in E. fold is mtl in E.
  destruct (per_cell (at_density a) mtl get_solid_density is) as [den| |] eqn:E1; cbn [rbind] in E; try discriminate.
  destruct (ref_tet_volumes ref_pos is) as [ar| |] eqn:E2; cbn [rbind] in E; try discriminate. apply ref_tet_volumes_done in E2. destruct E2 as [-> P].
  rewrite (ref_tet_inverses_done _ _ P) in E. cbn [rbind] in E.
  destruct (per_cell (at_lambda a) mtl (get_solid_lame fst) is) as [la| |] eqn:E3; cbn [rbind] in E; try discriminate.
  destruct (per_cell (at_mu a) mtl (get_solid_lame snd) is) as [mu| |] eqn:E4; cbn [rbind] in E; try discriminate.
  destruct (per_cell (at_damping a) mtl get_solid_damping is) as [da| |] eqn:E5; cbn [rbind] in E; try discriminate. injection E as <-. cbn.
  repeat (split; [reflexivity || assumption || (apply per_cell_done; assumption)|]). apply per_cell_done. assumption.
Qed.
Lemma kept_cells_spec M cells materials a vt f : In f (map fst (kept_tets M cells materials a vt)) <-> simulated M cells materials a vt f.
Proof.
  rewrite in_map_iff. split; [intros ([g t] & <- & J); apply kept_tets_spec in J; apply J|]. intros S. destruct S as [(t & i & k & TA & H) D]. exists (f, t). split; [reflexivity|].
  apply kept_tets_spec. split; [exact TA|]. split; [exists t, i, k; auto | exact D].
Qed.
Lemma solid_mtl_simulated M cells materials a vt f : simulated M cells materials a vt f -> ids_below (length materials) a ->
  exists d stable, solid_at materials a f d stable /\ solid_mtl materials a f = Done (d, stable) /\ model_of d stable = M.
Proof.
  intros [_ (d & st & S & EM)] I. exists d, st. split; [exact S | split; [|apply model_of_spec, EM]]. unfold solid_mtl. destruct (material_in_range materials (at_mtl_id a f) (I f)) as (m & -> & N). cbn [rbind].
  unfold solid_at in S. rewrite N in S. injection S as ->. reflexivity.
Qed.
Lemma solid_param_means attrib materials a get get' f x : (forall p, get p = Done x -> get' (fst p) (snd p) = Some x) ->
  param attrib (solid_mtl materials a) get f x -> from_solid attrib materials a get' f x.
Proof.
  intros G. unfold param, from_solid. destruct attrib; [auto|]. unfold solid_mtl, material_of, solid_at. destruct (Z.ltb _ 0); [discriminate|].
  destruct (nth_error materials _) as [m|] eqn:E; cbn [rbind]; [|discriminate]. destruct m as [|d b| |]; cbn [rbind]; try discriminate. intros H. exists d, b. split; [reflexivity | exact (G (d, b) H)].
Qed.
Lemma solid_getters x : (forall p, get_solid_density p = Done x -> m_density (fst p) = Some x) /\ (forall p, get_solid_damping p = Done x -> Some (m_damping (fst p)) = Some x) /\
  (forall pick p, get_solid_lame pick p = Done x -> solid_lame pick (fst p) (snd p) = Some x).
Proof.
  split; [|split].
  - intros [d s]. unfold get_solid_density, get_density, from_option. cbn [fst]. destruct (m_density d); congruence.
  - intros [d s]. unfold get_solid_damping. cbn [fst]. congruence.
  - intros pick [d s]. unfold get_solid_lame, solid_lame, from_option, model_of, effective_lame. cbn [fst snd]. destruct (m_elasticity d) as [e|]; cbn [option_map]; [|discriminate].
    intros H. injection H as <-. f_equal. f_equal. destruct s; [|reflexivity]. f_equal; lra.
Qed.

(** * Failures *)
Lemma solid_lame_no_panic pick p : get_solid_lame pick p <> Panic.
Proof. unfold get_solid_lame, from_option. destruct (option_map _ _); discriminate. Qed.
Lemma tets_per_cell_no_panic M cells materials a vt attrib get : ids_below (length materials) a -> (forall p, get p <> Panic) ->
  per_cell attrib (solid_mtl materials a) get (map fst (kept_tets M cells materials a vt)) <> Panic.
Proof.
  intros I P. unfold per_cell. destruct attrib; [discriminate|]. apply collect_no_panic. intros f J. apply kept_cells_spec in J. destruct (solid_mtl_simulated _ _ _ _ _ _ J I) as (d & s & _ & -> & _). cbn [rbind]. apply P.
Qed.
Lemma tets_per_cell_err M cells materials a vt attrib get e : ids_below (length materials) a ->
  per_cell attrib (solid_mtl materials a) get (map fst (kept_tets M cells materials a vt)) = Err e ->
  attrib = None /\ exists f d stable, simulated M cells materials a vt f /\ solid_at materials a f d stable /\ get (d, stable) = Err e.
Proof.
  intros I. unfold per_cell. destruct attrib; [discriminate|]. intros E. split; [reflexivity|]. apply collect_err in E. destruct E as (f & J & E). apply kept_cells_spec in J.
  destruct (solid_mtl_simulated _ _ _ _ _ _ J I) as (d & s & S & Q & _). rewrite Q in E. cbn [rbind] in E. exists f, d, s. auto.
Qed.
Lemma build_tets_no_panic M cells ref_pos materials a vt : tets_below (length vt) cells -> ids_below (length materials) a ->
  build_tets M cells ref_pos materials a vt <> Panic.
Proof.
  intros B I. unfold build_tets. rewrite (tet_cells_spec M cells materials a vt B I). cbn [rbind]. cbv zeta. set (is := map fst _).
  pose proof (tets_per_cell_no_panic M cells materials a vt (at_density a) get_solid_density I) as P1. fold is in P1. destruct (per_cell (at_density a) _ _ is); cbn [rbind]; try congruence.
  2:{ exfalso. apply P1; [|reflexivity]. intros [d s]. unfold get_solid_density, get_density, from_option. cbn. destruct (m_density d); discriminate. }
  destruct (ref_tet_volumes ref_pos is) eqn:E2; cbn [rbind]; try congruence.
  - apply ref_tet_volumes_done in E2. destruct E2 as [-> P]. rewrite (ref_tet_inverses_done _ _ P). cbn [rbind].
    pose proof (tets_per_cell_no_panic M cells materials a vt (at_lambda a) (get_solid_lame fst) I (solid_lame_no_panic fst)) as P2. fold is in P2. destruct (per_cell (at_lambda a) _ _ is); cbn [rbind]; try congruence.
    pose proof (tets_per_cell_no_panic M cells materials a vt (at_mu a) (get_solid_lame snd) I (solid_lame_no_panic snd)) as P3. fold is in P3. destruct (per_cell (at_mu a) _ _ is); cbn [rbind]; try congruence.
    pose proof (tets_per_cell_no_panic M cells materials a vt (at_damping a) get_solid_damping I ltac:(intros p; discriminate)) as P4. fold is in P4. destruct (per_cell (at_damping a) _ _ is); cbn [rbind]; congruence.
  - unfold ref_tet_volumes in E2. destruct (non_positive _); discriminate.
Qed.
Lemma build_tets_err M cells ref_pos materials a vt e : tets_below (length vt) cells -> ids_below (length materials) a ->
  build_tets M cells ref_pos materials a vt = Err e -> let is := map fst (kept_tets M cells materials a vt) in
  (exists ds, e = InvertedReferenceElement ds /\ ds <> [] /\ forall k, In k ds <-> exists f, nth_error is k = Some f /\ tet_volume (ref_tet4 ref_pos f) <= 0) \/
  exists f d stable, simulated M cells materials a vt f /\ solid_at materials a f d stable /\
    ((e = MissingDensity /\ m_density d = None /\ at_density a = None) \/ (e = MissingElasticityParams /\ m_elasticity d = None /\ (at_lambda a = None \/ at_mu a = None))).
Proof.
  intros B I E is. unfold build_tets in E. rewrite (tet_cells_spec M cells materials a vt B I) in E. cbn [rbind] in E. cbv zeta in E. fold is in E.
  assert (L : forall pick p, get_solid_lame pick p = Err e -> e = MissingElasticityParams /\ m_elasticity (fst p) = None).
  { intros pick p. unfold get_solid_lame, from_option. destruct (m_elasticity (fst p)); cbn; [discriminate|]. intros H. injection H as <-. auto. }
  destruct (per_cell (at_density a) _ _ is) eqn:E1; cbn [rbind] in E; try discriminate.
  - destruct (ref_tet_volumes ref_pos is) eqn:E2; cbn [rbind] in E; try discriminate.
    + apply ref_tet_volumes_done in E2. destruct E2 as [-> P]. rewrite (ref_tet_inverses_done _ _ P) in E. cbn [rbind] in E. right.
      destruct (per_cell (at_lambda a) _ _ is) eqn:E3; cbn [rbind] in E; try discriminate.
      * destruct (per_cell (at_mu a) _ _ is) eqn:E4; cbn [rbind] in E; try discriminate.
        -- destruct (per_cell (at_damping a) _ _ is) eqn:E5; cbn [rbind] in E; try discriminate. injection E as ->. destruct (tets_per_cell_err _ _ _ _ _ _ _ _ I E5) as (A & f & d & s & S & SA & M'). discriminate.
        -- injection E as ->. destruct (tets_per_cell_err _ _ _ _ _ _ _ _ I E4) as (A & f & d & s & S & SA & M'). exists f, d, s. split; [exact S | split; [exact SA|]]. right. destruct (L _ _ M') as [L1 L2]. auto.
      * injection E as ->. destruct (tets_per_cell_err _ _ _ _ _ _ _ _ I E3) as (A & f & d & s & S & SA & M'). exists f, d, s. split; [exact S | split; [exact SA|]]. right. destruct (L _ _ M') as [L1 L2]. auto.
    + injection E as ->. left. unfold ref_tet_volumes in E2. set (volumes := map _ is) in E2. destruct (non_positive volumes) as [|d ds] eqn:NP; [discriminate|]. injection E2 as <-. exists (d :: ds). split; [reflexivity | split; [discriminate|]].
      intros k. rewrite <- NP, non_positive_spec. split.
      * intros (x & Nx & C). unfold volumes in Nx. rewrite nth_error_map in Nx. destruct (nth_error is k) as [f|] eqn:Ek; [|discriminate]. injection Nx as <-. exists f. auto.
      * intros (f & Nf & Z). exists (tet_volume (ref_tet4 ref_pos f)). split; [exact (map_nth_error (fun f => tet_volume (ref_tet4 ref_pos f)) k is Nf) | exact Z].
  - injection E as ->. destruct (tets_per_cell_err _ _ _ _ _ _ _ _ I E1) as (A & f & d & s & S & SA & M'). right. exists f, d, s. split; [exact S | split; [exact SA|]]. left.
    unfold get_solid_density, get_density, from_option in M'. cbn [fst] in M'. destruct (m_density d) eqn:Ed; [discriminate|]. injection M' as <-. auto.
Qed.

(** * The rest state *)
Lemma in_solid_tets s T : In s (solid_tets_of T) -> exists k, nth_error (tt_tets T) k = Some (c0 s, c1 s, c2 s, c3 s) /\ nth_error (tt_inv T) k = Some (s_DX_inv s) /\
  nth_error (tt_volume T) k = Some (s_vol s) /\ nth_error (tt_lambda T) k = Some (s_lambda s) /\ nth_error (tt_mu T) k = Some (s_mu s) /\ nth_error (tt_damping T) k = Some (s_damping s).
Proof.
  unfold solid_tets_of. rewrite in_map_iff. intros ([[[[w x] y] z] (inv & vol & la & mu & da)] & <- & I). apply In_nth_error in I. destruct I as [k I]. exists k. rewrite !nth_combine in I. cbn. tauto.
Qed.
Lemma built_tet M cells ref_pos materials a vt T s : tets_below (length vt) cells -> ids_below (length materials) a -> build_tets M cells ref_pos materials a vt = Done T -> In s (solid_tets_of T) ->
  exists f, tet_at cells f (c0 s, c1 s, c2 s, c3 s) /\ simulated M cells materials a vt f /\ 0 < s_vol s /\ s_vol s = tet_volume (ref_tet4 ref_pos f) /\
    m3_mul (s_DX_inv s) (shape_matrix (ref_tet4 ref_pos f)) = m3_I /\
    from_solid (at_lambda a) materials a (solid_lame fst) f (s_lambda s) /\ from_solid (at_mu a) materials a (solid_lame snd) f (s_mu s).
Proof.
  intros B I E J. destruct (build_tets_done _ _ _ _ _ _ _ B I E) as (_ & E2 & E3 & P & E4 & _ & F2 & F3 & _). destruct (in_solid_tets s T J) as (k & N1 & N2 & N3 & N4 & N5 & _).
  rewrite E2 in N1. rewrite E3 in N3. rewrite E4 in N2. apply nth_error_map_inv in N1. destruct N1 as ([f t'] & N1 & Et). cbn [snd] in Et. subst t'.
  pose proof (map_nth_error fst _ _ N1) as N1'. cbn [fst] in N1'. rewrite (map_nth_error _ _ _ N1') in N2. rewrite (map_nth_error _ _ _ N1') in N3. injection N2 as N2. injection N3 as N3.
  pose proof (nth_error_In _ _ N1) as IF. pose proof (proj1 (kept_tets_spec _ _ _ _ _ _ _) IF) as [TA SI]. assert (PV : 0 < tet_volume (ref_tet4 ref_pos f)) by (apply P; exact (nth_error_In _ _ N1')).
  exists f. split; [exact TA | split; [exact SI | split; [rewrite <- N3; exact PV | split; [symmetry; exact N3 | split; [|split]]]]].
  - rewrite <- N2. apply m3_inv_left. unfold tet_volume in PV. lra.
  - destruct (Forall2_nth_r _ _ _ _ _ F2 N4) as (f' & Nf & Q). rewrite N1' in Nf. injection Nf as <-. revert Q. apply solid_param_means. apply solid_getters.
  - destruct (Forall2_nth_r _ _ _ _ _ F3 N5) as (f' & Nf & Q). rewrite N1' in Nf. injection Nf as <-. revert Q. apply solid_param_means. apply solid_getters.
Qed.
Lemma ref_is_pos cells ref_pos pos f s : solid_unstressed cells ref_pos pos -> tet_at cells f (c0 s, c1 s, c2 s, c3 s) -> ref_tet4 ref_pos f = gather s pos.
Proof. intros U TA. unfold ref_tet4, gather. rewrite (U f _ 0%nat TA), (U f _ 1%nat TA), (U f _ 2%nat TA), (U f _ 3%nat TA) by lia. reflexivity. Qed.
Definition tet_0 : tet := Tet v3_0 v3_0 v3_0 v3_0.
Lemma shape_0 B : m3_mul B (shape_matrix tet_0) = m3_0.
Proof. dm. unfold tet_0. unm. apply m3_ext; ring. Qed.
Lemma scale_mul_0 v B : m3_scale v (m3_mul B m3_0) = m3_0.
Proof. dm. unm. apply m3_ext; ring. Qed.
Lemma nh_dstress_0 lam m F : nh_dstress lam m F m3_0 = m3_0.
Proof. unfold nh_dstress. cbv zeta. generalize (m3_inv_transpose F) (ln (m3_det F)). intros G l. dm. unm. apply m3_ext; ring. Qed.
Lemma snh_dstress_0 lam m F : snh_dstress lam m F m3_0 = m3_0.
Proof. unfold snh_dstress. cbv zeta. generalize (m3_det F - (1 + 75 / 100 * m / lam)) (m3_inner F F / (m3_inner F F + 1)) (/ ((m3_inner F F + 1) * (m3_inner F F + 1))). intros u w z. unfold Rdiv. dm. unm. apply m3_ext; ring. Qed.
Lemma nh_product_0 e : nh_product e tet_0 = m3_0.
Proof.
  unfold nh_product. cbv zeta. destruct (Rlt_dec 0 (m3_det (deformation_gradient e))) as [H|_]; [|reflexivity].
  pose proof (nh_product_pos e tet_0 H) as E. unfold nh_product in E. cbv zeta in E. destruct (Rlt_dec 0 (m3_det (deformation_gradient e))); [|contradiction]. rewrite E.
  change (deformation_gradient_differential e tet_0) with (m3_mul (DX_inv e) (shape_matrix tet_0)). rewrite shape_0, nh_dstress_0. apply scale_mul_0.
Qed.
Lemma snh_product_0 e : snh_product e tet_0 = m3_0.
Proof. rewrite snh_product_eq. change (deformation_gradient_differential e tet_0) with (m3_mul (DX_inv e) (shape_matrix tet_0)). rewrite shape_0, snh_dstress_0. apply scale_mul_0. Qed.
Lemma sub_scale_0 k x : tet_sub x (tet_scale k tet_0) = x.
Proof. destruct x as [[] [] [] []]. unfold tet_sub, tet_scale, tet_0, v3_sub, v3_scale, v3_0. cbn. f_equal; f_equal; ring. Qed.
Lemma still_gradient M s dqdv x : (forall e, m_product M e tet_0 = m3_0) -> m_gradient M (elem_of s (gather s x)) = Some tet_0 -> tet_gradient_with_damping M s dqdv x (fun _ => v3_0) = Some tet_0.
Proof.
  intros Z G. unfold tet_gradient_with_damping. cbv zeta. change (gather s (fun _ => v3_0)) with tet_0. rewrite G, Z. unfold tet_0, m3_0, tet_add. cbn [r0 r1 r2 t0 t1 t2 t3].
  f_equal. f_equal; unm; f_equal; ring.
Qed.
Lemma still_mesh M ss dqdv x n : (forall e, m_product M e tet_0 = m3_0) -> (forall s, In s ss -> in_range n s /\ m_gradient M (elem_of s (gather s x)) = Some tet_0) ->
  add_mesh_gradient M ss dqdv x (fun _ => v3_0) (repeat v3_0 n) = Some (repeat v3_0 n).
Proof.
  intros Z. induction ss as [|s ss IH]; intros H; [reflexivity|]. cbn [add_mesh_gradient]. destruct (H s (or_introl eq_refl)) as [(L0 & L1 & L2 & L3) G]. rewrite (still_gradient M s dqdv x Z G). cbn [bind].
  unfold add_tet, tet_0. cbn [t0 t1 t2 t3]. rewrite !add_zero_at by assumption. cbn [bind]. rewrite !add_zero_at by assumption. cbn [bind]. rewrite !add_zero_at by assumption. cbn [bind]. rewrite !add_zero_at by assumption. cbn [bind].
  apply IH. intros s' I. apply H. right. exact I.
Qed.
Lemma still_energy ss dqdv x : (forall s, In s ss -> nh_energy (elem_of s (gather s x)) = Fin 0) -> mesh_energy neo_hookean ss dqdv x (fun _ => v3_0) = Fin 0.
Proof.
  induction ss as [|s ss IH]; intros H; [reflexivity|]. cbn [mesh_energy]. rewrite IH by (intros; apply H; right; assumption). unfold tet_energy_with_damping. cbv zeta. change (gather s (fun _ => v3_0)) with tet_0.
  change (m_energy neo_hookean) with nh_energy. rewrite (H s (or_introl eq_refl)). change (m_product neo_hookean) with nh_product. rewrite nh_product_0. f_equal. unfold v3_sum. unfold tet_0. unm. ring.
Qed.
Lemma build_solid_done cells ref_pos materials a vt S : build_solid cells ref_pos materials a vt = Done S ->
  build_tets NeoHookean cells ref_pos materials a vt = Done (nh_tets S) /\ build_tets StableNeoHookean cells ref_pos materials a vt = Done (snh_tets S).
Proof.
  unfold build_solid. destruct (build_tets NeoHookean _ _ _ _ _) as [N| |]; cbn [rbind]; try discriminate. destruct (build_tets StableNeoHookean _ _ _ _ _) as [T| |]; cbn [rbind]; try discriminate.
  intros E. injection E as <-. auto.
Qed.
Lemma tet_in_range cells (vt : list vtype) f s : tets_below (length vt) cells -> tet_at cells f (c0 s, c1 s, c2 s, c3 s) -> in_range (length vt) s.
Proof. intros B TA. split; [exact (B f _ 0%nat TA ltac:(lia)) | split; [exact (B f _ 1%nat TA ltac:(lia)) | split; [exact (B f _ 2%nat TA ltac:(lia)) | exact (B f _ 3%nat TA ltac:(lia))]]]. Qed.
Lemma solid_at_rest cells ref_pos pos materials a vt S dqdv : tets_below (length vt) cells -> ids_below (length materials) a -> solid_unstressed cells ref_pos pos ->
  build_solid cells ref_pos materials a vt = Done S -> Forall (fun l => l <> 0) (tt_lambda (snh_tets S)) ->
  mesh_energy neo_hookean (solid_tets_of (nh_tets S)) dqdv pos (fun _ => v3_0) = Fin 0 /\
  add_mesh_gradient neo_hookean (solid_tets_of (nh_tets S)) dqdv pos (fun _ => v3_0) (repeat v3_0 (length vt)) = Some (repeat v3_0 (length vt)) /\
  add_mesh_gradient stable_neo_hookean (solid_tets_of (snh_tets S)) dqdv pos (fun _ => v3_0) (repeat v3_0 (length vt)) = Some (repeat v3_0 (length vt)).
Proof.
  intros B I U E L. apply build_solid_done in E. destruct E as [EN ES].
  assert (N : forall s, In s (solid_tets_of (nh_tets S)) -> in_range (length vt) s /\ m3_mul (s_DX_inv s) (shape_matrix (gather s pos)) = m3_I).
  { intros s J. destruct (built_tet _ _ _ _ _ _ _ s B I EN J) as (f & TA & _ & _ & _ & IV & _). split; [exact (tet_in_range _ _ _ _ B TA) | rewrite <- (ref_is_pos _ _ _ _ _ U TA); exact IV]. }
  split; [|split].
  - apply still_energy. intros s J. destruct (N s J) as [_ R]. exact (proj1 (nh_rest (s_DX_inv s) (s_vol s) (s_lambda s) (s_mu s) (gather s pos) R)).
  - apply still_mesh; [exact nh_product_0|]. intros s J. destruct (N s J) as [Q R]. split; [exact Q|]. exact (proj2 (nh_rest (s_DX_inv s) (s_vol s) (s_lambda s) (s_mu s) (gather s pos) R)).
  - apply still_mesh; [exact snh_product_0|]. intros s J. destruct (built_tet _ _ _ _ _ _ _ s B I ES J) as (f & TA & _ & _ & _ & IV & _). split; [exact (tet_in_range _ _ _ _ B TA)|].
    apply (snh_rest (s_DX_inv s) (s_vol s) (s_lambda s) (s_mu s) (gather s pos)); [|rewrite <- (ref_is_pos _ _ _ _ _ U TA); exact IV].
    destruct (in_solid_tets s _ J) as (k & _ & _ & _ & N4 & _). rewrite Forall_forall in L. apply L. exact (nth_error_In _ _ N4).
Qed.
