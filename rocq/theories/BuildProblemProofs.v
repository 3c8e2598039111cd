(** Lemmas about the construction of the problem. *)
From Coq Require Import Reals ZArith List Arith Bool Lra Lia Permutation Sorted.
From Verif Require Import RList Vec3 Mat3 ElasticModel ElasticSpec AngleModel ShellModel StateModel StateSpec StateProofs UtilModel TopoModel TopoSpec TopoProofs TopoElemProofs TopoRestProofs BuildModel BuildSpec BuildProofs BuildSetupProofs.
Import ListNotations.
Local Open Scope R_scope.

(** * Renaming *)
Lemma position_spec v order : In v order -> (position v order < length order)%nat /\ nth (position v order) order O = v.
Proof.
  induction order as [|x r IH]; intros I; [contradiction|]. cbn [position length]. destruct (Nat.eqb_spec x v) as [->|N]; [split; [lia | reflexivity]|].
  destruct I as [E|I]; [contradiction|]. destruct (IH I) as [A B]. split; [lia | exact B].
Qed.
Lemma position_nth order w : NoDup order -> (w < length order)%nat -> position (nth w order O) order = w.
Proof.
  intros ND L. destruct (position_spec (nth w order O) order (nth_In _ _ L)) as [A B]. apply (proj1 (NoDup_nth order O) ND); assumption.
Qed.
Lemma orig_perm types : Permutation (orig_index types) (seq 0 (length types)).
Proof. apply orig_index_sorts. Qed.
Lemma orig_facts types : NoDup (orig_index types) /\ length (orig_index types) = length types /\ (forall v, In v (orig_index types) <-> (v < length types)%nat).
Proof.
  pose proof (orig_perm types) as P. split; [|split].
  - apply (Permutation_NoDup (Permutation_sym P)), seq_NoDup.
  - rewrite (Permutation_length P). apply seq_length.
  - intros v. split; intros H; [apply (Permutation_in _ P), in_seq in H; lia | apply (Permutation_in _ (Permutation_sym P)), in_seq; lia].
Qed.
Section Renamed.
Variables (n : nat) (cells : list mcell) (types : list vtype).
Hypothesis (W : well_formed n cells) (LT : length types = n).
Let order := orig_index types.
Let cells' := map (rename_cell order) cells.
Lemma position_below v : (v < n)%nat -> (position v order < n)%nat /\ nth (position v order) order O = v.
Proof. intros L. destruct (orig_facts types) as (_ & LO & I). fold order in LO, I. destruct (position_spec v order) as [A B]; [apply I; lia|]. split; [lia | exact B]. Qed.
Lemma renamed_cell f c : nth_error cells f = Some c -> nth_error cells' f = Some (rename_cell order c).
Proof. intros N. apply map_nth_error. exact N. Qed.
Lemma renamed_inv f c' : nth_error cells' f = Some c' -> exists c, nth_error cells f = Some c /\ c' = rename_cell order c.
Proof. apply nth_error_map_inv. Qed.
Lemma renamed_well_formed : well_formed n cells'.
Proof.
  intros f c' N. destruct (renamed_inv f c' N) as (c & Nc & ->). destruct (W f c Nc) as [L B]. cbn. rewrite map_length. split; [exact L|]. intros v I. apply in_map_iff in I. destruct I as (u & <- & I). apply position_below, B, I.
Qed.
Lemma renamed_tri f a b c : triangle_at cells f (a, b, c) -> triangle_at cells' f (position a order, position b order, position c order).
Proof.
  intros (k & N & T). exists (rename_cell order k). split; [apply renamed_cell, N|]. unfold tri_of in *. cbn. destruct (is_tri k); [|discriminate]. destruct (m_verts k) as [|p [|q [|r [|]]]]; try discriminate. injection T as -> -> ->. reflexivity.
Qed.
Lemma renamed_tri_inv f t : triangle_at cells' f t -> exists a b c, triangle_at cells f (a, b, c) /\ t = (position a order, position b order, position c order).
Proof.
  intros (k & N & T). destruct (renamed_inv f k N) as (c & Nc & ->). unfold tri_of in T. cbn in T. destruct (is_tri c) eqn:Ec; [|discriminate]. destruct (m_verts c) as [|p [|q [|r [|]]]] eqn:Em; cbn in T; try discriminate. injection T as <-.
  exists p, q, r. split; [|reflexivity]. exists c. split; [exact Nc|]. unfold tri_of. rewrite Ec, Em. reflexivity.
Qed.
Lemma renamed_tet f w x y z : tet_at cells f (w, x, y, z) -> tet_at cells' f (position w order, position x order, position y order, position z order).
Proof.
  intros (k & N & T). exists (rename_cell order k). split; [apply renamed_cell, N|]. unfold tet_of in *. cbn. destruct (is_tri k); [discriminate|]. destruct (m_verts k) as [|p [|q [|r [|s [|]]]]]; try discriminate. injection T as -> -> -> ->. reflexivity.
Qed.
Lemma renamed_tet_inv f t : tet_at cells' f t -> exists w x y z, tet_at cells f (w, x, y, z) /\ t = (position w order, position x order, position y order, position z order).
Proof.
  intros (k & N & T). destruct (renamed_inv f k N) as (c & Nc & ->). unfold tet_of in T. cbn in T. destruct (is_tri c) eqn:Ec; [discriminate|]. destruct (m_verts c) as [|p [|q [|r [|s [|]]]]] eqn:Em; cbn in T; try discriminate. injection T as <-.
  exists p, q, r, s. split; [|reflexivity]. exists c. split; [exact Nc|]. unfold tet_of. rewrite Ec, Em. reflexivity.
Qed.
Lemma renamed_tets_below : tets_below n cells'.
Proof.
  intros f t i (c & N & T) L. destruct (renamed_well_formed f c N) as [_ B]. apply B. unfold tet_of in T. destruct (is_tri c); [discriminate|]. destruct (m_verts c) as [|p [|q [|r [|s [|]]]]]; try discriminate. injection T as <-.
  destruct i as [|[|[|[|i]]]]; cbn; tauto || lia.
Qed.
Lemma renamed_tris_below : corners_below n cells'.
Proof.
  intros f t v (c & N & T) L. destruct (renamed_well_formed f c N) as [_ B]. apply B. unfold tri_of in T. destruct (is_tri c); [|discriminate]. destruct (m_verts c) as [|p [|q [|r [|]]]]; try discriminate. injection T as <-. cbn in L |- *. intuition.
Qed.
Lemma tri_vertex f a b c : triangle_at cells f (a, b, c) -> (a < n /\ b < n /\ c < n)%nat.
Proof.
  intros (k & N & T). destruct (W f k N) as [_ B]. unfold tri_of in T. destruct (is_tri k); [|discriminate]. destruct (m_verts k) as [|p [|q [|r [|]]]]; try discriminate. injection T as -> -> ->. cbn in B. auto 10.
Qed.
Lemma tet_vertex f w x y z : tet_at cells f (w, x, y, z) -> (w < n /\ x < n /\ y < n /\ z < n)%nat.
Proof.
  intros (k & N & T). destruct (W f k N) as [_ B]. unfold tet_of in T. destruct (is_tri k); [discriminate|]. destruct (m_verts k) as [|p [|q [|r [|s [|]]]]]; try discriminate. injection T as -> -> -> ->. cbn in B. auto 10.
Qed.
Lemma position_inj u v : (u < n)%nat -> (v < n)%nat -> position u order = position v order -> u = v.
Proof. intros U V E. destruct (position_below u U) as [_ A]. destruct (position_below v V) as [_ B]. congruence. Qed.
Lemma renamed_simple : (forall f c, nth_error cells f = Some c -> is_tri c = true -> NoDup (m_verts c)) -> simple cells'.
Proof.
  intros S f a b c T. destruct (renamed_tri_inv f (a, b, c) T) as (p & q & r & T' & E). injection E as -> -> ->. destruct (tri_vertex f p q r T') as (P & Q & R).
  destruct T' as (k & N & T'). unfold tri_of in T'. destruct (is_tri k) eqn:Ek; [|discriminate]. destruct (m_verts k) as [|p' [|q' [|r' [|]]]] eqn:Em; try discriminate. injection T' as -> -> ->.
  pose proof (S f k N Ek) as ND. rewrite Em in ND. inversion_clear ND as [|? ? NI ND']. inversion_clear ND' as [|? ? NI' _]. cbn in NI, NI'.
  repeat split; intros E; apply position_inj in E; try assumption; rewrite E in *; tauto.
Qed.
End Renamed.

(** * The steps of the construction *)
Definition ref_of (i : input) : nat -> nat -> v3 := cell_ref_pos (i_cells i) (i_pos i) (i_ref_corners i) (i_ref_verts i).
Definition sorted_cells (i : input) (types : list vtype) : list mcell := map (rename_cell (orig_index types)) (i_cells i).
Definition attribs_of (i : input) (ids : list Z) : cell_attribs := CellAttribs (i_density i) (i_lambda i) (i_mu i) (i_damping i) (fun c => nth c ids 0%Z).
Definition shell_input_of (i : input) (types : list vtype) : shell_input :=
  ShellInput (sorted_cells i types) (fun v => i_pos i (nth v (orig_index types) O)) (ref_of i) (i_ref_angle i) (i_bend i).
Lemma build_problem_done i eo P : build_problem i eo = Done P -> exists mtl_ids obj_ids types ids oids sizes,
  init_id_attribute (normalize_material (length (i_materials i))) (length (i_cells i)) (i_n i) (i_mtl_ids i) = Done mtl_ids /\ read_ids mtl_ids = Done ids /\
  init_id_attribute clamp_id (length (i_cells i)) (i_n i) (i_obj_ids i) = Done obj_ids /\ read_ids obj_ids = Done oids /\
  rel_mesh_size (ref_of i) (i_cells i) (i_n i) = Done sizes /\ p_sizes P = map (fun v => nth v sizes 0) (orig_index types) /\
  vertex_types (i_materials i) mtl_ids (init_fixed (i_n i) (i_fixed i)) (i_cells i) = Done types /\
  p_types P = sort_types types /\ p_cells P = sorted_cells i types /\ p_pos P = (fun v => i_pos i (nth v (orig_index types) O)) /\
  p_orig_index P = map (fun v => nth v (match i_source i with Some l => l | None => seq 0 (i_n i) end) O) (orig_index types) /\
  source_indices (i_n i) (p_orig_index P) = Some (p_state_index P) /\
  build_solid (p_cells P) (ref_of i) (i_materials i) (attribs_of i ids) (p_types P) = Done (p_solid P) /\
  build_triangles (p_cells P) (ref_of i) (i_materials i) (attribs_of i ids) (p_types P) = Done (p_tris P) /\
  try_dihedrals (shell_input_of i types) (i_materials i) (attribs_of i ids) (p_types P) (eo (p_cells P)) = Done (p_dihedrals P) /\
  compute_vertex_masses (tet_masses (nh_tets (p_solid P)) ++ tet_masses (snh_tets (p_solid P))) (tri_masses (p_tris P)) (i_n i) = Some (p_masses P) /\
  p_mass_inv P = mass_inv (p_types P) (p_masses P) /\ num_dof_vertices (p_types P) <> O /\ has_self_contact (i_contacts i) = false /\
  collect (build_contact oids (i_surface i) (p_types P)) (i_contacts i) = Done (p_contacts P).
Proof.
  intros E. unfold build_problem in E. cbv zeta in E.
  destruct (init_id_attribute (normalize_material _) _ _ _) as [mtl_ids| |] eqn:E1; cbn [rbind] in E; try discriminate.
  destruct (init_id_attribute clamp_id _ _ _) as [obj_ids| |] eqn:E2; cbn [rbind] in E; try discriminate.
  destruct (rel_mesh_size _ _ _) as [sizes| |] eqn:E3; cbn [rbind] in E; try discriminate.
  destruct (vertex_types _ _ _ _) as [types| |] eqn:E4; cbn [rbind] in E; try discriminate.
  destruct (source_indices _ _) as [si|] eqn:E5; cbn [rbind no_panic] in E; try discriminate.
  destruct (read_ids mtl_ids) as [ids| |] eqn:E6; cbn [rbind] in E; try discriminate.
  destruct (build_solid _ _ _ _ _) as [solid| |] eqn:E7; cbn [rbind] in E; try discriminate.
  destruct (build_triangles _ _ _ _ _) as [tris| |] eqn:E8; cbn [rbind] in E; try discriminate.
  destruct (try_dihedrals _ _ _ _ _) as [dih| |] eqn:E9; cbn [rbind] in E; try discriminate.
  destruct (compute_vertex_masses _ _ _) as [masses|] eqn:E10; cbn [rbind no_panic] in E; try discriminate.
  destruct (Nat.eqb_spec (num_dof_vertices (sort_types types)) 0) as [|ND]; try discriminate. destruct (has_self_contact _) eqn:E11; try discriminate.
  destruct (read_ids obj_ids) as [oids| |] eqn:E12; try discriminate. destruct (collect _ _) as [cs| |] eqn:E13; cbn [rbind] in E; try discriminate. injection E as <-.
  exists mtl_ids, obj_ids, types, ids, oids, sizes. cbn. repeat (split; [first [assumption | reflexivity]|]). assumption.
Qed.
Lemma ids_spec i mtl_ids ids : i_materials i <> [] -> init_id_attribute (normalize_material (length (i_materials i))) (length (i_cells i)) (i_n i) (i_mtl_ids i) = Done mtl_ids -> read_ids mtl_ids = Done ids ->
  ids_below (length (i_materials i)) (attribs_of i ids) /\ forall f, nth_error (i_materials i) (Z.to_nat (nth f ids 0%Z)) = cell_material i f.
Proof.
  intros NM E R. assert (K : (0 < length (i_materials i))%nat) by (destruct (i_materials i); [congruence | cbn; lia]). set (k := length (i_materials i)) in *.
  assert (N0 : normalize_material k 0 = 0%Z) by (apply normalize_id; lia).
  destruct (init_ids _ _ _ _ _ _ E R) as [(l & Es & ->)|[-> NT]].
  - assert (X : forall f, nth f (map (normalize_material k) l) 0%Z = normalize_material k (nth f l 0%Z)) by (intros f; rewrite <- N0 at 1; apply map_nth).
    split; [intros c; cbn [at_mtl_id attribs_of]; rewrite X; apply normalize_range, K|]. intros f. rewrite X. unfold cell_material. rewrite Es. unfold normalize_material. set (z := nth f l 0%Z).
    destruct (Z.leb_spec (Z.of_nat k) z) as [Lz|Lz].
    + rewrite (proj2 (nth_error_None (i_materials i) (Z.to_nat z))) by (fold k; lia). reflexivity.
    + destruct (Z.ltb_spec z 0) as [Nz|Nz].
      * replace (Z.max z 0) with 0%Z by lia. replace (Z.to_nat z) with O by lia. cbn [Z.to_nat]. destruct (nth_error (i_materials i) 0); reflexivity.
      * replace (Z.max z 0) with z by lia. destruct (nth_error (i_materials i) (Z.to_nat z)) eqn:En; [reflexivity|]. apply nth_error_None in En. fold k in En. lia.
  - assert (X : forall f, nth f (repeat 0%Z (length (i_cells i))) 0%Z = 0%Z) by (intros f; revert f; generalize (length (i_cells i)); intros m; induction m; intros [|f]; cbn; auto).
    split; [intros c; cbn [at_mtl_id attribs_of]; rewrite X; lia|]. intros f. rewrite X. unfold cell_material. destruct (on_cells (i_mtl_ids i)) as [[]|]; try reflexivity. exfalso. apply (proj1 (NT l)). reflexivity.
Qed.
Lemma ids_length i mtl_ids ids : proper_ids (length (i_cells i)) (i_mtl_ids i) -> forall norm, init_id_attribute norm (length (i_cells i)) (i_n i) (i_mtl_ids i) = Done mtl_ids -> read_ids mtl_ids = Done ids -> length ids = length (i_cells i).
Proof.
  intros PI norm E R. destruct (init_ids _ _ _ _ _ _ E R) as [(l & Es & ->)|[-> NT]]; [|apply repeat_length]. rewrite map_length. unfold proper_ids in PI. rewrite Es in PI. exact PI.
Qed.
Lemma init_ids_done norm n m s : proper_ids n s -> exists s' l, init_id_attribute norm n m s = Done s' /\ read_ids s' = Done l /\ on_cells s' = Some (I32 l).
Proof. unfold proper_ids, init_id_attribute. intros P. destruct (on_cells s) as [[]|]; try contradiction; eexists _, _; (split; [reflexivity | split; reflexivity]). Qed.
Lemma init_fixed_length n a : (forall x, a = Some x -> attr_length x = n) -> length (init_fixed n a) = n.
Proof. intros H. unfold init_fixed. destruct a as [[]|]; try (rewrite map_length; exact (H _ eq_refl)); apply repeat_length. Qed.

(** * Types *)
Definition typed_cell (i : input) (p : mcell * Z) : cell :=
  Cell (m_verts (fst p)) (match nth_error (i_materials i) (Z.to_nat (snd p)) with Some m => kind m | None => MFixed end) (valid_cell (fst p)).
Lemma in_combine_f {A B} (l : list A) (r : list B) f a b : nth_error l f = Some a -> nth_error r f = Some b -> In (a, b) (combine l r).
Proof. revert r f. induction l as [|x l IH]; intros [|y r] [|f] E1 E2; cbn in *; try discriminate; [injection E1 as ->; injection E2 as ->; auto | right; eapply IH; eassumption]. Qed.
Lemma types_spec i mtl_ids ids fixed : well_formed (i_n i) (i_cells i) -> ids_below (length (i_materials i)) (attribs_of i ids) -> on_cells mtl_ids = Some (I32 ids) -> length fixed = i_n i -> length ids = length (i_cells i) ->
  exists types, vertex_types (i_materials i) mtl_ids fixed (i_cells i) = Done types /\ length types = i_n i /\ forall v, (v < i_n i)%nat ->
    (nth v types Ignored = Fixed <-> (0 < nth v fixed 0)%Z) /\
    (nth v types Ignored = Free -> exists f c m, nth_error (i_cells i) f = Some c /\ nth_error (i_materials i) (Z.to_nat (nth f ids 0%Z)) = Some m /\ kind m = MSoft /\ valid_cell c = true /\ In v (m_verts c)) /\
    (forall f c m, nth_error (i_cells i) f = Some c -> nth_error (i_materials i) (Z.to_nat (nth f ids 0%Z)) = Some m -> kind m <> MFixed -> In v (m_verts c) -> (rank (nth v types Ignored) <= rank Fixed)%nat).
Proof.
  intros W IB OC LF LI. unfold vertex_types. cbv zeta. rewrite OC.
  rewrite (collect_map _ (typed_cell i)).
  2:{ intros [c z] I. unfold typed_cell. cbn [fst snd]. apply in_combine_r in I. apply In_nth_error in I. destruct I as [f N]. pose proof (IB f) as R. cbn [at_mtl_id attribs_of] in R. rewrite (nth_error_nth _ _ _ N) in R.
      rewrite Z.max_l by lia. destruct (material_in_range _ _ R) as (m & -> & ->). reflexivity. }
  cbn [rbind]. set (flags := map (Z.ltb 0) fixed). set (cs := map (typed_cell i) (combine (i_cells i) ids)). assert (LL : length flags = i_n i) by (unfold flags; rewrite map_length; exact LF).
  destruct (classify_spec flags cs) as (ts & -> & LT & S).
  { intros c v I J. unfold cs in I. apply in_map_iff in I. destruct I as ([c0 z] & <- & I). cbn [typed_cell c_verts fst] in J. apply in_combine_l, In_nth_error in I. destruct I as [f N]. rewrite LL. apply (W f c0 N), J. }
  exists ts. split; [reflexivity | split; [congruence|]]. intros v Lv. destruct (S v) as (S1 & S2 & S3); [lia|]. split; [|split].
  - rewrite S1. unfold flags. change false with (Z.ltb 0 0) at 1. rewrite map_nth, Z.ltb_lt. reflexivity.
  - intros H. apply S3 in H. destruct H as (_ & _ & c & I & M & V & J). unfold cs in I. apply in_map_iff in I. destruct I as ([c0 z] & <- & I). cbn [typed_cell c_verts c_mat c_valid fst snd] in *.
    destruct (in_combine_nth _ _ _ _ I) as (f & N1 & N2). destruct (nth_error (i_materials i) (Z.to_nat z)) as [m|] eqn:Em; [|discriminate]. exists f, c0, m. rewrite (nth_error_nth _ _ _ N2). auto.
  - intros f c m Nc Nm Km J. destruct (nth v flags false) eqn:Ef; [rewrite (proj2 S1 eq_refl); cbn; lia|].
    assert (Nz : nth_error ids f = Some (nth f ids 0%Z)) by (apply nth_error_nth'; rewrite LI; apply nth_error_Some; congruence).
    assert (IC : In (typed_cell i (c, nth f ids 0%Z)) cs) by (apply in_map, (in_combine_f _ _ f); assumption).
    assert (CM : c_mat (typed_cell i (c, nth f ids 0%Z)) = kind m) by (cbn; rewrite Nm; reflexivity).
    assert (CV : c_valid (typed_cell i (c, nth f ids 0%Z)) = true).
    { cbn. destruct (W f c Nc) as [Lc _]. unfold valid_cell, tet_of, tri_of. destruct (is_tri c); [destruct (m_verts c) as [|? [|? [|? [|]]]] | destruct (m_verts c) as [|? [|? [|? [|? [|]]]]]]; cbn in Lc; try discriminate; reflexivity. }
    destruct (nth v ts Ignored) eqn:Et; try (cbn; lia). exfalso. assert (NR : ~ in_rigid_cell cs v) by (intros H; pose proof (proj2 S2 (conj eq_refl H)); discriminate).
    destruct (kind m) eqn:Kd; [|assert (X : Ignored = Free) by (apply S3; split; [reflexivity | split; [exact NR|]]; eexists; split; [exact IC | split; [exact CM | split; [exact CV | exact J]]]); discriminate | congruence].
    apply NR. eexists. split; [exact IC | split; [exact CM | exact J]].
Qed.

(** * Masses *)
Lemma add_mass_at l : forall i x m, add_mass l i x = Some m -> length m = length l /\ (i < length l)%nat /\ forall v, nth v m 0 = nth v l 0 + (if Nat.eqb v i then x else 0).
Proof.
  induction l as [|a l IH]; intros i x m E; [destruct i; discriminate|]. destruct i as [|i]; cbn [add_mass] in E.
  - injection E as <-. split; [reflexivity | split; [cbn; lia|]]. intros [|v]; cbn; ring.
  - destruct (add_mass l i x) as [m'|] eqn:E'; [|discriminate]. injection E as <-. destruct (IH i x m' E') as (A & B & C). split; [cbn; lia | split; [cbn; lia|]]. intros [|v]; cbn; [ring | apply C].
Qed.
Lemma add_masses_at is : forall l x m, 0 <= x -> add_masses l is x = Some m -> length m = length l /\ forall v, nth v l 0 <= nth v m 0 /\ (In v is -> nth v l 0 + x <= nth v m 0).
Proof.
  induction is as [|i is IH]; intros l x m X E; cbn [add_masses] in E; [injection E as <-; split; [reflexivity|]; intros v; split; [lra | contradiction]|].
  destruct (add_mass l i x) as [l1|] eqn:E1; [|discriminate]. destruct (add_mass_at l i x l1 E1) as (L1 & _ & N1). destruct (IH l1 x m X E) as (L & N). split; [congruence|]. intros v. destruct (N v) as [A B]. rewrite N1 in A, B.
  destruct (Nat.eqb_spec v i) as [Ev|D]; (split; [lra|]); intros H; [lra|]. destruct H as [Ev|H]; [congruence | specialize (B H); lra].
Qed.
Lemma scatter_at share es : forall l m, (forall e, In e es -> 0 <= share e) -> scatter_masses share es l = Some m -> length m = length l /\
  forall v, nth v l 0 <= nth v m 0 /\ forall e, In e es -> In v (el_verts e) -> nth v l 0 + share e <= nth v m 0.
Proof.
  induction es as [|e es IH]; intros l m S E; cbn [scatter_masses] in E; [injection E as <-; split; [reflexivity|]; intros v; split; [lra | contradiction]|].
  destruct (add_masses l (el_verts e) (share e)) as [l1|] eqn:E1; [|discriminate]. destruct (add_masses_at _ _ _ _ (S e (or_introl eq_refl)) E1) as (L1 & N1). destruct (IH l1 m (fun e' I => S e' (or_intror I)) E) as (L & N).
  split; [congruence|]. intros v. destruct (N1 v) as [A1 B1]. destruct (N v) as [A B]. split; [lra|]. intros e' [<-|I] J; [specialize (B1 J); lra | specialize (B e' I J); lra].
Qed.
Lemma masses_at tets tris n m : compute_vertex_masses tets tris n = Some m -> (forall e, In e (tets ++ tris) -> 0 < el_measure e /\ 0 < el_density e) ->
  length m = n /\ forall v, 0 <= nth v m 0 /\ forall e, In e (tets ++ tris) -> In v (el_verts e) -> 0 < nth v m 0.
Proof.
  intros E P. unfold compute_vertex_masses in E. destruct (scatter_masses _ tets _) as [m1|] eqn:E1; [|discriminate].
  assert (Q : forall e, In e (tets ++ tris) -> 0 < el_measure e * el_density e) by (intros e I; destruct (P e I); apply Rmult_lt_0_compat; assumption).
  assert (A1 : forall e, In e tets -> 0 < 25 / 100 * el_measure e * el_density e) by (intros e I; pose proof (Q e ltac:(apply in_or_app; auto)); lra).
  assert (A2 : forall e, In e tris -> 0 < el_measure e * el_density e / 3) by (intros e I; pose proof (Q e ltac:(apply in_or_app; auto)); lra).
  destruct (scatter_at _ tets _ _ (fun e I => Rlt_le _ _ (A1 e I)) E1) as (L1 & N1). destruct (scatter_at _ tris _ _ (fun e I => Rlt_le _ _ (A2 e I)) E) as (L & N). rewrite repeat_length in L1. split; [congruence|].
  assert (Z : forall v, nth v (repeat 0 n) 0 = 0) by (intros v; clear; revert v; induction n; intros [|v]; cbn; auto).
  intros v. destruct (N1 v) as [C1 D1]. destruct (N v) as [C D]. rewrite Z in C1, D1. split; [lra|]. intros e I J. apply in_app_or in I. destruct I as [I|I]; [specialize (D1 e I J); specialize (A1 e I) | specialize (D e I J); specialize (A2 e I)]; lra.
Qed.

(** * The mesh of a built problem *)
Lemma sorted_type types v : (v < length types)%nat -> nth_error (sort_types types) v = Some (nth (nth v (orig_index types) O) types Ignored).
Proof.
  intros L. rewrite (sorts_aligned types _ (orig_index_sorts types)). destruct (orig_facts types) as (_ & LO & _). rewrite (map_nth_error (fun u => nth u types Ignored) v (orig_index types) (d := nth v (orig_index types) O)); [reflexivity|].
  apply nth_error_nth'. lia.
Qed.
Record mesh_facts (i : input) (types : list vtype) (ids : list Z) : Prop := MeshFacts {
  mf_types : length types = i_n i;
  mf_sorted : length (sort_types types) = i_n i;
  mf_ids : ids_below (length (i_materials i)) (attribs_of i ids);
  mf_material : forall f, nth_error (i_materials i) (Z.to_nat (nth f ids 0%Z)) = cell_material i f;
  mf_tets : tets_below (length (sort_types types)) (sorted_cells i types);
  mf_tris : corners_below (length (sort_types types)) (sorted_cells i types);
  mf_simple : simple (sorted_cells i types);
  mf_fixed : forall v, (v < i_n i)%nat -> nth v types Ignored = Fixed <-> (0 < nth v (init_fixed (i_n i) (i_fixed i)) 0)%Z;
  mf_free : forall v, (v < i_n i)%nat -> nth v types Ignored = Free -> exists f c m, nth_error (i_cells i) f = Some c /\ cell_material i f = Some m /\ kind m = MSoft /\ In v (m_verts c);
  mf_moves : forall v f c m, (v < i_n i)%nat -> nth_error (i_cells i) f = Some c -> cell_material i f = Some m -> m <> FixedMat -> In v (m_verts c) -> (rank (nth v types Ignored) <= rank Fixed)%nat }.
Lemma mesh_steps i : well_posed i -> exists mtl_ids types ids,
  init_id_attribute (normalize_material (length (i_materials i))) (length (i_cells i)) (i_n i) (i_mtl_ids i) = Done mtl_ids /\ read_ids mtl_ids = Done ids /\
  vertex_types (i_materials i) mtl_ids (init_fixed (i_n i) (i_fixed i)) (i_cells i) = Done types /\ mesh_facts i types ids.
Proof.
  intros W. destruct (init_ids_done (normalize_material (length (i_materials i))) _ (i_n i) _ (wp_mtl i W)) as (mtl_ids & ids & E & R & OC).
  destruct (ids_spec i mtl_ids ids (wp_materials i W) E R) as [IB MM].
  destruct (types_spec i mtl_ids ids (init_fixed (i_n i) (i_fixed i)) (wp_cells i W) IB OC (init_fixed_length _ _ (wp_fixed i W)) (ids_length i mtl_ids ids (wp_mtl i W) _ E R)) as (types & ET & LT & S).
  assert (LS : length (sort_types types) = i_n i) by (rewrite <- LT; apply Permutation_length, sort_types_perm).
  exists mtl_ids, types, ids. split; [exact E | split; [exact R | split; [exact ET|]]]. constructor; try assumption.
  - rewrite LS. apply renamed_tets_below; [apply wp_cells, W | exact LT].
  - rewrite LS. apply renamed_tris_below; [apply wp_cells, W | exact LT].
  - apply (renamed_simple (i_n i)); [apply wp_cells, W | exact LT | apply wp_simple, W].
  - intros v L. apply S, L.
  - intros v L H. destruct (proj1 (proj2 (S v L)) H) as (f & c & m & N & M & K & _ & J). exists f, c, m. rewrite <- MM. auto.
  - intros v f c m L N M K J. apply (proj2 (proj2 (S v L)) f c m N); [rewrite MM; exact M | destruct m; cbn; congruence | exact J].
Qed.
Lemma problem_mesh i eo P : well_posed i -> build_problem i eo = Done P -> exists types ids, mesh_facts i types ids /\
  p_types P = sort_types types /\ p_cells P = sorted_cells i types /\ p_pos P = (fun v => i_pos i (nth v (orig_index types) O)) /\
  build_solid (p_cells P) (ref_of i) (i_materials i) (attribs_of i ids) (p_types P) = Done (p_solid P) /\
  build_triangles (p_cells P) (ref_of i) (i_materials i) (attribs_of i ids) (p_types P) = Done (p_tris P) /\
  try_dihedrals (shell_input_of i types) (i_materials i) (attribs_of i ids) (p_types P) (eo (p_cells P)) = Done (p_dihedrals P) /\
  compute_vertex_masses (tet_masses (nh_tets (p_solid P)) ++ tet_masses (snh_tets (p_solid P))) (tri_masses (p_tris P)) (i_n i) = Some (p_masses P) /\
  p_mass_inv P = mass_inv (p_types P) (p_masses P).
Proof.
  intros W E. destruct (build_problem_done i eo P E) as (mtl_ids & obj_ids & types & ids & oids & sizes & E1 & E2 & _ & _ & _ & _ & E3 & E4 & E5 & E6 & _ & _ & E7 & E8 & E9 & E10 & E11 & _).
  destruct (mesh_steps i W) as (mtl_ids' & types' & ids' & D1 & D2 & D3 & F). rewrite E1 in D1. injection D1 as <-. rewrite E2 in D2. injection D2 as <-. rewrite E3 in D3. injection D3 as <-.
  exists types, ids. auto 10.
Qed.

(** * Positive masses *)
Lemma in_tet_masses e T : In e (tet_masses T) -> exists k t, nth_error (tt_tets T) k = Some t /\ nth_error (tt_volume T) k = Some (el_measure e) /\ nth_error (tt_density T) k = Some (el_density e).
Proof.
  unfold tet_masses. rewrite in_map_iff. intros ([[[[w x] y] z] [vol rho]] & <- & I). destruct (StateProofs.in_combine_nth _ _ _ _ I) as (k & N1 & N2).
  assert (I2 := nth_error_In _ _ N2). exists k, (w, x, y, z). split; [exact N1|]. cbn [el_measure el_density].
  clear -N2. revert N2. generalize (tt_density T). generalize (tt_volume T). revert k. induction k as [|k IH]; intros [|a l] [|b m]; cbn; try discriminate; [intros E; injection E as -> ->; auto | apply IH].
Qed.
Lemma in_tri_masses e T : In e (tri_masses T) -> exists k t, nth_error (te_triangles T) k = Some t /\ nth_error (te_area T) k = Some (el_measure e) /\ nth_error (te_density T) k = Some (el_density e).
Proof.
  unfold tri_masses. rewrite in_map_iff. intros ([[[w x] y] [vol rho]] & <- & I). destruct (StateProofs.in_combine_nth _ _ _ _ I) as (k & N1 & N2).
  exists k, (w, x, y). split; [exact N1|]. cbn [el_measure el_density].
  clear -N2. revert N2. generalize (te_density T). generalize (te_area T). revert k. induction k as [|k IH]; intros [|a l] [|b m]; cbn; try discriminate; [intros E; injection E as -> ->; auto | apply IH].
Qed.
Lemma tet_mass_of T k w x y z vol rho : nth_error (tt_tets T) k = Some (w, x, y, z) -> nth_error (tt_volume T) k = Some vol -> nth_error (tt_density T) k = Some rho -> In (Element vol rho [w; x; y; z]) (tet_masses T).
Proof.
  intros N1 N2 N3. unfold tet_masses. apply in_map_iff. exists (w, x, y, z, (vol, rho)). split; [reflexivity|]. apply (nth_in_combine _ _ k); [exact N1|]. apply nth_combine; auto.
Qed.
Lemma tri_mass_of T k a b c area rho : nth_error (te_triangles T) k = Some (a, b, c) -> nth_error (te_area T) k = Some area -> nth_error (te_density T) k = Some rho -> In (Element area rho [a; b; c]) (tri_masses T).
Proof.
  intros N1 N2 N3. unfold tri_masses. apply in_map_iff. exists (a, b, c, (area, rho)). split; [reflexivity|]. apply (nth_in_combine _ _ k); [exact N1|]. apply nth_combine; auto.
Qed.
Lemma solid_density_pos i ids f rho : positive_densities i -> param (at_density (attribs_of i ids)) (solid_mtl (i_materials i) (attribs_of i ids)) get_solid_density f rho -> 0 < rho.
Proof.
  unfold positive_densities, param. cbn [at_density attribs_of]. destruct (i_density i) as [g|]; [intros P ->; apply P|]. intros P. unfold solid_mtl, material_of. destruct (Z.ltb _ 0); [discriminate|].
  destruct (nth_error (i_materials i) _) as [m|] eqn:N; cbn [rbind]; [|discriminate]. apply nth_error_In in N. specialize (P m N). destruct m as [|d b| |]; cbn [rbind]; try discriminate.
  unfold get_solid_density, get_density, from_option. cbn [fst]. destruct (m_density d); [|discriminate]. intros E. injection E as <-. apply P. reflexivity.
Qed.
Lemma shell_density_pos i ids f rho : positive_densities i -> param (at_density (attribs_of i ids)) (shell_mtl (i_materials i) (attribs_of i ids)) get_density f rho -> 0 < rho.
Proof.
  unfold positive_densities, param. cbn [at_density attribs_of]. destruct (i_density i) as [g|]; [intros P ->; apply P|]. intros P. unfold shell_mtl, material_of. destruct (Z.ltb _ 0); [discriminate|].
  destruct (nth_error (i_materials i) _) as [m|] eqn:N; cbn [rbind]; [|discriminate]. apply nth_error_In in N. specialize (P m N). destruct m as [d b| | |]; cbn [rbind]; try discriminate.
  unfold get_density, from_option. destruct (m_density d); [|discriminate]. intros E. injection E as <-. apply P. reflexivity.
Qed.

Lemma tet_masses_pos M i ids cells vt T e : positive_densities i -> tets_below (length vt) cells -> ids_below (length (i_materials i)) (attribs_of i ids) ->
  build_tets M cells (ref_of i) (i_materials i) (attribs_of i ids) vt = Done T -> In e (tet_masses T) -> 0 < el_measure e /\ 0 < el_density e.
Proof.
  intros PD B I E J. destruct (build_tets_done _ _ _ _ _ _ _ B I E) as (_ & _ & E3 & P & _ & F1 & _). destruct (in_tet_masses e T J) as (k & t & _ & N2 & N3). rewrite E3 in N2.
  apply nth_error_map_inv in N2. destruct N2 as (f & Nf & Ef). rewrite Ef. split; [apply P; exact (nth_error_In _ _ Nf)|]. destruct (Forall2_nth_r _ _ _ k _ F1 N3) as (g & Ng & Pg). exact (solid_density_pos i ids g _ PD Pg).
Qed.
Lemma tri_masses_pos i ids cells vt T e : positive_densities i -> corners_below (length vt) cells ->
  build_triangles cells (ref_of i) (i_materials i) (attribs_of i ids) vt = Done T -> In e (tri_masses T) -> 0 < el_measure e /\ 0 < el_density e.
Proof.
  intros PD B E J. destruct (build_triangles_done _ _ _ _ _ _ B E) as (_ & _ & E3 & P & _ & F1 & _). destruct (in_tri_masses e T J) as (k & t & _ & N2 & N3). rewrite E3 in N2.
  apply nth_error_map_inv in N2. destruct N2 as (f & Nf & Ef). rewrite Ef. split; [apply P; exact (nth_error_In _ _ Nf)|]. destruct (Forall2_nth_r _ _ _ k _ F1 N3) as (g & Ng & Pg). exact (shell_density_pos i ids g _ PD Pg).
Qed.
Lemma nth_error_same_length {A B} (l : list A) (m : list B) k a : length l = length m -> nth_error l k = Some a -> exists b, nth_error m k = Some b.
Proof. intros L N. destruct (nth_error m k) eqn:E; [eauto|]. apply nth_error_None in E. assert (k < length l)%nat by (apply nth_error_Some; congruence). lia. Qed.
Lemma tet_has_mass M cells rp materials a vt T f t : tets_below (length vt) cells -> ids_below (length materials) a -> build_tets M cells rp materials a vt = Done T ->
  tet_at cells f t -> simulated M cells materials a vt f -> exists e, In e (tet_masses T) /\ forall j, (j < 4)%nat -> In (corner4 t j) (el_verts e).
Proof.
  intros B I E TA S. destruct (build_tets_done _ _ _ _ _ _ _ B I E) as (_ & E2 & E3 & _ & _ & F1 & _). assert (J : In (f, t) (kept_tets M cells materials a vt)) by (apply kept_tets_spec; auto).
  destruct (In_nth_error _ _ J) as [k N]. destruct t as [[[w x] y] z]. pose proof (map_nth_error fst _ _ N) as Nf. pose proof (map_nth_error snd _ _ N) as Nt. rewrite <- E2 in Nt. pose proof (map_nth_error (fun f => tet_volume (ref_tet4 rp f)) _ _ Nf) as Nv. rewrite <- E3 in Nv.
  destruct (nth_error_same_length _ (tt_density T) k _ (Forall2_len _ _ _ F1) Nf) as (rho & Nr). exists (Element (tet_volume (ref_tet4 rp f)) rho [w; x; y; z]). split; [exact (tet_mass_of T k w x y z _ rho Nt Nv Nr)|].
  intros j L. cbn [el_verts]. apply (corner4_in (w, x, y, z)). exists j. auto.
Qed.
Lemma tri_has_mass cells rp materials a vt T f t : corners_below (length vt) cells -> build_triangles cells rp materials a vt = Done T ->
  triangle_at cells f t -> has_movable_corner cells vt f -> exists e, In e (tri_masses T) /\ forall v, corner_of v t -> In v (el_verts e).
Proof.
  intros B E TA S. destruct (build_triangles_done _ _ _ _ _ _ B E) as (_ & E2 & E3 & _ & _ & F1 & _). assert (J : In (f, t) (filter (kept_tri vt) (indexed_triangles cells))) by (apply kept_spec; auto).
  destruct (In_nth_error _ _ J) as [k N]. destruct t as [[w x] y]. pose proof (map_nth_error fst _ _ N) as Nf. pose proof (map_nth_error snd _ _ N) as Nt. rewrite <- E2 in Nt. pose proof (map_nth_error (fun f => tri_area (ref_tri3 rp f)) _ _ Nf) as Nv. rewrite <- E3 in Nv.
  destruct (nth_error_same_length _ (te_density T) k _ (Forall2_len _ _ _ F1) Nf) as (rho & Nr). exists (Element (tri_area (ref_tri3 rp f)) rho [w; x; y]). split; [exact (tri_mass_of T k w x y _ rho Nt Nv Nr)|].
  intros v C. cbn in C |- *. intuition.
Qed.
Lemma problem_masses i eo P : well_posed i -> positive_densities i -> solid_tetrahedra i -> build_problem i eo = Done P ->
  length (p_masses P) = i_n i /\ length (p_mass_inv P) = i_n i /\ forall v, (v < i_n i)%nat ->
    0 <= nth v (p_masses P) 0 /\
    (nth_error (p_types P) v = Some Free -> 0 < nth v (p_masses P) 0 /\ nth v (p_mass_inv P) 0 = / nth v (p_masses P) 0) /\
    (nth_error (p_types P) v <> Some Free -> nth v (p_mass_inv P) 0 = 0).
Proof.
  intros W PD ST E. destruct (problem_mesh i eo P W E) as (types & ids & F & ET & EC & _ & ES & EB & _ & EM & EI). rewrite EC, ET in ES, EB. destruct (build_solid_done _ _ _ _ _ _ ES) as [EN EH].
  pose proof (mf_types _ _ _ F) as LT. pose proof (mf_sorted _ _ _ F) as LS.
  assert (POS : forall e, In e ((tet_masses (nh_tets (p_solid P)) ++ tet_masses (snh_tets (p_solid P))) ++ tri_masses (p_tris P)) -> 0 < el_measure e /\ 0 < el_density e).
  { intros e J. apply in_app_or in J. destruct J as [J|J]; [apply in_app_or in J; destruct J as [J|J]|].
    - exact (tet_masses_pos _ _ _ _ _ _ e PD (mf_tets _ _ _ F) (mf_ids _ _ _ F) EN J).
    - exact (tet_masses_pos _ _ _ _ _ _ e PD (mf_tets _ _ _ F) (mf_ids _ _ _ F) EH J).
    - exact (tri_masses_pos _ _ _ _ _ e PD (mf_tris _ _ _ F) EB J). }
  destruct (masses_at _ _ _ _ EM POS) as [LM AM]. destruct (mass_inv_spec (p_types P) (p_masses P)) as [LI SI]; [rewrite ET; apply sort_types_sorted | rewrite LM, ET; symmetry; exact LS|].
  split; [exact LM | split; [rewrite EI, LI, ET; exact LS|]]. intros v Lv. split; [apply AM|].
  assert (NT : nth_error (p_types P) v = Some (nth v (p_types P) Ignored)) by (apply nth_error_nth'; rewrite ET, LS; exact Lv).
  assert (IV : nth v (p_mass_inv P) 0 = if vtype_eqb (nth v (p_types P) Ignored) Free then / nth v (p_masses P) 0 else 0) by (rewrite EI; apply SI; rewrite ET, LS; exact Lv).
  split.
  - intros H. assert (HF : nth v (p_types P) Ignored = Free) by congruence. rewrite HF in IV. split; [|exact IV]. clear IV.
    rewrite ET, (sorted_type types v ltac:(lia)) in H. injection H as H. set (u := nth v (orig_index types) O) in *.
    destruct (orig_facts types) as (NDo & LO & Io). assert (Lu : (u < i_n i)%nat) by (rewrite <- LT; apply Io, nth_In; lia). assert (Pu : position u (orig_index types) = v) by (apply position_nth; [exact NDo | lia]).
    destruct (mf_free _ _ _ F u Lu H) as (f & c & m & Nc & Mc & Km & Jc). destruct (wp_cells i W f c Nc) as [Lc _].
    assert (NV : nth_error (sort_types types) v = Some Free) by (rewrite (sorted_type types v) by lia; fold u; rewrite H; reflexivity).
    destruct (is_tri c) eqn:Tc.
    + destruct (m_verts c) as [|a [|b [|d [|]]]] eqn:Ec; try discriminate. assert (TA : triangle_at (i_cells i) f (a, b, d)) by (exists c; split; [exact Nc | unfold tri_of; rewrite Tc, Ec; reflexivity]).
      pose proof (renamed_tri (i_cells i) types f a b d TA) as TA'. fold (sorted_cells i types) in TA'. set (t := (position a (orig_index types), position b (orig_index types), position d (orig_index types))) in *.
      assert (CT : corner_of v t) by (unfold t, corner_of; rewrite <- Pu; cbn in Jc; destruct Jc as [<-|[<-|[<-|[]]]]; auto).
      destruct (tri_has_mass _ _ _ _ _ _ f t (mf_tris _ _ _ F) EB TA') as (e & Ie & Ve); [exists t, v, Free; split; [exact TA' | split; [exact CT | split; [exact NV | discriminate]]]|].
      apply (proj2 (AM v) e); [apply in_or_app; right; exact Ie | apply Ve, CT].
    + destruct (m_verts c) as [|a [|b [|d [|g [|]]]]] eqn:Ec; try discriminate. assert (TA : tet_at (i_cells i) f (a, b, d, g)) by (exists c; split; [exact Nc | unfold tet_of; rewrite Tc, Ec; reflexivity]).
      pose proof (renamed_tet (i_cells i) types f a b d g TA) as TA'. fold (sorted_cells i types) in TA'. set (t := (position a (orig_index types), position b (orig_index types), position d (orig_index types), position g (orig_index types))) in *.
      assert (CT : exists j, (j < 4)%nat /\ v = corner4 t j).
      { rewrite <- Pu. cbn in Jc. destruct Jc as [<-|[<-|[<-|[<-|[]]]]]; [exists 0%nat | exists 1%nat | exists 2%nat | exists 3%nat]; split; (lia || reflexivity). }
      destruct CT as (j & Lj & Ev). destruct m as [d' b'|d' st| |]; try discriminate; [exfalso; exact (ST f (a, b, d, g) d' b' TA Mc)|].
      assert (SA : solid_at (i_materials i) (attribs_of i ids) f d' st) by (unfold solid_at; cbn [at_mtl_id attribs_of]; rewrite (mf_material _ _ _ F); exact Mc).
      assert (MV : exists t0 j k, tet_at (sorted_cells i types) f t0 /\ (j < 4)%nat /\ nth_error (sort_types types) (corner4 t0 j) = Some k /\ k <> Fixed).
      { exists t, j, Free. split; [exact TA' | split; [exact Lj | split; [rewrite <- Ev; exact NV | discriminate]]]. }
      assert (SM : simulated (model_of d' st) (sorted_cells i types) (i_materials i) (attribs_of i ids) (sort_types types) f).
      { split; [exact MV|]. exists d', st. split; [exact SA | apply model_of_spec; reflexivity]. }
      destruct (model_of d' st).
      * destruct (tet_has_mass _ _ _ _ _ _ _ f t (mf_tets _ _ _ F) (mf_ids _ _ _ F) EN TA' SM) as (e & Ie & Ve). apply (proj2 (AM v) e); [apply in_or_app; left; apply in_or_app; left; exact Ie | rewrite Ev; apply Ve, Lj].
      * destruct (tet_has_mass _ _ _ _ _ _ _ f t (mf_tets _ _ _ F) (mf_ids _ _ _ F) EH TA' SM) as (e & Ie & Ve). apply (proj2 (AM v) e); [apply in_or_app; left; apply in_or_app; right; exact Ie | rewrite Ev; apply Ve, Lj].
  - intros H. rewrite IV. destruct (nth v (p_types P) Ignored); try reflexivity. congruence.
Qed.

(** * Outcomes *)
Lemma identity_source n order : (forall v, In v order -> (v < n)%nat) -> map (fun v => nth v (seq 0 n) O) order = order.
Proof. intros B. induction order as [|v r IH]; [reflexivity|]. cbn [map]. rewrite seq_nth by (apply B; left; reflexivity). cbn. f_equal. apply IH. intros; apply B; right; assumption. Qed.
Lemma source_done types : exists inv, source_indices (length types) (orig_index types) = Some inv /\ length inv = length types /\ forall j v, nth_error (orig_index types) j = Some v -> nth_error inv v = Some (Some j).
Proof.
  destruct (orig_facts types) as (_ & LO & _). destruct (inverse_indices (orig_index types) (length types) (orig_perm types)) as (inv & E & H). exists inv. split; [|exact H]. unfold state_vertex_indices in E. unfold source_indices. rewrite LO in E |- *. exact E.
Qed.
Lemma cell_stiffness_done cells materials attrib a : ids_below (length materials) a -> exists st, cell_stiffness cells materials attrib a = Done st.
Proof.
  intros I. unfold cell_stiffness. destruct attrib; [eauto|].
  rewrite (collect_map _ (fun i => match nth_error materials (Z.to_nat (at_mtl_id a i)) with Some m => bending_of m | None => 0 end)); [cbn; eauto|].
  intros c _. specialize (I c). rewrite Z.max_l by lia. destruct (material_in_range materials _ I) as (m & -> & ->). reflexivity.
Qed.
Lemma masses_done i types ids S T : mesh_facts i types ids -> build_solid (sorted_cells i types) (ref_of i) (i_materials i) (attribs_of i ids) (sort_types types) = Done S ->
  build_triangles (sorted_cells i types) (ref_of i) (i_materials i) (attribs_of i ids) (sort_types types) = Done T ->
  exists m, compute_vertex_masses (tet_masses (nh_tets S) ++ tet_masses (snh_tets S)) (tri_masses T) (i_n i) = Some m /\ length m = i_n i /\
    rsum m = total_mass (tet_masses (nh_tets S) ++ tet_masses (snh_tets S)) + total_mass (tri_masses T).
Proof.
  intros F ES ET. destruct (build_solid_done _ _ _ _ _ _ ES) as [EN EH]. pose proof (mf_sorted _ _ _ F) as LS.
  assert (TB : forall M X, build_tets M (sorted_cells i types) (ref_of i) (i_materials i) (attribs_of i ids) (sort_types types) = Done X -> forall e, In e (tet_masses X) -> length (el_verts e) = 4%nat /\ forall j, In j (el_verts e) -> (j < i_n i)%nat).
  { intros M X EX e J. destruct (build_tets_done _ _ _ _ _ _ _ (mf_tets _ _ _ F) (mf_ids _ _ _ F) EX) as (_ & E2 & _). unfold tet_masses in J. apply in_map_iff in J. destruct J as ([[[[w x] y] z] [vol rho]] & <- & J). apply in_combine_l in J. rewrite E2 in J.
    apply in_map_iff in J. destruct J as ([f t] & Et & J). cbn [snd] in Et. subst t. apply kept_tets_spec in J. destruct J as [TA _]. split; [reflexivity|]. intros j Ij. cbn [el_verts] in Ij.
    apply (corner4_in (w, x, y, z)) in Ij. destruct Ij as (q & Lq & ->). rewrite <- LS. exact (mf_tets _ _ _ F f _ q TA Lq). }
  destruct (masses_spec (tet_masses (nh_tets S) ++ tet_masses (snh_tets S)) (tri_masses T) (i_n i)) as (m & E & L & R & _).
  - intros e J. apply in_app_or in J. destruct J as [J|J]; [exact (TB _ _ EN e J) | exact (TB _ _ EH e J)].
  - intros e J. destruct (build_triangles_done _ _ _ _ _ _ (mf_tris _ _ _ F) ET) as (_ & E2 & _). unfold tri_masses in J. apply in_map_iff in J. destruct J as ([[[w x] y] [vol rho]] & <- & J). apply in_combine_l in J. rewrite E2 in J.
    apply in_map_iff in J. destruct J as ([f t] & Et & J). cbn [snd] in Et. subst t. apply kept_spec in J. destruct J as [TA _]. split; [reflexivity|]. intros j Ij. rewrite <- LS. apply (mf_tris _ _ _ F f _ j TA). cbn in Ij |- *. intuition.
  - exists m. auto.
Qed.
Lemma objects_spec i obj_ids oids : proper_ids (length (i_cells i)) (i_obj_ids i) -> init_id_attribute clamp_id (length (i_cells i)) (i_n i) (i_obj_ids i) = Done obj_ids -> read_ids obj_ids = Done oids ->
  forall k, (exists z, In z oids /\ Z.to_nat z = k) <-> exists f, (f < length (i_cells i))%nat /\ cell_object i f = k.
Proof.
  intros PI E R k. unfold cell_object. unfold proper_ids in PI. destruct (init_ids _ _ _ _ _ _ E R) as [(l & Es & ->)|[-> NT]].
  - rewrite Es in *. cbn [attr_length] in PI. split.
    + intros (z & I & <-). apply in_map_iff in I. destruct I as (y & <- & I). apply In_nth with (d := 0%Z) in I. destruct I as (f & L & <-). exists f. split; [lia|]. unfold clamp_id. lia.
    + intros (f & L & <-). exists (clamp_id (nth f l 0%Z)). split; [apply in_map, nth_In; lia | unfold clamp_id; lia].
  - assert (X : match on_cells (i_obj_ids i) with Some (I32 l) => fun f => Z.to_nat (nth f l 0%Z) | _ => fun _ => O end = fun _ => O) by (destruct (on_cells (i_obj_ids i)) as [[]|]; try reflexivity; exfalso; apply (proj1 (NT l)); reflexivity).
    split.
    + intros (z & I & <-). assert (L : (0 < length (i_cells i))%nat) by (destruct (length (i_cells i)); [contradiction | lia]). apply repeat_spec in I as ->.
      exists O. split; [exact L|]. apply (f_equal (fun g => g O)) in X; destruct (on_cells (i_obj_ids i)) as [[]|]; exact X.
    + intros (f & L & <-). exists 0%Z. split; [|apply (f_equal (fun g => g f)) in X; destruct (on_cells (i_obj_ids i)) as [[]|]; symmetry; exact X]. destruct (length (i_cells i)); [lia | left; reflexivity].
Qed.
Lemma num_dof_zero types v : num_dof_vertices (sort_types types) = O -> (v < length types)%nat -> (rank Fixed <= rank (nth v types Ignored))%nat.
Proof.
  intros Z L. destruct (num_dof_spec _ (sort_types_sorted types)) as [_ N]. destruct (orig_facts types) as (_ & LO & I). pose proof (Permutation_length (sort_types_perm types)) as LS.
  assert (Iv : In v (orig_index types)) by (apply I, L). destruct (position_spec v _ Iv) as [Lp Ep]. assert (Lp' : (position v (orig_index types) < length types)%nat) by lia.
  pose proof (sorted_type types _ Lp') as S. rewrite Ep in S. pose proof (nth_error_nth _ _ Ignored S) as S'. specialize (N (position v (orig_index types)) ltac:(lia)). rewrite S', Z in N. lia.
Qed.
Definition outcome_spec (i : input) (r : res problem) : Prop :=
  match r with
  | Done _ => True
  | Panic => False
  | Err (OrphanedVertices l) => l <> [] /\ StronglySorted lt l /\ forall v, In v l <-> (v < i_n i)%nat /\ forall f, ~ touches (i_cells i) f v
  | Err (InvertedReferenceElement _) => exists f t, tet_at (i_cells i) f t /\ m3_det (shape_matrix (ref_tet4 (ref_of i) f)) <= 0
  | Err (DegenerateReferenceElement _) => exists f t, triangle_at (i_cells i) f t /\ tri_area (ref_tri3 (ref_of i) f) = 0
  | Err ObjectMaterialMismatch => exists f t m, triangle_at (i_cells i) f t /\ cell_material i f = Some m /\ forall d b, m <> SoftShell d b
  | Err MissingDensity => i_density i = None /\ exists f d x, (cell_material i f = Some (SoftShell d x) \/ exists b, cell_material i f = Some (Solid d b)) /\ m_density d = None
  | Err MissingElasticityParams => (i_lambda i = None \/ i_mu i = None) /\ exists f d x, (cell_material i f = Some (SoftShell d x) \/ exists b, cell_material i f = Some (Solid d b)) /\ m_elasticity d = None
  | Err NothingToSolve => forall f c m v, nth_error (i_cells i) f = Some c -> cell_material i f = Some m -> m <> FixedMat -> In v (m_verts c) -> held i v
  | Err UnimplementedFeature => exists p id fixed, In (p, (id, id), fixed) (i_contacts i)
  | Err (ContactObjectIdError id) => (exists p a b fixed, In (p, (a, b), fixed) (i_contacts i) /\ (id = a \/ id = b)) /\ forall f, (f < length (i_cells i))%nat -> cell_object i f <> id
  | Err AttribError => False
  end.
Lemma build_tets_outcome i types ids M e : mesh_facts i types ids -> length types = i_n i -> build_tets M (sorted_cells i types) (ref_of i) (i_materials i) (attribs_of i ids) (sort_types types) = Err e -> outcome_spec i (Err e).
Proof.
  intros F LT E. destruct (build_tets_err _ _ _ _ _ _ e (mf_tets _ _ _ F) (mf_ids _ _ _ F) E) as [(ds & -> & NE & H)|(f & d & st & _ & SA & H)].
  - destruct ds as [|k ds]; [congruence|]. destruct (proj1 (H k) (or_introl eq_refl)) as (f & Nf & V). apply nth_error_In, kept_cells_spec in Nf. destruct Nf as [(t & _ & _ & TA & _) _].
    destruct (renamed_tet_inv (i_cells i) types f t TA) as (w & x & y & z & TA' & _). exists f, (w, x, y, z). split; [exact TA'|]. unfold tet_volume in V. lra.
  - unfold solid_at in SA. cbn [at_mtl_id attribs_of] in SA. rewrite (mf_material _ _ _ F) in SA. destruct H as [(-> & D & A)|(-> & D & A)]; cbn; (split; [exact A|]); exists f, d, None; eauto.
Qed.
Lemma build_triangles_outcome i types ids e : mesh_facts i types ids -> build_triangles (sorted_cells i types) (ref_of i) (i_materials i) (attribs_of i ids) (sort_types types) = Err e -> outcome_spec i (Err e).
Proof.
  intros F E. destruct (build_triangles_err _ _ _ _ _ e (mf_tris _ _ _ F) (mf_ids _ _ _ F) E) as [(ds & -> & NE & H)|(f & m & If & M & H)].
  - destruct ds as [|k ds]; [congruence|]. destruct (proj1 (H k) (or_introl eq_refl)) as (f & Nf & V). apply nth_error_In, in_map_iff in Nf. destruct Nf as ([g t] & <- & Nf). apply kept_spec in Nf. destruct Nf as [TA _].
    destruct (renamed_tri_inv (i_cells i) types g t TA) as (w & x & y & TA' & _). exists g, (w, x, y). split; [exact TA' | exact V].
  - cbn [at_mtl_id attribs_of] in M. rewrite (mf_material _ _ _ F) in M. apply in_map_iff in If. destruct If as ([g t] & <- & Nf). apply kept_spec in Nf. destruct Nf as [TA _]. cbn [fst] in M.
    destruct (renamed_tri_inv (i_cells i) types g t TA) as (w & x & y & TA' & _). destruct m as [d b|d st| |]; try (subst e; cbn; exists g, (w, x, y); eexists; split; [exact TA' | split; [exact M | congruence]]).
    destruct H as [(-> & D & A)|(-> & D & A)]; cbn; (split; [exact A|]); exists g, d, b; auto.
Qed.
Lemma build_contact_spec i types oids c : (forall id face v, In face (i_surface i id) -> In v face -> (v < length (sort_types types))%nat) ->
  match build_contact oids (i_surface i) (sort_types types) c with
  | Done k => let '(p, (a, b), u) := c in contact_surface oids (i_surface i) (sort_types types) a = Done (ct_object_fixed k) /\ contact_surface oids (i_surface i) (sort_types types) b = Done (ct_collider_fixed k) /\
      ct_object k = a /\ ct_collider k = b /\ ct_use_fixed k = u /\ ct_tolerance k = cp_tolerance p /\ ct_stiffness k = (if Rle_dec (cp_stiffness p) 0 then 1 / cp_tolerance p else cp_stiffness p)
  | Err e => let '(p, (a, b), u) := c in exists id, (id = a \/ id = b) /\ e = ContactObjectIdError id /\ forall z, In z oids -> Z.to_nat z <> id
  | Panic => False
  end.
Proof.
  intros B. destruct c as [[p [a b]] u]. unfold build_contact. pose proof (contact_surface_spec oids (i_surface i) (sort_types types) a (B a)) as SA. pose proof (contact_surface_spec oids (i_surface i) (sort_types types) b (B b)) as SB.
  destruct (contact_surface oids (i_surface i) (sort_types types) a) as [fa|ea|] eqn:EA; cbn [rbind]; [|exists a; destruct SA; auto | exact SA].
  destruct (contact_surface oids (i_surface i) (sort_types types) b) as [fb|eb|] eqn:EB; cbn [rbind]; [|exists b; destruct SB; auto | exact SB]. cbn. auto 10.
Qed.
Lemma problem_outcome i eo : well_posed i -> orders_edges eo -> outcome_spec i (build_problem i eo).
Proof.
  intros W PE. destruct (mesh_steps i W) as (mtl_ids & types & ids & E1 & E2 & E3 & F). pose proof (mf_types _ _ _ F) as LT. pose proof (mf_sorted _ _ _ F) as LS.
  destruct (init_ids_done clamp_id _ (i_n i) _ (wp_obj i W)) as (obj_ids & oids & E4 & E5 & _). pose proof (objects_spec i obj_ids oids (wp_obj i W) E4 E5) as OS.
  unfold build_problem. cbv zeta. rewrite E1. cbn [rbind]. rewrite E4. cbn [rbind]. fold (ref_of i).
  pose proof (rel_mesh_size_spec (ref_of i) (i_cells i) (i_n i) (wp_cells i W)) as RM. destruct (rel_mesh_size _ _ _) as [sizes|e|]; cbn [rbind]; [|destruct RM as (l & -> & NE & SS & H); cbn; auto | contradiction].
  rewrite E3. cbn [rbind]. destruct (orig_facts types) as (_ & LO & IO). rewrite (wp_source i W), identity_source by (intros v I; rewrite <- LT; apply IO, I).
  destruct (source_done types) as (inv & ES & _). rewrite LT in ES. rewrite ES. cbn [no_panic rbind]. rewrite E2. cbn [rbind]. fold (attribs_of i ids). fold (sorted_cells i types).
  destruct (build_solid _ _ _ _ _) as [S|e|] eqn:EB; cbn [rbind].
  2:{ unfold build_solid in EB. destruct (build_tets NeoHookean _ _ _ _ _) as [N| |] eqn:EN; cbn [rbind] in EB; try discriminate; [|injection EB as <-; exact (build_tets_outcome i types ids _ _ F LT EN)].
      destruct (build_tets StableNeoHookean _ _ _ _ _) as [H| |] eqn:EH; cbn [rbind] in EB; try discriminate. injection EB as <-; exact (build_tets_outcome i types ids _ _ F LT EH). }
  2:{ exfalso. unfold build_solid in EB. pose proof (build_tets_no_panic NeoHookean _ (ref_of i) _ _ _ (mf_tets _ _ _ F) (mf_ids _ _ _ F)) as PN. pose proof (build_tets_no_panic StableNeoHookean _ (ref_of i) _ _ _ (mf_tets _ _ _ F) (mf_ids _ _ _ F)) as PS.
      destruct (build_tets NeoHookean _ _ _ _ _); cbn [rbind] in EB; try congruence. destruct (build_tets StableNeoHookean _ _ _ _ _); cbn [rbind] in EB; congruence. }
  destruct (build_triangles _ _ _ _ _) as [T|e|] eqn:ET; cbn [rbind]; [|exact (build_triangles_outcome i types ids e F ET) | exfalso; exact (build_triangles_no_panic _ _ _ _ _ (mf_tris _ _ _ F) (mf_ids _ _ _ F) ET)].
  unfold try_dihedrals. cbn [in_cells in_bend]. destruct (interior_edges_lemma _ _ (eo (sorted_cells i types)) (mf_simple _ _ _ F) (mf_tris _ _ _ F) (PE _)) as (es & -> & _). cbn [rbind].
  destruct (cell_stiffness_done (sorted_cells i types) (i_materials i) (i_bend i) (attribs_of i ids) (mf_ids _ _ _ F)) as (st & ->). cbn [rbind].
  destruct (masses_done i types ids S T F EB ET) as (m & -> & _). cbn [no_panic rbind].
  destruct (Nat.eqb_spec (num_dof_vertices (sort_types types)) 0) as [Z|NZ].
  - cbn. intros f c m0 v N M K J. assert (Lv : (v < i_n i)%nat) by (apply (wp_cells i W f c N), J). pose proof (num_dof_zero types v Z ltac:(lia)) as R1. pose proof (mf_moves _ _ _ F v f c m0 Lv N M K J) as R2.
    assert (TF : nth v types Ignored = Fixed) by (destruct (nth v types Ignored); cbn in R1, R2; (lia || reflexivity)). apply (mf_fixed _ _ _ F v Lv) in TF. unfold held. lia.
  - destruct (has_self_contact _) eqn:HS.
    + cbn. unfold has_self_contact in HS. apply existsb_exists in HS. destruct HS as ([[p [a b]] u] & I & E). cbn in E. apply Nat.eqb_eq in E. subst b. eauto.
    + rewrite E5. assert (B : forall id face v, In face (i_surface i id) -> In v face -> (v < length (sort_types types))%nat) by (intros id face v; rewrite LS; apply (wp_surface i W)).
      destruct (collect _ _) as [cs|e|] eqn:EC; cbn [rbind]; [exact I | |].
      * apply collect_err in EC. destruct EC as (c & Ic & Ec). pose proof (build_contact_spec i types oids c B) as SC. rewrite Ec in SC. destruct c as [[p [a b]] u]. destruct SC as (id & Hid & -> & NI). cbn. split; [exists p, a, b, u; auto|].
        intros f Lf Ef. destruct (proj2 (OS id)) as (z & Iz & Ez); [eauto | exact (NI z Iz Ez)].
      * exfalso. revert EC. apply collect_no_panic. intros c _ Ec. pose proof (build_contact_spec i types oids c B) as SC. rewrite Ec in SC. exact SC.
Qed.

(** * Rest state *)
Lemma corner_vertex cells f a b c j : triangle_at cells f (a, b, c) -> (j < 3)%nat -> cell_to_vertex cells f j = corner (a, b, c) j.
Proof.
  intros (k & N & T) L. unfold cell_to_vertex. rewrite (nth_error_nth _ _ _ N). unfold tri_of in T. destruct (is_tri k); [|discriminate]. destruct (m_verts k) as [|p [|q [|r [|]]]]; try discriminate. injection T as -> -> ->.
  destruct j as [|[|[|j]]]; [reflexivity | reflexivity | reflexivity | lia].
Qed.
Lemma corner4_vertex cells f t j : tet_at cells f t -> (j < 4)%nat -> cell_to_vertex cells f j = corner4 t j.
Proof.
  intros (k & N & T) L. unfold cell_to_vertex. rewrite (nth_error_nth _ _ _ N). unfold tet_of in T. destruct (is_tri k); [discriminate|]. destruct (m_verts k) as [|p [|q [|r [|s [|]]]]]; try discriminate. injection T as <-.
  destruct j as [|[|[|[|j]]]]; [reflexivity | reflexivity | reflexivity | reflexivity | lia].
Qed.
Lemma renamed_directed cells types n f a b : well_formed n cells -> length types = n -> directed (map (rename_cell (orig_index types)) cells) f a b ->
  exists a' b', directed cells f a' b' /\ a = position a' (orig_index types) /\ b = position b' (orig_index types) /\ (a' < n)%nat /\ (b' < n)%nat.
Proof.
  intros W L (x & y & z & T & H). destruct (renamed_tri_inv cells types f _ T) as (p & q & r & T' & E). injection E as -> -> ->. destruct (tri_vertex n cells W f p q r T') as (Lp & Lq & Lr).
  destruct H as [[-> ->]|[[-> ->]|[-> ->]]]; [exists p, q | exists q, r | exists r, p]; (split; [exists p, q, r; auto | auto]).
Qed.
Lemma renamed_oriented cells types n : well_formed n cells -> length types = n -> oriented cells -> oriented (map (rename_cell (orig_index types)) cells).
Proof.
  intros W L O f g a b Df Dg. destruct (renamed_directed _ _ n _ _ _ W L Df) as (a1 & b1 & D1 & -> & -> & La1 & Lb1). destruct (renamed_directed _ _ n _ _ _ W L Dg) as (a2 & b2 & D2 & Ea & Eb & La2 & Lb2).
  apply (position_inj n types L) in Ea; [|assumption..]. apply (position_inj n types L) in Eb; [|assumption..]. subst a2 b2. exact (O f g a1 b1 D1 D2).
Qed.
Lemma problem_at_rest i eo P dqdv : well_posed i -> orders_edges eo -> build_problem i eo = Done P -> i_ref_corners i = None -> i_ref_verts i = None -> i_ref_angle i = None -> oriented (i_cells i) ->
  Forall (fun l => l <> 0) (tt_lambda (snh_tets (p_solid P))) ->
  let n := i_n i in let still := fun _ : nat => v3_0 in
  shell_energy (shell_of P) dqdv (p_pos P) still = Fin 0 /\ add_shell_gradient (shell_of P) dqdv (p_pos P) still (repeat v3_0 n) = Some (repeat v3_0 n) /\
  mesh_energy neo_hookean (solid_tets_of (nh_tets (p_solid P))) dqdv (p_pos P) still = Fin 0 /\
  add_mesh_gradient neo_hookean (solid_tets_of (nh_tets (p_solid P))) dqdv (p_pos P) still (repeat v3_0 n) = Some (repeat v3_0 n) /\
  add_mesh_gradient stable_neo_hookean (solid_tets_of (snh_tets (p_solid P))) dqdv (p_pos P) still (repeat v3_0 n) = Some (repeat v3_0 n).
Proof.
  intros W PE E NC NV NA OR LN n still. destruct (problem_mesh i eo P W E) as (types & ids & F & ET & EC & EP & ES & EB & ED & _). rewrite EC, ET in ES, EB, ED. rewrite EP.
  pose proof (mf_types _ _ _ F) as LT. pose proof (mf_sorted _ _ _ F) as LS. assert (RP : forall f j, ref_of i f j = i_pos i (cell_to_vertex (i_cells i) f j)) by (intros f j; unfold ref_of, cell_ref_pos; rewrite NC, NV; reflexivity).
  assert (BACK : forall v, (v < i_n i)%nat -> nth (position v (orig_index types)) (orig_index types) O = v) by (intros v L; exact (proj2 (position_below (i_n i) types LT v L))).
  assert (US : unstressed (shell_input_of i types)).
  { intros f t j TA L. cbn [in_cells in_ref_pos in_pos shell_input_of] in *. destruct (renamed_tri_inv (i_cells i) types f t TA) as (a & b & c & TA' & ->). destruct (tri_vertex (i_n i) (i_cells i) (wp_cells i W) f a b c TA') as (La & Lb & Lc).
    rewrite RP, (corner_vertex _ _ _ _ _ _ TA' L). f_equal. destruct j as [|[|[|j]]]; cbn [corner]; [symmetry; apply BACK; assumption.. | lia]. }
  assert (UT : solid_unstressed (sorted_cells i types) (ref_of i) (fun v => i_pos i (nth v (orig_index types) O))).
  { intros f t j TA L. destruct (renamed_tet_inv (i_cells i) types f t TA) as (a & b & c & d & TA' & ->). destruct (tet_vertex (i_n i) (i_cells i) (wp_cells i W) f a b c d TA') as (La & Lb & Lc & Ld).
    rewrite RP, (corner4_vertex _ _ _ _ TA' L). f_equal. destruct j as [|[|[|[|j]]]]; cbn [corner4 nth]; [symmetry; apply BACK; assumption.. | lia]. }
  assert (BS : build_shell (shell_input_of i types) (i_materials i) (attribs_of i ids) (sort_types types) (eo (sorted_cells i types)) = Done (shell_of P)).
  { unfold build_shell. cbn [in_cells in_ref_pos shell_input_of] in *. rewrite EB. cbn [rbind]. fold (shell_input_of i types). rewrite ED. reflexivity. }
  destruct (built_at_rest (shell_input_of i types) (i_materials i) (attribs_of i ids) (sort_types types) (eo (sorted_cells i types)) (shell_of P) dqdv (mf_simple _ _ _ F) (mf_tris _ _ _ F) (PE _)
    (renamed_oriented _ _ (i_n i) (wp_cells i W) LT OR) US NA BS) as [A1 A2]. rewrite LS in A2.
  destruct (solid_at_rest _ _ _ _ _ _ _ dqdv (mf_tets _ _ _ F) (mf_ids _ _ _ F) UT ES LN) as (A3 & A4 & A5). rewrite LS in A4, A5. auto 10.
Qed.

(** * Object ids are read last *)
Lemma objects_unread i eo P o s : build_problem i eo = Done P -> init_id_attribute clamp_id (length (i_cells i)) (i_n i) o = Done s -> (forall l, read_ids s <> Done l) ->
  build_problem (Input (i_cells i) (i_n i) (i_pos i) (i_ref_corners i) (i_ref_verts i) (i_mtl_ids i) o (i_fixed i) (i_source i) (i_materials i) (i_density i) (i_lambda i) (i_mu i) (i_damping i)
    (i_ref_angle i) (i_bend i) (i_contacts i) (i_surface i)) eo = Panic.
Proof.
  intros E EO NR. unfold build_problem in *. cbv zeta in *. cbn [i_cells i_n i_pos i_ref_corners i_ref_verts i_mtl_ids i_obj_ids i_fixed i_source i_materials i_density i_lambda i_mu i_damping i_ref_angle i_bend i_contacts i_surface].
  destruct (init_id_attribute (normalize_material _) _ _ _) as [mtl_ids| |] eqn:E1; cbn [rbind] in *; try discriminate.
  rewrite EO. cbn [rbind]. destruct (init_id_attribute clamp_id _ _ (i_obj_ids i)) as [obj_ids| |] eqn:E2; cbn [rbind] in *; try discriminate.
  destruct (rel_mesh_size _ _ _) as [sizes| |] eqn:E3; cbn [rbind] in *; try discriminate.
  destruct (vertex_types _ _ _ _) as [types| |] eqn:E4; cbn [rbind] in *; try discriminate.
  destruct (source_indices _ _) as [si|] eqn:E5; cbn [rbind no_panic] in *; try discriminate.
  destruct (read_ids mtl_ids) as [ids| |] eqn:E6; cbn [rbind] in *; try discriminate.
  destruct (build_solid _ _ _ _ _) as [solid| |] eqn:E7; cbn [rbind] in *; try discriminate.
  destruct (build_triangles _ _ _ _ _) as [tris| |] eqn:E8; cbn [rbind] in *; try discriminate.
  destruct (try_dihedrals _ _ _ _ _) as [dih| |] eqn:E9; cbn [rbind] in *; try discriminate.
  destruct (compute_vertex_masses _ _ _) as [masses|] eqn:E10; cbn [rbind no_panic] in *; try discriminate.
  destruct (Nat.eqb_spec (num_dof_vertices (sort_types types)) 0) as [|ND]; try discriminate. destruct (has_self_contact _) eqn:E11; try discriminate.
  destruct (read_ids s) as [l| |]; [destruct (NR l eq_refl) | reflexivity | reflexivity].
Qed.

(** * The stiffness of stable solids *)
Lemma stable_lambda i types ids S : mesh_facts i types ids -> stiff_solids i -> build_solid (sorted_cells i types) (ref_of i) (i_materials i) (attribs_of i ids) (sort_types types) = Done S ->
  Forall (fun l => l <> 0) (tt_lambda (snh_tets S)).
Proof.
  intros F ST E. apply build_solid_done in E. destruct E as [_ E]. destruct (build_tets_done _ _ _ _ _ _ _ (mf_tets _ _ _ F) (mf_ids _ _ _ F) E) as (_ & _ & _ & _ & _ & _ & F2 & _).
  apply Forall_forall. intros l J. apply In_nth_error in J. destruct J as [k N]. destruct (Forall2_nth_r _ _ _ k _ F2 N) as (f & Nf & Pf). apply nth_error_In in Nf. apply kept_cells_spec in Nf. destruct Nf as [_ (d & st & SA & EM)].
  apply (solid_param_means _ _ _ _ (solid_lame fst)) in Pf; [|apply solid_getters]. unfold from_solid in Pf. cbn [attribs_of at_lambda] in Pf. unfold stiff_solids in ST. destruct (i_lambda i) as [g|]; [rewrite Pf; apply ST|].
  destruct Pf as (d' & st' & SA' & G). unfold solid_at in SA, SA'. rewrite SA in SA'. injection SA' as <- <-. destruct (proj1 EM eq_refl) as [-> NE]. unfold solid_lame in G. destruct (m_elasticity d) as [e|] eqn:EE; [|congruence]. injection G as <-.
  cbn [fst]. apply (ST d e); [exact (nth_error_In _ _ SA) | exact EE].
Qed.

(** * The sorted mesh *)
Lemma sorted_mesh i eo P : well_posed i -> build_problem i eo = Done P -> Permutation (p_orig_index P) (seq 0 (i_n i)) /\
  length (p_cells P) = length (i_cells i) /\
  (forall v, (v < i_n i)%nat -> exists w, nth_error (p_state_index P) v = Some (Some w) /\ nth_error (p_orig_index P) w = Some v) /\
  (forall f c, nth_error (i_cells i) f = Some c -> exists c', nth_error (p_cells P) f = Some c' /\ is_tri c' = is_tri c /\
    Forall2 (fun v w => nth_error (p_orig_index P) w = Some v /\ p_pos P w = i_pos i v) (m_verts c) (m_verts c')).
Proof.
  intros W E. destruct (build_problem_done i eo P E) as (mtl_ids & obj_ids & types & ids & oids & sizes & E1 & E2 & _ & _ & _ & _ & E3 & E4 & E5 & E6 & E7 & E8 & _).
  destruct (mesh_steps i W) as (mtl_ids' & types' & ids' & D1 & D2 & D3 & F). rewrite E1 in D1. injection D1 as <-. rewrite E2 in D2. injection D2 as <-. rewrite E3 in D3. injection D3 as <-.
  pose proof (mf_types _ _ _ F) as LT. rewrite (wp_source i W) in E7. destruct (orig_facts types) as (ND & LO & IO). rewrite identity_source in E7 by (intros v J; apply IO in J; lia).
  rewrite E7, E5, E6. split; [|split; [|split]].
  - rewrite <- LT. apply orig_perm.
  - apply map_length.
  - intros v L. rewrite E7, <- LT in E8. destruct (source_done types) as (inv & S & _ & H). rewrite S in E8. injection E8 as <-. destruct (position_spec v (orig_index types)) as [PL PN]; [apply IO; lia|].
    assert (N : nth_error (orig_index types) (position v (orig_index types)) = Some v) by (rewrite <- PN at 2; apply nth_error_nth'; exact PL). exists (position v (orig_index types)). auto.
  - intros f c N. exists (rename_cell (orig_index types) c). split; [apply map_nth_error; exact N | split; [reflexivity|]]. cbn [rename_cell m_verts].
    assert (B : forall v, In v (m_verts c) -> (v < length types)%nat) by (rewrite LT; apply (wp_cells i W f c N)). revert B. induction (m_verts c) as [|v l IH]; intros B; cbn [map]; constructor.
    + destruct (position_spec v (orig_index types)) as [PL PN]; [apply IO, B; left; reflexivity|]. rewrite PN. split; [rewrite <- PN at 2; apply nth_error_nth'; exact PL | reflexivity].
    + apply IH. intros u J. apply B. right. exact J.
Qed.
