(** Properties of the assembled contacts. *)
From Coq Require Import Reals List Bool Lra Lia Psatz Sorting.Sorted.
From Coquelicot Require Import Coquelicot.
From Verif Require Import Vec3 Mat3 RList Calc KernelModel KernelSpec KernelProofs FieldModel FieldSpec FieldProofs FieldDerivProofs FieldProps
  NeighborModel NeighborSpec NeighborProofs UpdateProps SurfJacModel SurfJacSpec SurfJacProofs SurfJacProps HessModel HessSpec HessProofs HessMixProofs HessProps
  SurfHessModel SurfHessSpec JetProofs SurfHessProofs SurfHessCodeProofs SurfHessProps JointHessProofs ContactModel ContactSpec ContactProofs ContactMapSpec ContactMapProofs AssemblyModel ContactAsmModel ContactAsmSpec ContactAsmProofs ContactAsmProps
  ContactHessModel ContactHessSpec ContactHessProofs ContactRowProofs ContactMoveProofs.
From Verif Require MassProofs ElasticModel.
Import ListNotations.
Local Open Scope R_scope.

(** C155.  The force that a contact subtracts from a zero vector is the derivative of its energy in the positions of all vertices of
    the mesh, those of the implicit surface and those of the collider, for every motion that leaves the fixed side in place. *)
Lemma subtract_total lambda : forall J f, (forall e, In e J -> (fst (fst e) < length lambda)%nat /\ (snd (fst e) < length f)%nat) -> exists f', subtract_force lambda J f = Some f' /\ length f' = length f.
Proof.
  induction J as [|[[r v] b] J IH]; intros f H; [exists f; split; reflexivity|]. destruct (H _ (or_introl eq_refl)) as [A B]. cbn [fst snd] in A, B. cbn [subtract_force].
  destruct (nth_error lambda r) as [l|] eqn:E; [|apply nth_error_None in E; lia].
  assert (M : forall g i (f : list v3), (i < length f)%nat -> exists f', modify_at i g f = Some f' /\ length f' = length f).
  { clear. intros g. induction i as [|i IH]; intros [|a f] L; cbn [length] in L; try lia; cbn [modify_at]; [eexists; split; reflexivity|]. destruct (IH f ltac:(lia)) as (f' & -> & E). cbn [option_map]. eexists. split; [reflexivity|]. cbn [length]. congruence. }
  destruct (M (fun fv => v3_sub fv (v3_scale l b)) v f B) as (f1 & -> & L1). destruct (IH f1) as (f' & E' & L'); [intros e He; rewrite L1; apply H; right; exact He|]. exists f'. split; [exact E'|congruence].
Qed.
Lemma power_sum : forall (f : list v3) (U : nat -> v3) m, power f (map U (seq m (length f))) = rsum (map (fun v => v3_dot (nth (v - m) f v3_0) (U v)) (seq m (length f))).
Proof.
  induction f as [|a f IH]; intros U m; [reflexivity|]. cbn [length seq map]. rewrite power_cons, rsum_cons, Nat.sub_diag. cbn [nth]. f_equal. rewrite IH. apply rsum_ext. intros v Hv. apply in_seq in Hv. replace (v - m)%nat with (Datatypes.S (v - Datatypes.S m)) by lia. reflexivity.
Qed.
Theorem contact_force_is_derivative : forall c0 X rb c, contact_shape c0 (length X) -> update_state c0 X rb = Some c -> contact_regular c ->
  exists f, subtract_constraint_force c (repeat v3_0 (length X)) = Some f /\ length f = length X /\
    forall U rb', respects c U -> is_derive (fun s => energy_at c rb' (mesh_line X U s)) 0 (rsum (map (fun v => v3_dot (nth v f v3_0) (U v)) (seq 0 (length X)))).
Proof.
  intros c0 X rb c SH0 E RG. destruct (update_places c0 _ X rb c SH0 E) as (SH & AT & PL & _). set (n := length X) in *.
  unfold subtract_constraint_force, contact_multipliers. rewrite (distances c n SH), (jacobian_list c n SH). cbn [option_map].
  set (lambda := multipliers (ct_delta c) (ct_kappa c) (map (dpot c) (crows c))).
  assert (LL : length lambda = constraint_size c) by (unfold lambda, multipliers; rewrite !map_length; apply (rows_length c n SH)).
  destruct (subtract_total lambda (jacobian_rows c) (repeat v3_0 n)) as (f & F & LF); [intros e He; rewrite LL, repeat_length; apply (jacobian_range c n SH e He)|]. rewrite repeat_length in LF.
  exists f. split; [exact F|]. split; [exact LF|]. intros U rb' RE. pose proof (jet_derive _ _ _ _ (energy_jet c n X SH PL AT RG U rb')) as D.
  assert (EQ : rsum (map (fun p => ct_kappa c * penalty_db (ct_delta c) (dpot c p) * rate1 c U p) (crows c)) = rsum (map (fun v => v3_dot (nth v f v3_0) (U v)) (seq 0 n))).
  { destruct (subtract_force_dot lambda (jacobian_rows c) (map U (seq 0 n)) _ f F) as [_ P]; [rewrite map_length, seq_length, repeat_length; reflexivity|].
    assert (Z : forall k u, power (repeat v3_0 k) u = 0). { induction k as [|k IH]; intros [|u us]; try reflexivity. cbn [repeat]. rewrite power_cons, IH. unfold v3_dot, v3_0. cbn [vx vy vz]. ring. }
    rewrite Z in P. pose proof (power_sum f U 0) as PS. rewrite LF in PS. rewrite PS in P. rewrite (rsum_ext _ (fun v => v3_dot (nth (v - 0) f v3_0) (U v)) (seq 0 n)) by (intros v _; rewrite Nat.sub_0_r; reflexivity). rewrite P.
    rewrite (rsum_ext (fun p => ct_kappa c * penalty_db (ct_delta c) (dpot c p) * rate1 c U p) (fun p => -1 * (nth (cnum c (fst p)) lambda 0 * rate1 c U p))).
    2: { intros p I. unfold lambda, multipliers. rewrite map_map. destruct (row_num c n SH p I) as (_ & LN & NE). rewrite (nth_error_nth _ (cnum c (fst p)) 0 (x := - ct_kappa c * penalty_db (ct_delta c) (dpot c p))) by (rewrite nth_error_map, NE; reflexivity). ring. }
    rewrite rsum_scale. rewrite (rsum_ext _ (fun p => nth (cnum c (fst p)) lambda 0 * row_product (jacobian_rows c) U (cnum c (fst p)))) by (intros p I; rewrite (jacobian_rate c n SH U RE p I); reflexivity).
    change (fun p : crow => nth (cnum c (fst p)) lambda 0 * row_product (jacobian_rows c) U (cnum c (fst p))) with (fun p : crow => (fun j => nth j lambda 0 * row_product (jacobian_rows c) U j) ((fun p : crow => cnum c (fst p)) p)). rewrite <- (map_map (fun p : crow => cnum c (fst p)) (fun j => nth j lambda 0 * row_product (jacobian_rows c) U j)), (row_numbers c n SH), (rows_length c n SH).
    rewrite (rsum_ext _ (fun j => rsum (map (fun e => if Nat.eqb (fst (fst e)) j then nth j lambda 0 * v3_dot (snd e) (U (snd (fst e))) else 0) (jacobian_rows c))) (seq 0 (constraint_size c))).
    2: { intros j _. unfold row_product. rewrite <- rsum_scale. apply rsum_ext. intros [[r v] b] _. cbn [fst snd]. destruct (Nat.eqb r j); ring. }
    rewrite rsum_swap. rewrite (rsum_ext (fun e => rsum (map (fun j => if Nat.eqb (fst (fst e)) j then nth j lambda 0 * v3_dot (snd e) (U (snd (fst e))) else 0) (seq 0 (constraint_size c)))) (fun b => nth (fst (fst b)) lambda 0 * v3_dot (snd b) (nth (snd (fst b)) (map U (seq 0 n)) v3_0))); [ring|].
    intros e He. destruct (jacobian_range c n SH e He) as [R1 R2]. rewrite (seq_pick (fun j => nth j lambda 0 * v3_dot (snd e) (U (snd (fst e))))) by exact R1. f_equal. f_equal. symmetry. rewrite (nth_indep _ v3_0 (U 0%nat)) by (rewrite map_length, seq_length; exact R2). rewrite (map_nth U), seq_nth by exact R2. reflexivity. }
  rewrite <- EQ. exact D.
Qed.

(** C156.  The values that a contact reports for the entries of its Hessian, at the indices it reported when the sparsity was built,
    are the negative of the second derivative of its energy in the positions of the vertices that may move; the matrix is symmetric. *)
Lemma hessian_list c n g dist lam m : contact_shape c n -> (forall p, In p (mp_pattern g) -> (snd p < length dist)%nat) ->
  let f := fun j => - ct_kappa c * penalty_ddb (ct_delta c) (nth j dist 0) in
  let L := filter (fun h => andb (active m (fst (fst h))) (active m (snd (fst h)))) (flat_map mirrored (object_part c lam ++ mixed_part c lam) ++ collider_part c lam) ++ gradient_product g f m in
  constraint_hessian_values c g dist (map lam (crows c)) m = Some (flat_map scalar_entries L) /\ constraint_hessian_indices c g m = Some (map fst (flat_map scalar_entries L)) /\
  (forall h, In h L -> (fst (fst h) < m)%nat /\ (snd (fst h) < m)%nat).
Proof.
  intros SH PC f L. split; [|split].
  - unfold constraint_hessian_values, constraint_hessian_blocks. rewrite (object_hessian_rows c n SH lam), (mixed_hessian_rows c n SH lam), (collider_hessian_rows c n SH lam).
    replace (forallb _ _) with true; [reflexivity|]. symmetry. apply forallb_forall. intros p Hp. apply orb_true_iff. right. apply Nat.ltb_lt, PC, Hp.
  - unfold constraint_hessian_indices. rewrite (object_indices_rows c n SH lam), (mixed_indices_rows c n SH lam), (collider_indices_rows c n SH lam). f_equal.
    rewrite flat_map_map. rewrite (flat_map_fst (fun h => map fst (scalar_entries h)) scalar_positions L positions_entries). f_equal. unfold L. rewrite map_app, product_indices. f_equal.
    rewrite (map_filter_fst (fun p => andb (active m (fst p)) (active m (snd p)))), map_app. f_equal. f_equal.
    + rewrite flat_map_map. rewrite (flat_map_fst (fun h => map fst (mirrored h)) mirrored_indices _ mirrored_index). f_equal. rewrite map_app. unfold object_part, mixed_part. destruct (ct_object_fixed c); reflexivity.
    + unfold collider_part. destruct (ct_collider_fixed c); reflexivity.
  - intros h Hh. unfold L in Hh. apply in_app_or in Hh. destruct Hh as [Hh|Hh].
    + apply filter_In in Hh. destruct Hh as [_ A]. apply andb_prop in A. destruct A as [A B]. split; apply Nat.ltb_lt; assumption.
    + unfold gradient_product in Hh. apply in_flat_map in Hh. destruct Hh as (r & Hr & Hh). apply in_flat_map in Hh. destruct Hh as (k & Hk & Hh). apply in_map_iff in Hh. destruct Hh as ([j [x y]] & <- & _). cbn [fst snd]. apply filter_In in Hr, Hk. split; apply Nat.ltb_lt; [apply Hr|apply Hk].
Qed.
Definition penalty_force (c : contact) (p : crow) : R := - ct_kappa c * penalty_db (ct_delta c) (dpot c p).
Definition all_parts (c : contact) : list (nat * nat * m3) := flat_map mirrored (object_part c (penalty_force c) ++ mixed_part c (penalty_force c)) ++ collider_part c (penalty_force c).
Definition product_part (c : contact) (U : nat -> v3) : R := rsum (map (fun p => - ct_kappa c * penalty_ddb (ct_delta c) (dpot c p) * (rate1 c U p * rate1 c U p)) (crows c)).
(** What is assembled, whatever the vertices. *)
Lemma hessian_assembled c0 X rb c m g0 : contact_shape c0 (length X) -> in_place (q_base (ct_topo c0)) -> reset_distance_gradient c0 (length X) = Some g0 -> update_state c0 X rb = Some c ->
  exists g dist lambda vals,
    update_constraint_gradient g0 c = Some g /\ distance_potential c = Some dist /\ contact_multipliers c = Some lambda /\
    constraint_hessian_values c g dist lambda m = Some vals /\
    constraint_hessian_indices c0 g0 m = Some (map fst vals) /\ constraint_hessian_indices c g m = Some (map fst vals) /\
    (forall e, In e vals -> (fst (fst e) < 3 * m)%nat /\ (snd (fst e) < 3 * m)%nat) /\
    ((forall U W, gbil U W (all_parts c) = gbil W U (all_parts c)) -> forall i j, matrix_entry vals i j = matrix_entry vals j i) /\
    (forall U, (forall v, (m <= v)%nat -> U v = v3_0) -> respects c U -> matrix_form (3 * m) vals (coordinate U) = gbil U U (all_parts c) + product_part c U).
Proof.
  intros SH0 PL0 EG E. destruct (update_places c0 _ X rb c SH0 E) as (SH & AT & PL & SS). set (n := length X) in *.
  assert (EG0 : g0 = build_distance_gradient (jacobian_rows c0) n (constraint_size c0)). { unfold reset_distance_gradient in EG. rewrite (jacobian_list c0 n SH0) in EG. injection EG as <-. reflexivity. }
  assert (CS : constraint_size c0 = constraint_size c). { destruct SS as (T1 & _). unfold constraint_size, num_neighborhoods. rewrite T1. reflexivity. }
  assert (JI := same_jacobian_indices c0 c n SH0 PL0 SH PL SS). set (g := build_distance_gradient (jacobian_rows c) n (constraint_size c)).
  set (dist := map (dpot c) (crows c)). set (lam := penalty_force c).
  assert (LD : length dist = constraint_size c) by (unfold dist; rewrite map_length; apply (rows_length c n SH)).
  destruct (hessian_list c n g dist lam m SH) as (EV & EI & LR); [intros p Hp; rewrite LD; exact (built_columns _ _ _ _ Hp)|].
  set (f := fun j => - ct_kappa c * penalty_ddb (ct_delta c) (nth j dist 0)) in *. fold (all_parts c) in EV, EI, LR. set (L := filter _ _ ++ gradient_product g f m) in *.
  exists g, dist, (map lam (crows c)), (flat_map scalar_entries L).
  split. { unfold update_constraint_gradient. rewrite (jacobian_list c n SH), EG0, CS. apply distance_gradient_refreshed, JI. }
  split; [apply (distances c n SH)|]. split. { unfold contact_multipliers. rewrite (distances c n SH). cbn [option_map]. unfold multipliers. rewrite map_map. reflexivity. }
  split; [exact EV|]. split.
  { rewrite <- EI. destruct (same_hessian_indices c0 c SS) as (H1 & H2 & H3). unfold constraint_hessian_indices. rewrite H1, H2, H3.
    assert (GP : gradient_product_indices g0 m = gradient_product_indices g m).
    { assert (ET : map fst (distance_triplets (jacobian_rows c0)) = map fst (distance_triplets (jacobian_rows c))).
      { unfold distance_triplets. rewrite !map_map. transitivity (map (fun p => (snd p, fst p)) (map fst (jacobian_rows c0))); [rewrite map_map; apply map_ext; intros [[r v] b]; reflexivity|]. rewrite <- JI, map_map. apply map_ext. intros [[r v] b]. reflexivity. }
      apply same_product_indices.
      - rewrite EG0, CS. unfold g, build_distance_gradient. apply from_triplets_shape. exact ET.
      - apply (build_correct v3 v3_add v3_0 v3_monoid _ (distance_triplets (jacobian_rows c))).
      - rewrite EG0. apply (build_correct v3 v3_add v3_0 v3_monoid _ (distance_triplets (jacobian_rows c0))). }
    rewrite GP. reflexivity. }
  split; [exact EI|]. split.
  { intros e He. apply in_flat_map in He. destruct He as (h & Hh & He). destruct (LR h Hh). apply (scalar_range m h e); assumption. }
  assert (NC : forall p, In p (mp_pattern g) -> (snd p < constraint_size c)%nat) by (intros p Hp; exact (built_columns _ _ _ _ Hp)).
  split.
  { intros SY i j. rewrite !matrix_entry_blocks. unfold L. rewrite !gbil_app. f_equal.
    - rewrite !gbil_active. apply SY.
    - rewrite !(gradient_product_form g f m _ _ (constraint_size c) NC). apply rsum_ext. intros k _. ring. }
  intros U V RE. rewrite matrix_form_blocks by exact LR. unfold L. rewrite gbil_app, gbil_active.
  rewrite (gbil_ext (cut m U) (cut m U) U U) by (intros; split; apply cut_vanishing, V). f_equal.
  rewrite (gradient_product_form g f m U U (constraint_size c) NC).
  assert (CR : forall j, col_rate g (cut m U) j = row_product (jacobian_rows c) U j).
  { intros j. transitivity (col_rate g U j); [unfold col_rate; apply rsum_ext; intros e _; rewrite (cut_vanishing m U V); reflexivity|]. apply col_rate_built. intros e He. apply (jacobian_range c n SH e He). }
  rewrite (rsum_ext _ (fun j => f j * (row_product (jacobian_rows c) U j * row_product (jacobian_rows c) U j)) (seq 0 (constraint_size c))) by (intros j _; rewrite CR; reflexivity).
  rewrite <- (rows_length c n SH), <- (row_numbers c n SH), map_map. unfold product_part. apply rsum_ext.
  intros p I. rewrite (jacobian_rate c n SH U RE p I). unfold f, dist. destruct (row_num c n SH p I) as (_ & _ & NE). rewrite (nth_error_nth _ (cnum c (fst p)) 0 (x := dpot c p)) by (rewrite nth_error_map, NE; reflexivity). reflexivity.
Qed.
Lemma fixed_respects c m U : fixed_from c m -> (forall v, (m <= v)%nat -> U v = v3_0) -> respects c U.
Proof. intros FX V. split; intros F v Hv; apply V; [apply (proj1 FX F v Hv)|apply (proj2 FX F v Hv)]. Qed.
Theorem contact_hessian_is_second_derivative : forall c0 X rb c m g0,
  contact_shape c0 (length X) -> in_place (q_base (ct_topo c0)) -> reset_distance_gradient c0 (length X) = Some g0 ->
  update_state c0 X rb = Some c -> contact_regular c -> fixed_from c m -> (forall v, In v (ct_surface c) -> ~ In v (ct_collider c)) ->
  exists g dist lambda vals,
    update_constraint_gradient g0 c = Some g /\ distance_potential c = Some dist /\ contact_multipliers c = Some lambda /\
    constraint_hessian_values c g dist lambda m = Some vals /\
    (forall i j, matrix_entry vals i j = matrix_entry vals j i) /\
    (forall U rb', (forall v, (m <= v)%nat -> U v = v3_0) -> second_rate (fun s => energy_at c rb' (mesh_line X U s)) (- matrix_form (3 * m) vals (coordinate U))).
Proof.
  intros c0 X rb c m g0 SH0 PL0 EG E RG FX DJ. destruct (update_places c0 _ X rb c SH0 E) as (SH & AT & PL & SS).
  destruct (hessian_assembled c0 X rb c m g0 SH0 PL0 EG E) as (g & dist & lambda & vals & E1 & E2 & E3 & E4 & _ & _ & _ & SY & FM). exists g, dist, lambda, vals.
  refine (conj E1 (conj E2 (conj E3 (conj E4 (conj _ _))))).
  - apply SY. intros U W. apply (parts_symmetric c (length X) (penalty_force c) U W SH PL RG DJ).
  - intros U rb' V. assert (RE := fixed_respects c m U FX V). pose proof (jet_second _ _ _ _ (energy_jet c (length X) X SH PL AT RG U rb')) as D. eapply (eq_ind _ (fun x => second_rate _ x) D).
    rewrite (FM U V RE). unfold all_parts. rewrite (parts_form c (length X) SH PL RG U RE (penalty_force c) DJ). unfold product_part, penalty_force.
    rewrite <- rsum_plus. replace (- rsum _) with (-1 * rsum (map (fun p => - ct_kappa c * penalty_db (ct_delta c) (dpot c p) * rate2 c U p + - ct_kappa c * penalty_ddb (ct_delta c) (dpot c p) * (rate1 c U p * rate1 c U p)) (crows c))) by ring. rewrite <- rsum_scale. apply rsum_ext. intros p _. ring.
Qed.

(** C157.  The indices of the Hessian, reported when the sparsity was built, are those of the values reported at every later state, in
    the same order, and lie among the coordinates of the vertices that may move; the values are never missing.  The space reserved for the contact, twice the entries without those on
    the diagonal (problem.rs:984-993), suffices. *)
Theorem contact_hessian_layout : forall c0 X rb c m g0,
  contact_shape c0 (length X) -> in_place (q_base (ct_topo c0)) -> reset_distance_gradient c0 (length X) = Some g0 -> update_state c0 X rb = Some c ->
  exists g dist lambda vals,
    update_constraint_gradient g0 c = Some g /\ distance_potential c = Some dist /\ contact_multipliers c = Some lambda /\
    constraint_hessian_values c g dist lambda m = Some vals /\
    constraint_hessian_indices c0 g0 m = Some (map fst vals) /\ constraint_hessian_indices c g m = Some (map fst vals) /\
    (forall e, In e vals -> (fst (fst e) < 3 * m)%nat /\ (snd (fst e) < 3 * m)%nat) /\
    constraint_hessian_size c0 g0 m = Some (length vals) /\ exists d, num_hessian_diagonal c0 g0 m = Some d /\ d = length (filter (fun e => Nat.eqb (fst (fst e)) (snd (fst e))) vals) /\ (length vals <= 2 * length vals - d)%nat.
Proof.
  intros c0 X rb c m g0 SH0 PL0 EG E. destruct (hessian_assembled c0 X rb c m g0 SH0 PL0 EG E) as (g & dist & lambda & vals & E1 & E2 & E3 & E4 & E5 & E6 & E7 & _). exists g, dist, lambda, vals.
  refine (conj E1 (conj E2 (conj E3 (conj E4 (conj E5 (conj E6 (conj E7 (conj _ _)))))))).
  - unfold constraint_hessian_size. rewrite E5. cbn [option_map]. f_equal. apply map_length.
  - unfold num_hessian_diagonal. rewrite E5. cbn [option_map]. eexists. split; [reflexivity|].
    assert (Q : length (filter (fun p => Nat.eqb (snd p) (fst p)) (map fst vals)) = length (filter (fun e => Nat.eqb (fst (fst e)) (snd (fst e))) vals)).
    { clear. induction vals as [|[[i j] x] l IH]; [reflexivity|]. cbn [map filter fst snd]. rewrite Nat.eqb_sym. destruct (Nat.eqb i j); cbn [length]; rewrite IH; reflexivity. }
    split; [exact Q|]. rewrite Q. clear. assert (B : forall l : list (nat * nat * R), (length (filter (fun e => Nat.eqb (fst (fst e)) (snd (fst e))) l) <= length l)%nat) by (induction l as [|e l IH]; cbn [filter length]; [lia|destruct (Nat.eqb _ _); cbn [length]; lia]). specialize (B vals). lia.
Qed.

(** ** A triangle and a point *)
Definition corners3 : list v3 := [V3 1 0 0; V3 0 1 0; V3 (-1) (-1) 0].
Definition touch (k : nat) (q : v3) : contact := Contact (QGlobal 1 (tent (BgParams FZero false)) [0%nat] [0%nat]) [q] [0; 1; 2]%nat [k] false false 0 2 1.
Lemma touch_shape k q n : (3 <= n)%nat -> (k < n)%nat -> contact_shape (touch k q) n /\ in_place (q_base (ct_topo (touch k q))).
Proof.
  intros N K. destruct (tent_ok (BgParams FZero false)) as (A & B & C). split; [|exact C]. unfold contact_shape. cbn [touch ct_topo q_base q_kernel trivial_neighborhood closest_samples map length ct_points ct_surface ct_collider ct_delta].
  split; [reflexivity|]. split; [exact A|]. split; [split; [exact B|discriminate]|]. split; [cbn; lra|].
  split. { split; [reflexivity|]. split; [|intros i; reflexivity]. intros l i [H|H] I; cbn in H; destruct H as [<-|[]]; destruct I as [<-|[]]; cbn; lia. }
  split; [intros l [<-|[]]; constructor; [intros []|constructor]|]. split; [reflexivity|]. split; [reflexivity|]. split; [reflexivity|]. split; [reflexivity|].
  split; [repeat constructor|]. split; [|lra]. intros v [H|H]; cbn in H; destruct H as [<-|H]; try lia; destruct H as [<-|H]; try lia; destruct H as [<-|H]; try lia; destruct H.
Qed.
Lemma touch_update k q X rb : nth_error X 0 = Some (V3 1 0 0) -> nth_error X 1 = Some (V3 0 1 0) -> nth_error X 2 = Some (V3 (-1) (-1) 0) -> nth_error X k = Some q ->
  exists c, update_state (touch k q) X rb = Some c /\ sb_verts (cbase c) = corners3 /\ ct_points c = [q] /\ s_value (smp (csamples c) 0) = 0.
Proof.
  intros E0 E1 E2 EK. assert (LX : (2 < length X)%nat) by (apply nth_error_Some; congruence). assert (LK : (k < length X)%nat) by (apply nth_error_Some; congruence).
  destruct (touch_shape k q (length X) ltac:(lia) LK) as [SH _].
  destruct (update_state_some (touch k q) (length X) X corners3 [q] rb SH) as (c & E & EB & EP & _).
  - cbn [touch ct_surface]. unfold subset. cbn [map all_some]. rewrite E0, E1, E2. reflexivity.
  - cbn [touch ct_collider]. unfold subset. cbn [map all_some]. rewrite EK. reflexivity.
  - exists c. split; [exact E|]. split; [rewrite EB; apply update_verts; reflexivity|]. split; [exact EP|]. unfold csamples. rewrite EB. reflexivity.
Qed.
Lemma one_sample q S : 0 < k_f (Global 1) (v3_norm (v3_sub q (s_pos (smp S 0)))) ->
  potential_at q S [0%nat] (Global 1) (BgParams FZero false) 0 = s_value (smp S 0) + v3_dot (s_nml (smp S 0)) (v3_sub q (s_pos (smp S 0))) / v3_norm (s_nml (smp S 0)).
Proof.
  intros W. unfold potential_at, bg_local. cbn [closest_sample fold_left]. set (b := bg_new_impl _ _ _ _ _ _ _).
  assert (BW : background_weight b = 0) by reflexivity.
  assert (ES : b_sum b = k_f (Global 1) (v3_norm (v3_sub q (s_pos (smp S 0))))). { change (b_sum b) with (rsum [k_f (Global 1) (v3_norm (v3_sub q (s_pos (smp S 0))))] + 0). rewrite rsum_cons, rsum_nil. ring. }
  rewrite BW. unfold weight_sum_inv. rewrite ES. destruct (Req_EM_T _ 0); [lra|]. unfold local_potential_at. cbn [map]. rewrite rsum_cons, rsum_nil. unfold s_weight, k_eval. cbn [with_closest]. set (w := k_f _ _) in *. set (x := s_value _ + _). field. lra.
Qed.
Lemma global_positive x : 0 < k_f (Global 1) x.
Proof. cbn. assert (P : 0 < x * x + 1 * 1) by nra. apply Rmult_lt_0_compat; apply Rdiv_lt_0_compat; lra. Qed.
(** What the triangle and the point are after an update, and when its vertices and the point move. *)
Section Touch.
Variables (k : nat) (q : v3) (c : contact).
Hypothesis SS : same_setup (touch k q) c.
Hypothesis VV : sb_verts (cbase c) = corners3.
Hypothesis PP : ct_points c = [q].
Variable n : nat.
Hypothesis SH : contact_shape c n.
Hypothesis PL : in_place (cbase c).
Hypothesis VAL : s_value (smp (csamples c) 0) = 0.
Lemma touch_rows : crows c = [(0%nat, (q, [0%nat]))].
Proof. destruct SS as (T1 & _). unfold crows, hessian_rows. rewrite T1, PP. reflexivity. Qed.
Lemma touch_sample : length (csamples c) = 1%nat /\ s_pos (smp (csamples c) 0) = V3 0 0 0 /\ s_nml (smp (csamples c) 0) = V3 0 0 3.
Proof.
  destruct SS as (_ & _ & _ & _ & T5 & T6 & _). assert (W := WF c n SH). destruct W as [_ W]. rewrite T5 in W. cbn [touch] in W. change (sb_type (cbase (touch k q))) with SFace in W. cbv iota in W. rewrite T6 in W.
  change (length (csamples c) = 1%nat) in W. split; [exact W|]. assert (L : (0 < length (sb_samples (cbase c)))%nat) by (change (0 < length (csamples c))%nat; lia).
  pose proof (PL 0%nat L) as P. cbv zeta in P. rewrite T5 in P. change (sb_type (cbase (touch k q))) with SFace in P. cbv iota in P. rewrite T6, VV in P. destruct P as [P1 P2]. unfold csamples. rewrite P1, P2. split; apply v3_eq; cbn; lra.
Qed.
Lemma touch_regular : q <> V3 0 0 0 -> contact_regular c.
Proof.
  intros NQ. destruct touch_sample as (L & P & N). destruct SS as (T1 & _ & _ & T4 & _ & _ & T7 & _). unfold contact_regular. rewrite PP, T1, T4. fold (cbase c). rewrite T7. intros i I _. cbn [length] in I. assert (i = 0%nat) by lia. subst i. cbn [nth touch ct_topo trivial_neighborhood map q_kernel].
  exists 0%nat. fold (csamples c). assert (AW : away (csamples c) q 0 = q). { unfold away. rewrite P. destruct q as [x y z]. apply v3_eq; unfold v3_sub; cbn [vx vy vz]; ring. }
  split; [split; [left; reflexivity|intros j [<-|[]]; congruence]|]. split; [|split].
  - intros i [<-|[]]. rewrite AW, N. split; [exact NQ|]. split; [intros E; injection E; lra|exact Logic.I].
  - split; [discriminate|]. split; [discriminate|]. intros E. discriminate E.
  - left. discriminate.
Qed.
Definition turned_normal (V : nat -> v3) : v3 := v3_cross (v3_sub (V 1%nat) (V 0%nat)) (v3_sub (V 2%nat) (V 0%nat)).
Definition middle (V : nat -> v3) : v3 := v3_scale (1 / 3) (v3_add (v3_add (V 0%nat) (V 1%nat)) (V 2%nat)).
Definition shifted (U : nat -> v3) (s : R) (v : nat) : v3 := v3_line (nth v corners3 v3_0) (U v) s.
Lemma touch_potential x U rb s : potential_at (v3_line q x s) (sb_samples (moved (cbase c) U rb s)) [0%nat] (q_kernel (ct_topo c)) (sb_bg (cbase c)) 0
  = v3_dot (turned_normal (shifted U s)) (v3_sub (v3_line q x s) (middle (shifted U s))) / v3_norm (turned_normal (shifted U s)).
Proof.
  destruct touch_sample as (L & _ & _). destruct (moved_sample (cbase c) U rb s 0 (WF c n SH) (proj1 (PM c n SH))) as [MV M]; [change (0 < length (csamples c))%nat; lia|]. destruct SS as (_ & _ & _ & T4 & T5 & T6 & T7 & _). rewrite T4, T7.
  change (sb_bg (cbase (touch k q))) with (BgParams FZero false). change (q_kernel (ct_topo (touch k q))) with (Global 1). rewrite one_sample by apply global_positive.
  rewrite T5, T6 in M. change (sb_type (cbase (touch k q))) with SFace in M. cbv iota in M. destruct M as [MP MN]. rewrite MV. fold (csamples c). rewrite VAL, MP, MN, VV.
  assert (EC : tri_centroid (mesh_line corners3 U s) (nth 0 (sb_topo (cbase (touch k q))) (0, 0, 0)%nat) = middle (shifted U s)) by (apply v3_eq; cbn; field).
  assert (EN : area_vector (mesh_line corners3 U s) (nth 0 (sb_topo (cbase (touch k q))) (0, 0, 0)%nat) = turned_normal (shifted U s)) by reflexivity.
  rewrite EC, EN. ring.
Qed.
(** The second derivative of a row, with independent motions. *)
Lemma touch_jet x U : q <> V3 0 0 0 -> let p := (0%nat, (q, [0%nat])) in exists a b,
  jet (fun s => v3_dot (turned_normal (shifted U s)) (v3_sub (v3_line q x s) (middle (shifted U s))) / v3_norm (turned_normal (shifted U s))) a b
    (form full_square U (hface c 1 p) + 2 * rsum (map (fun e => bil (snd e) x (U (fst e))) (hmix c p)) + bil (hq c p) x x).
Proof.
  intros NQ p. assert (I : In p (crows c)) by (rewrite touch_rows; left; reflexivity). destruct (touch_regular NQ 0%nat) as (cl & NR & RV & SB & QB); [rewrite PP; cbn; lia|destruct SS as (T1 & _); rewrite T1; discriminate|].
  assert (T1 : nth 0 (trivial_neighborhood (ct_topo c)) [] = [0%nat]) by (destruct SS as (T1 & _); rewrite T1; reflexivity). rewrite T1, PP in *. cbn [nth] in *.
  destruct (joint_row_jet (ct_topo c) q x [0%nat] cl U true (TY c n SH) (WF c n SH) (PM c n SH) PL (VK c n SH) (row_nodup c n SH p I) (fun i => row_nbrs c n SH p i I) NR RV SB QB) as (H & row & J & blocks & C & EH & ER & _ & EJ & EB & EF & JT).
  pose proof (hq_some c p I) as A1. cbn [fst snd p] in A1. unfold csamples, cbase in A1. rewrite EH in A1. injection A1 as A1.
  pose proof (hmix_some c n SH p I) as A2. cbn [fst snd p] in A2. rewrite ER in A2. injection A2 as A2.
  assert (CE : C = form full_square U (hface c 1 p)). { pose proof (EF full_square 1 (hface c 1 p) full_rule (hface_some c n SH p 1 I)) as Q. rewrite Q. ring. }
  rewrite <- A1, <- A2, <- CE. eexists. eexists. eapply jet_ext; [|exact JT]. intros s. cbv beta. apply (touch_potential x U true s).
Qed.
End Touch.
Lemma jet_unique f a b c a' b' c' : jet f a b c -> jet f a' b' c' -> c = c'.
Proof.
  intros (_ & g & L & _ & D) (_ & g' & L' & _ & D'). assert (E : locally 0 (fun s => g s = g' s)).
  { generalize (filter_and _ _ L L'). apply filter_imp. intros s [A B]. exact (eq_trans (eq_sym (is_derive_unique _ _ _ A)) (is_derive_unique _ _ _ B)). }
  pose proof (is_derive_ext_loc _ _ _ _ E D) as D2. exact (eq_trans (eq_sym (is_derive_unique _ _ _ D2)) (is_derive_unique _ _ _ D')).
Qed.

(** C158.  When a vertex of the surface is also a point of the collider, as between parts of one mesh, the blocks between the two sides that fall
    on that vertex are written once instead of twice, and the matrix is not the second derivative. *)
Definition shared : v3 := V3 1 0 0.
Definition push (v : nat) : v3 := if Nat.eqb v 0 then V3 1 0 1 else v3_0.
Section Shared.
Variable c : contact.
Hypothesis SS : same_setup (touch 0 shared) c.
Hypothesis VV : sb_verts (cbase c) = corners3.
Hypothesis PP : ct_points c = [shared].
Hypothesis SH : contact_shape c 3.
Hypothesis PL : in_place (cbase c).
Hypothesis VAL : s_value (smp (csamples c) 0) = 0.
Let p : crow := (0%nat, (shared, [0%nat])).
Lemma shared_nonzero : shared <> V3 0 0 0. Proof. intros E. injection E. lra. Qed.
Lemma shared_moves v : (v < 3)%nat -> mobj c push v = push v.
Proof. intros L. unfold mobj, sv. destruct SS as (_ & _ & _ & _ & _ & _ & _ & _ & T9 & _). rewrite T9. destruct v as [|[|[|v]]]; try reflexivity. lia. Qed.
Lemma shared_shifted s : shifted (mobj c push) s 0%nat = V3 (1 + s) 0 s /\ shifted (mobj c push) s 1%nat = V3 0 1 0 /\ shifted (mobj c push) s 2%nat = V3 (-1) (-1) 0.
Proof. unfold shifted. rewrite !shared_moves by lia. refine (conj _ (conj _ _)); apply v3_eq; cbn; ring. Qed.
Lemma shared_turned s : turned_normal (shifted (mobj c push) s) = V3 (-2 * s) s (3 + 2 * s) /\ middle (shifted (mobj c push) s) = V3 (s / 3) 0 (s / 3).
Proof. unfold turned_normal, middle. destruct (shared_shifted s) as (E0 & E1 & E2). rewrite E0, E1, E2. split; apply v3_eq; cbn; field. Qed.
Lemma shared_joint : obj2 c push p + 2 * mix2 c push p + bil (hq c p) (V3 1 0 1) (V3 1 0 1) = 0.
Proof.
  destruct (touch_jet 0 shared c SS VV PP 3 SH PL VAL (V3 1 0 1) (mobj c push) shared_nonzero) as (a & b & J). fold p in J.
  assert (E : mcol c push (fst p) = V3 1 0 1). { unfold mcol, cv. destruct SS as (_ & _ & _ & _ & _ & _ & _ & _ & _ & T10 & _). rewrite T10. reflexivity. }
  unfold obj2, mix2. rewrite E. refine (jet_unique _ _ _ _ _ _ _ J _). apply (jet_ext (fun _ => 0)); [|apply jet_const].
  intros s. destruct (shared_turned s) as [-> ->]. assert (Z : v3_dot (V3 (-2 * s) s (3 + 2 * s)) (v3_sub (v3_line shared (V3 1 0 1) s) (V3 (s / 3) 0 (s / 3))) = 0) by (unfold v3_line, v3_sub, v3_add, v3_scale, v3_dot, shared; cbn [vx vy vz]; field).
  rewrite Z. unfold Rdiv. ring.
Qed.
Lemma shared_still s : pot_line c push false p s = 0.
Proof.
  unfold pot_line. assert (MC : mcol c push (fst p) = V3 1 0 1). { unfold mcol, cv. destruct SS as (_ & _ & _ & _ & _ & _ & _ & _ & _ & T10 & _). rewrite T10. reflexivity. }
  rewrite MC. cbn [p fst snd]. rewrite (touch_potential 0 shared c SS VV 3 SH PL VAL (V3 1 0 1) (mobj c push) false s). destruct (shared_turned s) as [-> ->].
  assert (Z : v3_dot (V3 (-2 * s) s (3 + 2 * s)) (v3_sub (v3_line shared (V3 1 0 1) s) (V3 (s / 3) 0 (s / 3))) = 0) by (unfold v3_line, v3_sub, v3_add, v3_scale, v3_dot, shared; cbn [vx vy vz]; field).
  rewrite Z. assert (SS' := SS). destruct SS' as (_ & _ & _ & _ & _ & _ & _ & _ & _ & _ & _ & _ & T13 & _). rewrite T13. cbn [touch ct_offset]. unfold Rdiv. ring.
Qed.
Lemma shared_distance : dpot c p = 0.
Proof.
  destruct (row_jets c 3 SH PL (touch_regular 0 shared c SS VV PP 3 SH PL shared_nonzero) push false p) as [J _]; [rewrite (touch_rows 0 shared c SS PP); left; reflexivity|]. rewrite <- (jet_value _ _ _ _ J). apply shared_still.
Qed.
Lemma bil_zero A (L : list (nat * m3)) (U : nat -> v3) : bil A v3_0 v3_0 = 0 /\ rsum (map (fun e => bil (snd e) v3_0 (U (fst e))) L) = 0.
Proof. split; [apply bil_0_l|]. apply rsum_zero. intros e _. apply bil_0_l. Qed.
Lemma shared_object : obj2 c push p = 4 / 3.
Proof.
  destruct (touch_jet 0 shared c SS VV PP 3 SH PL VAL v3_0 (mobj c push) shared_nonzero) as (a & b & J). fold p in J. destruct (bil_zero (hq c p) (hmix c p) (mobj c push)) as [Z1 Z2]. rewrite Z1, Z2 in J.
  assert (E : form full_square (mobj c push) (hface c 1 p) + 2 * 0 + 0 = 4 / 3); [|unfold obj2; lra]. refine (jet_unique _ _ _ _ _ _ _ J _).
  assert (S3 : sqrt 9 = 3) by (replace 9 with (3 * 3) by ring; apply sqrt_square; lra).
  assert (N : jet (fun s => 9 + 12 * s + 9 * (s * s)) 9 12 18). { eapply jet_eq; [exact (jet_plus _ _ _ _ _ _ _ _ (jet_plus _ _ _ _ _ _ _ _ (jet_const 9) (jet_scal 12 _ _ _ _ jet_id)) (jet_scal 9 _ _ _ _ (jet_mult _ _ _ _ _ _ _ _ jet_id jet_id)))| | |]; ring. }
  assert (N9 : 0 < 9) by lra. assert (N3 : 3 <> 0) by lra. pose proof (jet_sqrt _ _ _ _ N9 N) as Q. rewrite S3 in Q.
  pose proof (jet_div _ _ _ _ _ _ _ _ N3 (jet_scal (-3) _ _ _ _ jet_id) Q) as D.
  eapply jet_eq; [eapply jet_ext; [|exact D]|reflexivity|reflexivity|field].
  intros s. cbv beta. destruct (shared_turned s) as [-> ->].
  replace (v3_dot _ (v3_sub _ _)) with (-3 * s) by (unfold v3_line, v3_sub, v3_add, v3_scale, v3_dot, shared, v3_0; cbn [vx vy vz]; field). f_equal. unfold v3_norm. f_equal. unfold v3_dot. cbn [vx vy vz]. ring.
Qed.
Lemma shared_query : bil (hq c p) (V3 1 0 1) (V3 1 0 1) = 0.
Proof.
  destruct (touch_jet 0 shared c SS VV PP 3 SH PL VAL (V3 1 0 1) (fun _ => v3_0) shared_nonzero) as (a & b & J). fold p in J.
  assert (Z1 : form full_square (fun _ => v3_0) (hface c 1 p) = 0). { unfold form. apply rsum_zero. intros [[r w] A] _. cbn [bform]. unfold full_square. rewrite !bil_0_l. destruct (Nat.eqb r w); ring. }
  assert (Z2 : rsum (map (fun e => bil (snd e) (V3 1 0 1) ((fun _ : nat => v3_0) (fst e))) (hmix c p)) = 0) by (apply rsum_zero; intros e _; apply bil_0_r).
  rewrite Z1, Z2 in J. assert (E : 0 + 2 * 0 + bil (hq c p) (V3 1 0 1) (V3 1 0 1) = 0); [|lra]. refine (jet_unique _ _ _ _ _ _ _ J _).
  apply (jet_ext (fun s => s)); [|apply jet_id]. intros s.
  assert (T : turned_normal (shifted (fun _ => v3_0) s) = V3 0 0 3) by (unfold turned_normal, shifted; apply v3_eq; cbn; ring).
  assert (M : middle (shifted (fun _ => v3_0) s) = V3 0 0 0) by (unfold middle, shifted; apply v3_eq; cbn; field).
  rewrite T, M, norm_z by lra. unfold v3_line, v3_sub, v3_add, v3_scale, v3_dot, shared; cbn [vx vy vz]; field.
Qed.
Lemma shared_mixed : mix2 c push p = - (2 / 3).
Proof. pose proof shared_joint. pose proof shared_object. pose proof shared_query. lra. Qed.
Lemma shared_parts : gbil push push (all_parts c) = penalty_force c p * (2 / 3).
Proof.
  assert (SS' := SS). destruct SS' as (_ & _ & _ & _ & _ & _ & _ & _ & T9 & T10 & T11 & T12 & _).
  unfold all_parts. rewrite gbil_app, gbil_mirrored, form_app. unfold object_part, mixed_part, collider_part. rewrite T11, T12. cbn [touch ct_object_fixed ct_collider_fixed].
  assert (RG := touch_regular 0 shared c SS VV PP 3 SH PL shared_nonzero).
  rewrite (object_form c 3 SH PL RG push (penalty_force c) _ full_rule), (collider_form c push (penalty_force c)).
  assert (RW := touch_rows 0 shared c SS PP). rewrite RW. cbn [map]. rewrite !rsum_cons, !rsum_nil.
  assert (EC : cv c 0 = 0%nat) by (unfold cv; rewrite T10; reflexivity). assert (MC : mcol c push 0 = V3 1 0 1) by (unfold mcol; rewrite EC; reflexivity).
  cbn [fst]. change (0%nat, (shared, [0%nat])) with p. rewrite MC, shared_object. pose proof shared_query as HQ. rewrite HQ.
  assert (MX : form full_square push (mixed_blocks c (penalty_force c)) = penalty_force c p * mix2 c push p).
  { unfold form, mixed_blocks. rewrite RW. cbn [flat_map]. rewrite app_nil_r, map_map. change (0%nat, (shared, [0%nat])) with p. unfold mix2. rewrite <- rsum_scale. apply rsum_ext. intros e _. cbn [bform]. change (fst p) with 0%nat. rewrite EC, MC. unfold mobj.
    destruct (Nat.eqb_spec 0 (sv c (fst e))) as [Q|Q].
    - rewrite <- Q. unfold full_square. rewrite bil_scale. reflexivity.
    - assert (PZ : push (sv c (fst e)) = v3_0) by (unfold push; destruct (Nat.eqb_spec (sv c (fst e)) 0) as [Q'|_]; [congruence|reflexivity]). rewrite PZ, !bil_0_r. ring. }
  rewrite MX, shared_mixed. field.
Qed.
End Shared.
Theorem shared_vertex_hessian_refuted : exists c0 X rb c m g0, contact_shape c0 (length X) /\ in_place (q_base (ct_topo c0)) /\ reset_distance_gradient c0 (length X) = Some g0 /\
  update_state c0 X rb = Some c /\ contact_regular c /\ fixed_from c m /\
  exists g dist lambda vals,
    update_constraint_gradient g0 c = Some g /\ distance_potential c = Some dist /\ contact_multipliers c = Some lambda /\ constraint_hessian_values c g dist lambda m = Some vals /\
    exists U, (forall v, (m <= v)%nat -> U v = v3_0) /\
      second_rate (fun s => energy_at c false (mesh_line X U s)) 0 /\ matrix_form (3 * m) vals (coordinate U) = 4.
Proof.
  destruct (touch_shape 0 shared 3 ltac:(lia) ltac:(lia)) as [SH0 PL0]. destruct (touch_update 0 shared corners3 false eq_refl eq_refl eq_refl eq_refl) as (c & E & VV & PP & VAL).
  destruct (update_places _ 3 corners3 false c SH0 E) as (SH & AT & PL & SS).
  assert (RG := touch_regular 0 shared c SS VV PP 3 SH PL shared_nonzero).
  assert (EG : reset_distance_gradient (touch 0 shared) 3 = Some (build_distance_gradient (jacobian_rows (touch 0 shared)) 3 (constraint_size (touch 0 shared)))) by (unfold reset_distance_gradient; rewrite (jacobian_list _ 3 SH0); reflexivity).
  exists (touch 0 shared), corners3, false, c, 3%nat. eexists. split; [exact SH0|]. split; [exact PL0|]. split; [exact EG|]. split; [exact E|]. split; [exact RG|].
  assert (FX : fixed_from c 3). { assert (SS' := SS). destruct SS' as (_ & _ & _ & _ & _ & _ & _ & _ & _ & _ & T11 & T12 & _). unfold fixed_from. rewrite T11, T12. split; discriminate. }
  split; [exact FX|].
  destruct (hessian_assembled (touch 0 shared) corners3 false c 3 _ SH0 PL0 EG E) as (g & dist & lambda & vals & E1 & E2 & E3 & E4 & _ & _ & _ & _ & FM).
  exists g, dist, lambda, vals. split; [exact E1|]. split; [exact E2|]. split; [exact E3|]. split; [exact E4|].
  assert (V : forall v, (3 <= v)%nat -> push v = v3_0) by (intros v L; unfold push; destruct (Nat.eqb_spec v 0); [lia|reflexivity]).
  exists push. split; [exact V|]. pose proof (energy_jet c 3 corners3 SH PL AT RG push false) as J.
  assert (RW := touch_rows 0 shared c SS PP). rewrite RW in J. cbn [map] in J. rewrite !rsum_cons, !rsum_nil in J. set (p := (0%nat, (shared, [0%nat]))) in *.
  assert (Z : rate1 c push p = 0).
  { destruct (row_jets c 3 SH PL RG push false p) as [JP _]; [rewrite RW; left; reflexivity|]. apply jet_derive in JP. rewrite <- (is_derive_unique _ _ _ JP). apply is_derive_unique.
    apply (is_derive_ext (fun _ => 0)); [|apply @is_derive_const]. intros s. symmetry. exact (shared_still c SS VV SH PL VAL s). }
  assert (D0 : dpot c p = 0) by exact (shared_distance c SS VV PP SH PL VAL).
  assert (SS' := SS). destruct SS' as (_ & _ & _ & _ & _ & _ & _ & _ & _ & _ & _ & _ & _ & T14 & T15).
  assert (R2 : rate2 c push p = 0). { unfold rate2. assert (MC : mcol c push (fst p) = V3 1 0 1). { unfold mcol, cv. destruct SS as (_ & _ & _ & _ & _ & _ & _ & _ & _ & T10 & _). rewrite T10. reflexivity. } rewrite MC. exact (shared_joint c SS VV PP SH PL VAL). }
  split.
  - apply jet_second in J. eapply (eq_ind _ (fun x => second_rate _ x) J). rewrite Z, R2. ring.
  - rewrite (FM push V (fixed_respects c 3 push FX V)), (shared_parts c SS VV PP SH PL VAL). unfold product_part. rewrite RW. cbn [map]. rewrite rsum_cons, rsum_nil. fold p. rewrite Z. unfold penalty_force. rewrite D0, T14, T15. cbn [touch ct_delta ct_kappa]. unfold penalty_db. destruct (Rlt_dec 0 (2 - 0)); lra.
Qed.
(** A triangle and a point above it, in contact: the hypotheses of the theorems hold and the force does not vanish. *)
Definition apart : list v3 := corners3 ++ [overhead].
Example contact_example : exists c g0, contact_shape (touch 3 overhead) (length apart) /\ in_place (q_base (ct_topo (touch 3 overhead))) /\
  reset_distance_gradient (touch 3 overhead) (length apart) = Some g0 /\ update_state (touch 3 overhead) apart true = Some c /\ contact_regular c /\ fixed_from c 4 /\
  (forall v, In v (ct_surface c) -> ~ In v (ct_collider c)) /\ distance_potential c = Some [1] /\ contact_multipliers c = Some [3 / 2].
Proof.
  destruct (touch_shape 3 overhead 4 ltac:(lia) ltac:(lia)) as [SH0 PL0]. destruct (touch_update 3 overhead apart true eq_refl eq_refl eq_refl eq_refl) as (c & E & VV & PP & VAL).
  destruct (update_places _ 4 apart true c SH0 E) as (SH & AT & PL & SS). exists c. eexists. split; [exact SH0|]. split; [exact PL0|].
  split; [unfold reset_distance_gradient; rewrite (jacobian_list _ 4 SH0); reflexivity|]. split; [exact E|].
  split; [apply (touch_regular 3 overhead c SS VV PP 4 SH PL); unfold overhead; intros Q; injection Q; lra|].
  assert (SS' := SS). destruct SS' as (_ & _ & _ & T4 & _ & _ & T7 & _ & T9 & T10 & T11 & T12 & T13 & T14 & T15). unfold fixed_from. rewrite T9, T10, T11, T12.
  split; [split; discriminate|]. split. { cbn. intros v H [<-|[]]. lia. }
  assert (D : distance_potential c = Some [1]).
  { rewrite (distances c 4 SH), (touch_rows 3 overhead c SS PP). cbn [map]. do 2 f_equal. unfold dpot. cbn [fst snd]. rewrite T4, T7, T13. change (sb_bg (cbase (touch 3 overhead))) with (BgParams FZero false). change (q_kernel (ct_topo (touch 3 overhead))) with (Global 1). cbn [touch ct_offset].
    rewrite one_sample by apply global_positive. destruct (touch_sample 3 overhead c SS VV 4 SH PL) as (_ & P & N). rewrite VAL, P, N, norm_z by lra. unfold v3_dot, v3_sub, overhead. cbn [vx vy vz]. field. }
  split; [exact D|]. unfold contact_multipliers. rewrite D. cbn [option_map multipliers map]. rewrite T14, T15. cbn [touch ct_delta ct_kappa]. unfold penalty_db. destruct (Rlt_dec 0 (2 - 1)); [|lra]. do 2 f_equal. field.
Qed.
Example contact_hessian_example : exists vals, (exists c g0 g dist lambda, reset_distance_gradient (touch 3 overhead) 4 = Some g0 /\ update_state (touch 3 overhead) apart true = Some c /\ update_constraint_gradient g0 c = Some g /\
    distance_potential c = Some dist /\ contact_multipliers c = Some lambda /\ constraint_hessian_values c g dist lambda 4 = Some vals) /\
  matrix_form 12 vals (coordinate (fun v => if Nat.eqb v 3 then V3 0 0 1 else v3_0)) = - 3.
Proof.
  destruct contact_example as (c & g0 & SH0 & PL0 & EG & E & RG & FX & DJ & _). destruct (contact_hessian_is_second_derivative _ _ _ _ 4 _ SH0 PL0 EG E RG FX DJ) as (g & dist & lambda & vals & E1 & E2 & E3 & E4 & _ & SR).
  exists vals. split; [exists c, g0, g, dist, lambda; exact (conj EG (conj E (conj E1 (conj E2 (conj E3 E4)))))|].
  set (U := fun v => if Nat.eqb v 3 then V3 0 0 1 else v3_0). assert (V : forall v, (4 <= v)%nat -> U v = v3_0) by (intros v L; unfold U; destruct (Nat.eqb_spec v 3); [lia|reflexivity]).
  destruct (SR U false V) as (gr & L & D).
  assert (J : jet (fun s => energy_at c false (mesh_line apart U s)) (energy_at c false (mesh_line apart U 0)) (gr 0) (- matrix_form (3 * 4) vals (coordinate U))) by (split; [reflexivity|]; exists gr; split; [exact L|]; split; [reflexivity|exact D]).
  assert (K : jet (fun s => 1 * penalty_b 2 (1 + s)) (1 * penalty_b 2 1) (1 * (penalty_db 2 1 * 1)) (1 * (penalty_ddb 2 1 * 1 * 1 + penalty_db 2 1 * 0))).
  { apply jet_scal. assert (JI : jet (fun s => 1 + s) 1 1 0) by (eapply jet_eq; [exact (jet_plus _ _ _ _ _ _ _ _ (jet_const 1) jet_id)| | |]; ring).
    refine (jet_comp (penalty_b 2) (penalty_db 2) (penalty_ddb 2 1) _ 1 1 0 JI _ _); [apply filter_forall; intros x; apply penalty_derive; lra|apply penalty_derive; lra]. }
  assert (Q : - matrix_form (3 * 4) vals (coordinate U) = 1 * (penalty_ddb 2 1 * 1 * 1 + penalty_db 2 1 * 0)).
  { refine (jet_unique _ _ _ _ _ _ _ J (jet_ext _ _ _ _ _ _ K)). intros s.
    destruct (touch_shape 3 overhead 4 ltac:(lia) ltac:(lia)) as [_ _]. destruct (touch_update 3 overhead apart true eq_refl eq_refl eq_refl eq_refl) as (c' & E' & VV & PP & VAL). rewrite E in E'. injection E' as <-.
    destruct (update_places _ 4 apart true c SH0 E) as (SH & AT & PL & SS). rewrite (energy_rows c 4 apart SH AT U false s), (touch_rows 3 overhead c SS PP). cbn [map]. rewrite rsum_cons, rsum_nil. unfold pot_line. cbn [fst snd].
    rewrite (touch_potential 3 overhead c SS VV 4 SH PL VAL).
    assert (SS' := SS). destruct SS' as (_ & _ & _ & _ & _ & _ & _ & _ & T9 & T10 & _ & _ & T13 & T14 & T15). rewrite T13, T14, T15. cbn [touch ct_offset ct_delta ct_kappa].
    assert (MO : forall v, (v < 3)%nat -> mobj c U v = v3_0) by (intros v LV; unfold mobj, sv; rewrite T9; destruct v as [|[|[|v]]]; [reflexivity..|lia]).
    assert (T : turned_normal (shifted (mobj c U) s) = V3 0 0 3) by (unfold turned_normal, shifted; rewrite !MO by lia; apply v3_eq; cbn; ring).
    assert (M : middle (shifted (mobj c U) s) = V3 0 0 0) by (unfold middle, shifted; rewrite !MO by lia; apply v3_eq; cbn; field).
    assert (MC : mcol c U 0 = V3 0 0 1) by (unfold mcol, cv; rewrite T10; reflexivity).
    rewrite T, M, MC, norm_z by lra. rewrite Rplus_0_r. do 2 f_equal. unfold v3_line, v3_sub, v3_add, v3_scale, v3_dot, overhead. cbn [vx vy vz]. field. }
  change (3 * 4)%nat with 12%nat in Q. unfold penalty_ddb, penalty_db in Q. destruct (Rlt_dec 0 (2 - 1)); [|lra]. lra.
Qed.
Print Assumptions contact_force_is_derivative.
Print Assumptions contact_hessian_is_second_derivative.
Print Assumptions contact_hessian_layout.
Print Assumptions shared_vertex_hessian_refuted.
