(** The Jacobian of the implicit potential in the vertices of the surface: theorems, each with an example. *)
From Coq Require Import Reals List ZArith Lra Lia Psatz Bool.
From Coquelicot Require Import Coquelicot.
From Verif Require Import Vec3 Mat3 RList KernelModel KernelSpec KernelProofs FieldModel FieldSpec FieldProofs NeighborModel NeighborSpec NeighborProofs NeighborProps UpdateProps
  SurfJacModel SurfJacSpec SurfJacProofs.
Import ListNotations.
Local Open Scope R_scope.

Lemma filtered_rows {A} (p : nat * A -> bool) (l : list A) : NoDup (map fst (filter p (enumerate l))).
Proof.
  assert (G : forall m, NoDup (map fst (filter p (combine (seq m (length l)) l))) /\ forall x, In x (map fst (filter p (combine (seq m (length l)) l))) -> (m <= x)%nat).
  { induction l as [|a l IH]; intros m; cbn [length seq combine filter]; [split; [constructor|intros x []]|]. destruct (IH (S m)) as [N B]. destruct (p (m, a)); cbn [map fst].
    - split; [constructor; [intros I; specialize (B m I); lia|exact N]|]. intros x [<-|I]; [lia|]. specialize (B x I). lia.
    - split; [exact N|]. intros x I. specialize (B x I). lia. }
  apply (G 0%nat).
Qed.
Lemma nth_error_combine {A B} : forall (l : list A) (m : list B) i a b, nth_error (combine l m) i = Some (a, b) <-> nth_error l i = Some a /\ nth_error m i = Some b.
Proof.
  induction l as [|x l IH]; intros [|y m] [|i] a b; cbn; try (split; [discriminate|intros [H1 H2]; discriminate]).
  - split; [intros E; injection E as -> ->; auto|intros [E F]; injection E as ->; injection F as ->; reflexivity].
  - apply IH.
Qed.
Lemma rows_in_range t : indices_ok t -> forall l i, In l (by_type t) -> In i l -> (i < length (sb_samples (q_base t)))%nat.
Proof. intros (_ & RG & _) l i Hl. unfold by_type in Hl. apply RG. destruct (sb_type (q_base t)); auto. Qed.

(** C135: after an update every sample is where the vertices put it. *)
Theorem update_puts_in_place : forall b new rebuild, well_formed b -> (forall t, In t (sb_topo b) -> distinct_corners t) -> in_place (fst (update_base b new rebuild)).
Proof.
  intros b new rebuild WF DC. destruct (update_base b new rebuild) as [b' k] eqn:E. destruct (surface_update_exact _ _ _ _ _ WF E) as (_ & (TT & _ & _ & TY) & LS & SM & _). cbn [fst]. intros i L. rewrite LS in L. specialize (SM i L). cbv zeta in SM |- *. rewrite TY, TT in *.
  destruct SM as [_ SM]. destruct (sb_type b).
  - destruct SM as [SP SN]. split; [exact SP|apply SN, DC].
  - change (@nth (nat * nat * nat) i (sb_topo b)) with (@nth triangle i (sb_topo b)) in *. revert SM. generalize (@nth triangle i (sb_topo b) (0, 0, 0)%nat). intros [[x y] z] [SP SN]. split; [|exact SN].
    unfold tri_centroid, centroid. rewrite <- SP. apply v3_eq; unfold v3_scale; cbn [vx vy vz]; field.
Qed.

(** C135: every row of the surface Jacobian is the derivative of the potential over the cached samples when the vertices move in any
    direction and the surface is updated, for vertex and for face samples. *)
Theorem surface_jacobian_is_derivative : forall t qs U rebuild r q nbrs c v, let b := q_base t in let k := q_kernel t in
  well_formed b -> proper_mesh b -> in_place b -> indices_ok t -> valid_kernel k ->
  nth_error qs r = Some q -> nth_error (by_type t) r = Some nbrs -> NoDup nbrs ->
  nearest (sb_samples b) q nbrs c -> regular_view k (sb_samples b) q nbrs -> smooth_background k (sb_bg b) v (sb_samples b) q c ->
  (sb_type b = SVertex -> rings_covered b k q nbrs) ->
  exists L, surface_jacobian_triplets t qs = Some L /\
    is_derive (fun s => potential_at q (sb_samples (fst (update_base b (mesh_line (sb_verts b) U s) rebuild))) nbrs k (sb_bg b) v) 0 (row_product L U r).
Proof.
  intros t qs U rebuild r q nbrs c v b k WF PM IP IOK VK HQ HN ND NE RV SB RC.
  assert (RG := rows_in_range t IOK). fold b in RG.
  assert (LEN : forall i, In i nbrs -> (i < length (sb_samples b))%nat) by (intros i; apply RG; eapply nth_error_In; exact HN).
  destruct (surface_row_derive t U rebuild q nbrs c v WF PM IP VK ND LEN NE RV SB RC) as (blocks & EB & D). fold b k in D.
  assert (TOT : exists ls, all_some (map (fun p => let '(row, (q, nbrs)) := p in
    match all_some (map (columns (q_base t)) nbrs), surface_row t q nbrs with
    | Some cols, Some blocks => Some (map (fun cb => (row, fst cb, snd cb)) (combine (concat cols) blocks))
    | _, _ => None
    end) (filter (fun p => negb (is_nil (snd (snd p)))) (enumerate (combine qs (by_type t))))) = Some ls).
  { apply all_some_total. intros [row [q' n']] I. apply filter_In in I. destruct I as [I F]. cbn [snd] in F. apply enumerate_nth, nth_error_combine in I. destruct I as [_ I].
    assert (LN : forall i, In i n' -> (i < length (sb_samples (q_base t)))%nat) by (intros i; apply RG; eapply nth_error_In; exact I).
    rewrite (columns_total t n' WF LN). destruct (surface_row_total t q' n' WF PM (sample_positions _ WF IP) LN) as [bl ->]; [intros ->; discriminate|]. eauto. }
  destruct TOT as [ls EL]. exists (concat ls). split; [unfold surface_jacobian_triplets; rewrite EL; reflexivity|].
  evar_last; [exact D|]. symmetry. eapply (row_of_concat _ U r (q, nbrs)); [ | |  |exact EL|].
  - intros [row [q' n']] m E e I. destruct (all_some (map (columns (q_base t)) n')) as [cols|]; [|discriminate]. destruct (surface_row t q' n') as [bl|]; [|discriminate]. injection E as <-. apply in_map_iff in I. destruct I as (x & <- & _). reflexivity.
  - apply filtered_rows.
  - apply filter_In. split; [apply enumerate_nth, nth_error_combine; auto|]. cbn [snd]. destruct nbrs; [destruct NE as [[] _]|reflexivity].
  - cbv beta iota. rewrite (columns_total t nbrs WF LEN), EB. reflexivity.
Qed.
(** A unit square of two triangles after an update. *)
Definition flat (ty : sample_type) : base := fst (update_base (sheet ty) [V3 0 0 0; V3 1 0 0; V3 0 1 0; V3 1 1 0] true).
Definition flat_mls (ty : sample_type) : local_mls := LocalMls (LCubic 2) (1 / 2) 0 (flat ty).
Definition above : v3 := V3 (1 / 4) (1 / 4) (1 / 2).
Lemma flat_distinct ty : forall t, In t (sb_topo (sheet ty)) -> distinct_corners t.
Proof. intros t [<-|[<-|[]]]; unfold distinct_corners; cbn; repeat constructor; cbn; intuition discriminate. Qed.
Lemma flat_ok ty : well_formed (flat ty) /\ proper_mesh (flat ty) /\ in_place (flat ty) /\ current (flat ty).
Proof.
  split; [|split; [|split]].
  - exact (sheet_ok ty) || (destruct (sheet_ok ty) as [A B]; split; [exact A|destruct ty; exact B]).
  - split; [exact (flat_distinct ty)|]. intros TY. destruct ty; [|discriminate]. split; [reflexivity|]. intros i. destruct i as [|[|[|[|i]]]]; cbn [flat update_base fst sb_dual sheet nth]; try (repeat constructor; cbn; intuition discriminate).
    destruct i; constructor.
  - apply update_puts_in_place; [apply sheet_ok|apply flat_distinct].
  - destruct ty; reflexivity.
Qed.
Lemma flat_vertices : map s_pos (sb_samples (flat SVertex)) = [V3 0 0 0; V3 1 0 0; V3 0 1 0; V3 1 1 0] /\
  map s_nml (sb_samples (flat SVertex)) = [V3 0 0 1; V3 0 0 2; V3 0 0 2; V3 0 0 1].
Proof.
  split; [reflexivity|]. cbn. unfold v3_add, v3_scale, v3_sub, v3_cross, v3_0; cbn. repeat (f_equal; try ring).
Qed.
Lemma flat_faces : map s_pos (sb_samples (flat SFace)) = [V3 (1 / 3) (1 / 3) 0; V3 (2 / 3) (2 / 3) 0] /\ map s_nml (sb_samples (flat SFace)) = [V3 0 0 1; V3 0 0 1].
Proof. split; cbn [flat update_base fst sb_samples sheet update_samples sb_type zip_update map sb_topo sb_verts sb_bg sb_dual repeat s_pos s_nml]; repeat (apply f_equal2; [apply v3_eq; cbn; lra|]); reflexivity. Qed.
Lemma smp_pos S i : s_pos (smp S i) = nth i (map s_pos S) v3_0.
Proof. change v3_0 with (s_pos sample0). rewrite map_nth. reflexivity. Qed.
Lemma smp_nml S i : s_nml (smp S i) = nth i (map s_nml S) v3_0.
Proof. change v3_0 with (s_nml sample0). rewrite map_nth. reflexivity. Qed.
Lemma far_from x : norm2 x <> 1 -> v3_norm x <> 1.
Proof. intros N E. apply N. unfold v3_norm in E. unfold norm2. rewrite <- (sqrt_sqrt (v3_dot x x)), E; [ring|unfold v3_dot; nra]. Qed.
Definition rows (ty : sample_type) : list nat := match ty with SVertex => [0; 1; 2; 3]%nat | SFace => [0; 1]%nat end.
Lemma flat_nearest ty : nearest (sb_samples (flat ty)) above (rows ty) 0.
Proof.
  split; [destruct ty; left; reflexivity|]. intros j J N. apply norm2_lt. unfold away. rewrite !smp_pos. destruct flat_vertices as [V _], flat_faces as [F _].
  destruct ty; [rewrite V|rewrite F]; destruct J as [<-|J]; [lia| |lia|]; repeat (destruct J as [<-|J]; [unfold norm2, v3_dot, v3_sub, above; cbn; lra|]); destruct J.
Qed.
Lemma flat_regular ty : regular_view (Cubic 1) (sb_samples (flat ty)) above (rows ty).
Proof.
  intros i I. unfold away, regular_distance. rewrite smp_pos, smp_nml. destruct flat_vertices as [V VN], flat_faces as [F FN].
  assert (NZ : forall x, vz x <> 0 -> x <> v3_0) by (intros x X ->; apply X; reflexivity).
  destruct ty; [rewrite V, VN|rewrite F, FN]; repeat (destruct I as [<-|I]; [split; [apply NZ; unfold above; cbn; lra|]; split; [apply NZ; cbn; lra|apply far_from; unfold norm2, v3_dot, v3_sub, above; cbn; lra]|]); destruct I.
Qed.
Lemma flat_background ty v : smooth_background (Cubic 1) (sb_bg (flat ty)) v (sb_samples (flat ty)) above 0.
Proof. split; [discriminate|]. split; discriminate. Qed.
Lemma flat_rings : rings_covered (flat SVertex) (Cubic 1) above (rows SVertex).
Proof. intros i L _. cbn in L. split; [unfold rows; cbn; lia|]. intros t j [<-|[<-|[]]] _ J; cbn in J |- *; lia. Qed.
Definition flat_topo (ty : sample_type) : query_topo := QLocal (flat_mls ty) (Nbh [0%nat] [match ty with SVertex => [0; 1; 2]%nat | SFace => [0; 1]%nat end] [rows ty]).
Lemma flat_indices ty : indices_ok (flat_topo ty).
Proof.
  split; [reflexivity|]. split.
  - intros l i I J. destruct ty; cbn in I; destruct I as [[<-|[]]|[<-|[]]]; cbn in J |- *; lia.
  - intros [|[|j]]; destruct ty; cbn; split; congruence.
Qed.
Lemma flat_kernel ty : q_kernel (flat_topo ty) = Cubic 1.
Proof. cbn. f_equal. lra. Qed.
Example surface_jacobian_is_derivative_ex : forall ty U, exists L, surface_jacobian_triplets (flat_topo ty) [above] = Some L /\
  is_derive (fun s => potential_at above (sb_samples (fst (update_base (flat ty) (mesh_line (sb_verts (flat ty)) U s) true))) (rows ty) (Cubic 1) (sb_bg (flat ty)) 0) 0 (row_product L U 0).
Proof.
  intros ty U. destruct (flat_ok ty) as (A & B & C & _). rewrite <- (flat_kernel ty). refine (surface_jacobian_is_derivative (flat_topo ty) [above] U true 0 above (rows ty) 0 0 A B C (flat_indices ty) _ eq_refl _ _ (flat_nearest ty) _ _ _).
  - rewrite flat_kernel. cbn. lra.
  - destruct ty; reflexivity.
  - destruct ty; unfold rows; repeat constructor; cbn; lia.
  - rewrite flat_kernel. apply flat_regular.
  - rewrite flat_kernel. apply flat_background.
  - intros TY. destruct ty; [|discriminate]. rewrite flat_kernel. apply flat_rings.
Qed.

(** C135: after resetting the caches, every row is the derivative of the value that [potential] returns, when the vertices move in any
    direction and the surface is updated.  The values use the samples within range while the derivatives of vertex samples also use their
    neighbours on the mesh. *)
Theorem surface_jacobian_of_queries : forall o hash s n qs t changed U rebuild r c out, let b := lm_base s in let S := sb_samples b in let k := q_kernel t in
  faithful o -> well_formed b -> current b -> proper_mesh b -> in_place b -> valid_kernel k -> 0 <= lm_max_step s ->
  reset o hash qs (QLocal s n) = Some (t, changed) -> (r < length qs)%nat -> length out = length qs -> let q := nth r qs v3_0 in
  nearest S q (support_of t r) c -> gap S q c < lm_radius s -> regular_view k S q (support_of t r) -> smooth_background k (sb_bg b) (nth r out 0) S q c ->
  exists L, surface_jacobian_triplets t qs = Some L /\ (forall x, exists out', potential (fst (update_surface t (mesh_line (sb_verts b) U x) rebuild)) qs out = Some out') /\
    is_derive (fun x => match potential (fst (update_surface t (mesh_line (sb_verts b) U x) rebuild)) qs out with Some out' => nth r out' 0 | None => 0 end) 0 (row_product L U r).
Proof.
  intros o hash s n qs t changed U rebuild r c out b S k F WF CU PM IP VK MS RS HR LO q NE NR RV SB.
  assert (GP : 0 <= gap S q c) by (unfold gap, v3_norm; apply sqrt_pos).
  assert (RP : 0 <= lm_radius s + lm_max_step s) by lra.
  assert (SNE : qs <> [] -> sb_samples (lm_base s) <> []).
  { intros _ Z. destruct (reset_sets _ _ _ _ _ _ _ RS) as (cl & ex & _ & A & _). destruct (F (sb_samples (lm_base s)) q) as (_ & _ & N0 & _). specialize (N0 Z).
    assert (A' := forall2_nth_default _ _ _ v3_0 0%nat r A HR). cbv beta in A'. unfold current, b in CU. rewrite CU in A'. fold q in A'. congruence. }
  destruct (reset_exact o hash qs s n F WF CU RP SNE) as (n' & ch & RS' & L1 & L2 & L3 & EX). rewrite RS in RS'. injection RS' as -> _. specialize (EX r HR). fold q in EX. destruct EX as (_ & (ND & TR) & SE & EE). fold b S in TR, EE.
  assert (IOK := reset_indices_valid o hash qs s n _ _ F WF CU RP RS).
  assert (QB : q_base (QLocal s n') = b) by reflexivity.
  assert (HN : nth_error (by_type (QLocal s n')) r = Some (support_of (QLocal s n') r)).
  { unfold support_of, by_type. rewrite QB. apply nth_error_nth'. destruct (sb_type b); cbn; lia. }
  assert (NDS : NoDup (support_of (QLocal s n') r)).
  { unfold support_of. rewrite QB. destruct (sb_type b); cbn; [|exact ND]. clear -SE. induction SE as [|a l SS IH HF]; constructor; [|exact IH]. intros I. rewrite Forall_forall in HF. specialize (HF a I). lia. }
  assert (KR : k_radius k = Some (lm_radius s)) by apply spherical_radius.
  assert (SK : support k = Some (lm_radius s)) by (rewrite <- KR; unfold k; cbn; destruct (lm_kernel s); reflexivity).
  assert (RC : sb_type b = SVertex -> rings_covered b k q (support_of (QLocal s n') r)).
  { intros TY i LI IR. unfold in_reach in IR. rewrite SK in IR. unfold support_of. rewrite QB, TY. cbn [extended_neighborhood]. assert (IT : In i (nth r (n_trivial n') [])) by (apply TR; split; [exact LI|fold S in IR; lra]).
    split; [apply EE; left; exact IT|]. intros tt j T1 T2 T3. apply EE. right. split; [exact TY|]. split.
    - destruct PM as [_ PM]. destruct (PM TY) as [DL _]. intros Z. fold b in Z. rewrite Z in DL. destruct WF as [_ W]. fold b in W. rewrite TY in W. destruct W as [W _]. fold S in LI, W. cbn in DL. lia.
    - exists i, tt. auto. }
  assert (HQ : nth_error qs r = Some q) by (apply nth_error_nth'; exact HR).
  destruct (surface_jacobian_is_derivative (QLocal s n') qs U rebuild r q (support_of (QLocal s n') r) c (nth r out 0) WF PM IP IOK VK HQ HN NDS NE RV SB RC) as (L & EL & D).
  exists L. split; [exact EL|]. rewrite QB in D. fold k in D.
  assert (PV : forall x, exists out', potential (fst (update_surface (QLocal s n') (mesh_line (sb_verts b) U x) rebuild)) qs out = Some out' /\
    nth r out' 0 = potential_at q (sb_samples (moved b U rebuild x)) (nth r (n_trivial n') []) k (sb_bg b) (nth r out 0)).
  { intros x. unfold potential, update_surface. fold b. rewrite (surjective_pairing (update_base b (mesh_line (sb_verts b) U x) rebuild)). cbn [fst trivial_neighborhood]. rewrite L2, LO, Nat.eqb_refl. eexists. split; [reflexivity|].
    refine (eq_trans (proj2 (potentials_nth _ _ _ qs (n_trivial n') out L2 LO) r HR) _). reflexivity. }
  split; [intros x; destruct (PV x) as (o' & E & _); eauto|].
  apply (is_derive_ext (fun x => potential_at q (sb_samples (moved b U rebuild x)) (nth r (n_trivial n') []) k (sb_bg b) (nth r out 0))).
  { intros x. destruct (PV x) as (o' & -> & E). symmetry. exact E. }
  unfold support_of in D. rewrite QB in D. destruct (sb_type b) eqn:TY; [|exact D].
  eapply is_derive_ext_loc; [|exact D]. cbn [extended_neighborhood]. eapply filter_imp; [intros x H; symmetry; exact H|].
  apply (view_locally_irrelevant b U rebuild k q (nth r (n_trivial n') []) (nth r (n_extended n') []) c (lm_radius s) (nth r out 0) WF PM IP TY KR); auto; try lra.
  - unfold support_of in NDS. rewrite QB, TY in NDS. exact NDS.
  - intros i I. apply EE. left. exact I.
  - intros i I. assert (RG := rows_in_range _ IOK). apply (RG (nth r (n_extended n') [])); [|exact I]. unfold by_type. rewrite QB, TY. cbn. apply nth_In. lia.
  - intros i LI G. apply TR. split; [exact LI|fold S in G; lra].
  - unfold support_of in NE. rewrite QB, TY in NE. exact NE.
Qed.
Lemma flat_reset ty : exists t changed, reset scan (fun _ => 0%Z) [above] (QLocal (flat_mls ty) nbh_new) = Some (t, changed) /\ q_kernel t = Cubic 1 /\
  In 0%nat (support_of t 0) /\ forall i, In i (support_of t 0) -> In i (rows ty).
Proof.
  destruct (flat_ok ty) as (A & B & C & D). destruct (reset_exact scan (fun _ => 0%Z) [above] (flat_mls ty) nbh_new scan_faithful A D) as (n' & ch & E & _ & _ & _ & X); [unfold lm_radius; cbn; lra|intros _; destruct ty; discriminate|].
  exists (QLocal (flat_mls ty) n'), ch. split; [exact E|]. split; [cbn; f_equal; lra|]. specialize (X 0%nat ltac:(cbn; lia)). cbn [nth] in X. destruct X as (_ & (_ & TR) & _ & EE).
  assert (I0 : In 0%nat (nth 0 (n_trivial n') [])).
  { apply TR. split; [destruct ty; cbn; lia|]. apply gap_dist2; [unfold lm_radius; cbn; lra|]. unfold dist2. change (sb_samples (lm_base (flat_mls ty))) with (sb_samples (flat ty)). rewrite smp_pos. destruct flat_vertices as [V _], flat_faces as [F _].
    destruct ty; [rewrite V|rewrite F]; unfold lm_radius, norm2, v3_dot, v3_sub, above; cbn; lra. }
  unfold support_of. destruct ty; cbn [q_base flat_mls lm_base flat update_base fst sb_type sheet extended_neighborhood trivial_neighborhood].
  - split; [apply EE; left; exact I0|]. intros i I. apply EE in I. destruct I as [I|(_ & _ & _ & tt & _ & [<-|[<-|[]]] & _ & I)]; [|cbn in I |- *; lia..]. apply TR in I. destruct I as [L _]. cbn in L |- *. lia.
  - split; [exact I0|]. intros i I. apply TR in I. destruct I as [L _]. cbn in L |- *. lia.
Qed.
Example surface_jacobian_of_queries_ex : forall ty U, exists t changed L, reset scan (fun _ => 0%Z) [above] (QLocal (flat_mls ty) nbh_new) = Some (t, changed) /\
  surface_jacobian_triplets t [above] = Some L /\
  is_derive (fun x => match potential (fst (update_surface t (mesh_line (sb_verts (flat ty)) U x) true)) [above] [0] with Some out' => nth 0 out' 0 | None => 0 end) 0 (row_product L U 0).
Proof.
  intros ty U. destruct (flat_ok ty) as (A & B & C & D). destruct (flat_reset ty) as (t & ch & RS & QK & I0 & SUB). exists t, ch.
  destruct (surface_jacobian_of_queries scan (fun _ => 0%Z) (flat_mls ty) nbh_new [above] t ch U true 0 0 [0] scan_faithful A D B C) as (L & EL & _ & DD); [| | | | | | | | |exists L; auto].
  - rewrite QK. cbn. lra.
  - cbn. lra.
  - exact RS.
  - cbn. lia.
  - reflexivity.
  - split; [exact I0|]. intros j J. apply (flat_nearest ty), SUB, J.
  - cbn [nth]. apply Rnot_le_lt. change (sb_samples (lm_base (flat_mls ty))) with (sb_samples (flat ty)). unfold lm_radius; cbn [flat_mls lm_base_radius lm_kernel radius_multiplier]. intros G. assert (X : 1 <= gap (sb_samples (flat ty)) above 0) by lra.
    unfold gap in X. assert (Y : norm2 (away (sb_samples (flat ty)) above 0) < norm2 (V3 1 0 0)).
    { unfold away. rewrite smp_pos. destruct flat_vertices as [V _], flat_faces as [F _]. destruct ty; [rewrite V|rewrite F]; unfold norm2, v3_dot, v3_sub, above; cbn; lra. }
    apply norm2_lt in Y. replace (v3_norm (V3 1 0 0)) with 1 in Y; [lra|]. unfold v3_norm, v3_dot. cbn. replace (1 * 1 + 0 * 0 + 0 * 0) with 1 by ring. symmetry. apply sqrt_1.
  - rewrite QK. intros i I. apply (flat_regular ty), SUB, I.
  - rewrite QK. apply flat_background.
Qed.

(** C135: the blocks computed without indices, in their order, belong to the block indices computed without values. *)
Theorem surface_jacobian_matches_indices : forall t qs, well_formed (q_base t) -> proper_mesh (q_base t) -> in_place (q_base t) -> indices_ok t -> length qs = length (trivial_neighborhood t) ->
  exists I B, surface_jacobian_block_indices t = Some I /\ surface_jacobian_blocks t qs = Some B /\ length B = length I /\
    surface_jacobian_triplets t qs = Some (combine I B).
Proof.
  intros t qs WF PM IP IOK LQ. assert (RG := rows_in_range t IOK).
  assert (LB : length qs = length (by_type t)) by (rewrite LQ; unfold by_type; destruct IOK as [EL _]; destruct (sb_type (q_base t)); [symmetry; exact EL|reflexivity]).
  unfold surface_jacobian_block_indices, rows_of, surface_jacobian_blocks, surface_jacobian_triplets, nonempty, enumerate. rewrite combine_length, LB, Nat.min_id. clear IOK LQ. revert RG LB. generalize (by_type t). intros l. generalize 0%nat. revert qs.
  induction l as [|nb l IH]; intros [|q qs] m RG LB; try discriminate; cbn [length seq combine filter snd].
  - exists [], []. cbn. auto.
  - destruct (IH qs (S m)) as (I & B & E1 & E2 & EL & E3); [intros l' i A; apply RG; right; exact A|cbn in LB; lia|].
    destruct (is_nil nb) eqn:N; cbn [negb]; [exists I, B; auto|].
    assert (LN : forall i, In i nb -> (i < length (sb_samples (q_base t)))%nat) by (intros i; apply RG; left; reflexivity).
    destruct (surface_row_total t q nb WF PM (sample_positions _ WF IP) LN) as [bl EB]; [intros ->; discriminate|].
    assert (EC := columns_total t nb WF LN). set (cols := map (fun i => match sb_type (q_base t) with SVertex => [i] | SFace => _ end) nb) in EC.
    assert (LBL : length bl = length (concat cols)).
    { assert (L1 : forall (f : nat -> option v3) l r, all_some (map f l) = Some r -> length r = length l) by (intros f l' r E; apply all_some_forall2 in E; symmetry; eapply forall2_length; exact E).
      unfold surface_row in EB. unfold cols. destruct (sb_type (q_base t)) eqn:TY.
      - unfold vertex_jacobian_at in EB. match type of EB with context [bg_local ?x1 ?x2 ?x3 ?x4 ?x5 ?x6] => destruct (bg_local x1 x2 x3 x4 x5 x6) as [bb|] eqn:EBG; [|discriminate] end. match type of EB with context [all_some ?y] => destruct (all_some y) as [nml|] eqn:EA; [|discriminate] end. cbn [option_map] in EB. injection EB as <-. apply L1 in EA. rewrite map_length, combine_length, EA.
        unfold bg_local in EBG. destruct (closest_sample _ _ _); [|discriminate]. injection EBG as <-. unfold sample_jacobian_at. rewrite map_length. cbn [bg_new_impl b_view]. clear. induction nb as [|x nb IH]; cbn; [reflexivity|]. f_equal. rewrite Nat.min_id in IH |- *. exact IH.
      - unfold face_jacobian_at in EB. match type of EB with context [bg_local ?x1 ?x2 ?x3 ?x4 ?x5 ?x6] => destruct (bg_local x1 x2 x3 x4 x5 x6) as [bb|] eqn:EBG; [|discriminate] end. match type of EB with context [all_some ?y] => destruct (all_some y) as [nml|] eqn:EA; [|discriminate] end. injection EB as <-. rewrite map_length, combine_length.
        unfold bg_local in EBG. destruct (closest_sample _ _ _); [|discriminate]. injection EBG as <-. unfold sample_jacobian_at. cbn [bg_new_impl b_view].
        assert (L3 : length (concat nml) = (3 * length nb)%nat).
        { apply all_some_forall2 in EA. clear -EA. revert EA. match goal with |- Forall2 ?P _ _ -> _ => generalize (fun x y (H : P x y) => H) end. intros _ EA. induction EA as [|x y xs ys H _ IHA]; [reflexivity|]. cbn [concat length]. rewrite app_length, IHA.
          unfold face_normal_products, face_unit_normal_gradients in H. destruct (nth_error _ x); [|discriminate]. destruct (tri_at _ _); [|discriminate]. cbn in H. injection H as <-. cbn. lia. }
        rewrite L3. match goal with |- Nat.min (length (flat_map _ (map ?f nb))) _ = _ => generalize f end. intros f. clear. induction nb as [|x nb IH]; [reflexivity|]. cbn [map flat_map concat length]. rewrite !app_length. destruct (nth x (sb_topo (q_base t)) (0, 0, 0)%nat) as [[? ?] ?]. cbn [repeat length tri_verts]. lia. }
    exists (map (fun c => (m, c)) (concat cols) ++ I), (bl ++ B). cbn [map fst snd all_some]. rewrite EC, EB. cbn [option_map].
    destruct (all_some _) as [x1|] in E1 |- *; [|discriminate]. cbn in E1. injection E1 as <-. destruct (all_some _) as [x2|] in E2 |- *; [|discriminate]. cbn in E2. injection E2 as <-. destruct (all_some _) as [x3|] in E3 |- *; [|discriminate]. cbn in E3. injection E3 as E3.
    cbn [option_map concat]. rewrite E3. split; [reflexivity|]. split; [reflexivity|]. split; [rewrite !app_length, map_length; lia|]. f_equal. rewrite combine_app_eq by (rewrite map_length; lia). f_equal.
    clear. revert bl. induction (concat cols) as [|c cs IHC]; intros [|x bl]; cbn; try reflexivity. rewrite IHC. reflexivity.
Qed.
Example surface_jacobian_matches_indices_ex : forall ty, exists I, surface_jacobian_block_indices (flat_topo ty) = Some I /\ length I = match ty with SVertex => 4%nat | SFace => 6%nat end /\
  indices_ok (flat_topo ty) /\ in_place (flat ty) /\ proper_mesh (flat ty).
Proof.
  intros ty. destruct (flat_ok ty) as (A & B & C & D). assert (T := conj (flat_indices ty) (conj C B)). destruct ty; eexists; (split; [reflexivity|]); (split; [reflexivity|exact T]).
Qed.

(** C135, refuted for point clouds: they have vertex samples but no triangles, so that there is no list of triangles for a vertex. The
    caches and the potential exist, while the surface Jacobian panics; and an update of the points erases every normal. *)
Definition cloud_base : base := Base (BgParams FZero false) [] [V3 0 0 0; V3 1 0 0] [Sample (V3 0 0 0) (V3 0 0 1) v3_0 0; Sample (V3 1 0 0) (V3 0 0 1) v3_0 0] [] SVertex
  (build_tree [Sample (V3 0 0 0) (V3 0 0 1) v3_0 0; Sample (V3 1 0 0) (V3 0 0 1) v3_0 0]).
Definition cloud_mls : local_mls := LocalMls (LCubic 2) (1 / 2) 0 cloud_base.
Lemma cloud_ok : well_formed cloud_base /\ current cloud_base /\ sampled cloud_base.
Proof.
  split; [|split; reflexivity]. split; [intros t v []|]. cbn. split; [reflexivity|]. split; [left; reflexivity|]. intros i t. split; [destruct i; intros []|]. intros [L _]. cbn in L. lia.
Qed.
Theorem point_cloud_jacobian_refuted : exists t changed out, well_formed cloud_base /\ current cloud_base /\ sampled cloud_base /\
  reset scan (fun _ => 0%Z) [above] (QLocal cloud_mls nbh_new) = Some (t, changed) /\ indices_ok t /\ potential t [above] [0] = Some out /\
  surface_jacobian_triplets t [above] = None /\ surface_jacobian_blocks t [above] = None /\
  forall new rebuild i, s_nml (smp (sb_samples (fst (update_base cloud_base new rebuild))) i) = v3_0.
Proof.
  destruct cloud_ok as (A & B & C). destruct (reset_exact scan (fun _ => 0%Z) [above] cloud_mls nbh_new scan_faithful A B) as (n' & ch & E & _ & L2 & L3 & X); [unfold lm_radius; cbn; lra|discriminate|].
  exists (QLocal cloud_mls n'), ch. eexists. split; [exact A|]. split; [exact B|]. split; [exact C|]. split; [exact E|].
  split; [apply (reset_indices_valid scan (fun _ => 0%Z) [above] cloud_mls nbh_new _ ch scan_faithful A B); [unfold lm_radius; cbn; lra|exact E]|].
  split; [unfold potential; cbn [trivial_neighborhood]; rewrite L2; reflexivity|].
  specialize (X 0%nat ltac:(cbn; lia)). cbn [nth] in X. destruct X as (_ & (_ & TR) & _ & EE).
  assert (I0 : In 0%nat (nth 0 (n_extended n') [])).
  { apply EE. left. apply TR. split; [cbn; lia|]. apply gap_dist2; [unfold lm_radius; cbn; lra|]. unfold dist2, norm2, v3_dot, lm_radius, above. cbn. lra. }
  assert (ROW : exists x nb, n_extended n' = [x :: nb]).
  { destruct (n_extended n') as [|e [|? ?]]; cbn in L3; try lia. cbn in I0. destruct e as [|x nb]; [destruct I0|]. eauto. }
  destruct ROW as (x & nb & ROW).
  assert (NONE : surface_row (QLocal cloud_mls n') above (x :: nb) = None).
  { unfold surface_row. cbn [q_base cloud_mls lm_base cloud_base sb_type]. unfold vertex_jacobian_at. destruct (bg_local _ _ _ _ _ _); [|reflexivity]. cbn [map all_some]. unfold vertex_normal_product. cbn [cloud_base sb_dual]. destruct x; reflexivity. }
  split; [|split].
  - unfold surface_jacobian_triplets, by_type. cbn [q_base cloud_mls lm_base cloud_base sb_type extended_neighborhood]. rewrite ROW. cbn [combine enumerate length seq filter snd is_nil negb map all_some]. fold cloud_base. fold cloud_mls. rewrite NONE. match goal with |- context [match ?z with Some _ => None | None => None end] => destruct z end; reflexivity.
  - unfold surface_jacobian_blocks, by_type. cbn [q_base cloud_mls lm_base cloud_base sb_type extended_neighborhood]. rewrite ROW. cbn [combine filter snd fst is_nil negb map all_some]. fold cloud_base. fold cloud_mls. rewrite NONE. reflexivity.
  - intros new rebuild i. destruct (Nat.lt_ge_cases i 2) as [L|L].
    + destruct (update_base cloud_base new rebuild) as [b' k] eqn:EU. destruct (surface_update_exact _ _ _ _ _ A EU) as (_ & _ & LS & SM & _). cbn [fst]. specialize (SM i L). cbv zeta in SM. cbn [cloud_base sb_type sb_topo] in SM. destruct SM as (_ & _ & SN). rewrite SN by (intros t []). reflexivity.
    + unfold smp. rewrite nth_overflow; [reflexivity|]. destruct (update_base cloud_base new rebuild) as [b' k] eqn:EU. destruct (surface_update_exact _ _ _ _ _ A EU) as (_ & _ & LS & _). cbn [fst]. rewrite LS. exact L.
Qed.
Example point_cloud_jacobian_refuted_ex : map s_nml (sb_samples cloud_base) = [V3 0 0 1; V3 0 0 1] /\ sb_dual cloud_base = [] /\ extend [] [] SVertex [0; 1]%nat = Some [0; 1]%nat.
Proof. repeat split. Qed.

Print Assumptions update_puts_in_place.
Print Assumptions surface_jacobian_is_derivative.
Print Assumptions surface_jacobian_of_queries.
Print Assumptions surface_jacobian_matches_indices.
Print Assumptions point_cloud_jacobian_refuted.
