(** Derivatives of products with the contact Jacobian: /repo/implicits/src/field/hessian.rs and jacobian.rs. *)
From Coq Require Import Reals List Bool Lra Lia Psatz FunctionalExtensionality Permutation Sorted.
From Coquelicot Require Import Coquelicot.
From Verif Require Import Vec3 Mat3 RList Calc KernelModel KernelSpec KernelProofs FieldModel FieldSpec FieldProofs FieldDerivProofs
  NeighborModel NeighborSpec NeighborProofs UpdateProps SurfJacModel SurfJacSpec SurfJacProofs SurfJacProps ContactMapModel ContactMapSpec ContactMapProofs ContactMapProps HessModel HessSpec HessProofs HessMixProofs HessProps
  ContactAsmSpec BasisJacProofs ContactDerivModel ContactDerivSpec ContactDerivProofs ContactDerivRowProofs.
Import ListNotations.
Local Open Scope R_scope.

(** ** A single sample *)
(** C163: the derivative of the rotation from the normal of a sample to the gradient, times a vector, and of its transpose, when normal
    and gradient move with the given derivatives. *)
Theorem rotation_product_derivative : forall (n g : R -> v3) (dn dg : m3) (x mult : v3), v3_dot (n 0) (g 0) <> -1 ->
  moves n (m3_mulv (m3_transpose dn) x) -> moves g (m3_mulv (m3_transpose dg) x) ->
  let Q s := rodrigues_rotation (cross_matrix (v3_cross (n s) (g s))) (v3_dot (n s) (g s)) in
  let D transpose := rodrigues_jacobian_product (n 0) (g 0) dg dn (v3_dot (n 0) (g 0)) mult transpose in
  moves (fun s => m3_mulv (Q s) mult) (m3_mulv (m3_transpose (D false)) x) /\ moves (fun s => m3_mulv (m3_transpose (Q s)) mult) (m3_mulv (m3_transpose (D true)) x).
Proof.
  intros n g dn dg x mult NO Mn Mg Q D. unfold D.
  assert (G : forall tr, moves (fun s => m3_mulv (flip tr (Q s)) mult) (m3_mulv (m3_transpose (rodrigues_jacobian_product (n 0) (g 0) dg dn (v3_dot (n 0) (g 0)) mult tr)) x)).
  { intros tr. eapply moves_is; [|symmetry; exact (product_spin (n 0) (g 0) dg dn mult tr x NO)]. eapply moves_ext; [|exact (turned_moves n g _ _ mult tr Mn Mg NO)]. intros s. apply turned_transpose. }
  exact (conj (G false) (G true)).
Qed.
(** C163: the derivative of the weight of a normal. *)
Theorem normal_kernel_derivative : forall (n g : R -> v3) (dn dg : m3) (x : v3), moves n (m3_mulv (m3_transpose dn) x) -> moves g (m3_mulv (m3_transpose dg) x) ->
  is_derive (fun s => normal_kernel (n s) (g s)) 0 (v3_dot (normal_kernel_grad (n 0) (g 0) dn dg) x).
Proof.
  intros n g dn dg x Mn Mg. pose proof (moves_dot n g _ _ Mn Mg) as D. unfold normal_kernel, normal_kernel_grad. cbv zeta.
  set (y := v3_dot (m3_mulv (m3_transpose dn) x) (g 0) + v3_dot (n 0) (m3_mulv (m3_transpose dg) x)) in *.
  replace (v3_dot _ x) with (1 / 2 * (1 + v3_dot (n 0) (g 0)) * y).
  - set (f := fun s => v3_dot (n s) (g s)) in *. change (v3_dot (n 0) (g 0)) with (f 0). change (is_derive (fun s => 1 / 2 * (1 + f s) * (1 / 2 * (1 + f s))) 0 (1 / 2 * (1 + f 0) * y)).
    auto_derive; [split; [exists y; exact D|split; [exists y; exact D|exact Logic.I]]|]. replace (Derive (fun s => f s) 0) with y by (symmetry; apply is_derive_unique; exact D). field.
  - rewrite dot_scale_l, dot_add_l. unfold y. change (m3_mulv (m3_transpose dn) x) with (tm dn x). change (m3_mulv (m3_transpose dg) x) with (tm dg x). rewrite <- !tm_dot, (dot_comm (tm dg x)). ring.
Qed.
(** A normal that tilts towards the gradient. *)
Definition tilt : m3 := M3 (V3 0 0 0) (V3 1 0 0) (V3 0 0 0).
Example rotation_product_derivative_ex : forall mult, let n s := V3 s 0 1 in let g (_ : R) := V3 0 0 1 in
  moves n (m3_mulv (m3_transpose tilt) (V3 0 1 0)) /\ moves g (m3_mulv (m3_transpose m3_0) (V3 0 1 0)) /\ v3_dot (n 0) (g 0) <> -1 /\
  moves (fun s => m3_mulv (rodrigues_rotation (cross_matrix (v3_cross (n s) (g s))) (v3_dot (n s) (g s))) mult) (V3 (- vz mult) 0 (vx mult)) /\
  moves (fun s => m3_mulv (m3_transpose (rodrigues_rotation (cross_matrix (v3_cross (n s) (g s))) (v3_dot (n s) (g s)))) mult) (V3 (vz mult) 0 (- vx mult)).
Proof.
  intros mult n g. assert (Mn : moves n (m3_mulv (m3_transpose tilt) (V3 0 1 0))).
  { eapply moves_is; [eapply moves_ext; [|exact (moves_line (V3 0 0 1) (V3 1 0 0))]|]; [intros s; apply v3_eq; unfold v3_line, n; unv; ring|]. apply v3_eq; cbv [tilt m3_mulv m3_transpose v3_dot r0 r1 r2 vx vy vz]; ring. }
  assert (Mg : moves g (m3_mulv (m3_transpose m3_0) (V3 0 1 0))) by (eapply moves_is; [apply moves_const|]; apply v3_eq; cbv [m3_0 m3_mulv m3_transpose v3_dot v3_0 r0 r1 r2 vx vy vz]; ring).
  assert (NO : v3_dot (n 0) (g 0) <> -1) by (unfold n, g, v3_dot; cbn [vx vy vz]; lra).
  destruct (rotation_product_derivative n g tilt m3_0 (V3 0 1 0) mult NO Mn Mg) as [A B]. split; [exact Mn|]. split; [exact Mg|]. split; [exact NO|].
  assert (X : 1 + v3_dot (n 0) (g 0) = 2) by (unfold n, g, v3_dot; cbn [vx vy vz]; ring).
  split; (eapply moves_is; [first [exact A|exact B]|]); unfold rodrigues_jacobian_product; cbv zeta; rewrite X; (destruct (Req_EM_T 2 0); [lra|]); destruct mult as [a b c]; apply v3_eq; unfold n, g;
    cbv [tilt m3_0 m3_mulv m3_transpose m3_add m3_scale m3_neg outer v3_cross v3_dot v3_add v3_scale v3_neg v3_0 r0 r1 r2 vx vy vz]; field.
Qed.
Example normal_kernel_derivative_ex : let n s := V3 0 0 (1 + s) in let g (_ : R) := V3 0 0 1 in let dn := M3 (V3 0 0 1) v3_0 v3_0 in
  moves n (m3_mulv (m3_transpose dn) (V3 1 0 0)) /\ is_derive (fun s => normal_kernel (n s) (g s)) 0 1.
Proof.
  intros n g dn. assert (Mn : moves n (m3_mulv (m3_transpose dn) (V3 1 0 0))).
  { eapply moves_is; [eapply moves_ext; [|exact (moves_line (V3 0 0 1) (V3 0 0 1))]|]; [intros s; apply v3_eq; unfold v3_line, n; unv; ring|]. apply v3_eq; cbv [dn m3_mulv m3_transpose v3_dot v3_0 r0 r1 r2 vx vy vz]; ring. }
  split; [exact Mn|]. assert (Mg : moves g (m3_mulv (m3_transpose m3_0) (V3 1 0 0))) by (eapply moves_is; [apply moves_const|]; apply v3_eq; cbv [m3_0 m3_mulv m3_transpose v3_dot v3_0 r0 r1 r2 vx vy vz]; ring).
  pose proof (normal_kernel_derivative n g dn m3_0 (V3 1 0 0) Mn Mg) as D. replace (v3_dot _ _) with 1 in D; [exact D|]. unfold n, g, dn. cbv [normal_kernel_grad m3_0 m3_mulv m3_transpose v3_add v3_scale v3_dot v3_0 r0 r1 r2 vx vy vz]. field.
Qed.

(** ** The assembled derivatives *)
(** C164: the contact Jacobian times vectors fixed at the vertices, while query points and surface move: the blocks give the rate. *)
Theorem contact_product_derivative : forall ord t U rebuild (qs : R -> list v3) dq mults, let b := q_base t in
  sb_type b = SFace -> well_formed b -> (forall tr, In tr (sb_topo b) -> distinct_corners tr) -> in_place b -> indices_ok t -> (forall l, In l (trivial_neighborhood t) -> NoDup l) ->
  valid_kernel (q_kernel t) -> p_weighted (sb_bg b) = false -> lists_the_set ord ->
  (forall s, length (qs s) = length (trivial_neighborhood t)) -> (forall r, moves (fun s => nth r (qs s) v3_0) (dq r)) ->
  (forall r, In r (filled t) -> contact_point t (nth r (qs 0) v3_0) (nth r (trivial_neighborhood t) [])) -> length mults = length (sb_verts b) ->
  exists A B L, contact_jacobian_jacobian ord t (qs 0) mults = Result (Some A) /\ contact_query_jacobian_jacobian t (qs 0) mults = Result (Some B) /\
    (forall s, contact_matrices (surface_at t (mesh_line (sb_verts b) U s) rebuild) (qs s) = Some (L s)) /\
    forall r, moves (fun s => block_product (L s) (fun v => nth v mults v3_0) r) (v3_add (column_major_product A U r) (column_major_product B dq r)).
Proof.
  intros ord t U rebuild qs dq mults b TY WF DC IP IOK ND Vk PW OK LQ MQ CP LM.
  destruct (assembled_plain ord t U rebuild qs dq TY WF DC IP IOK ND Vk PW OK LQ MQ CP mults LM) as (A & B & EA & EB & M). exists A, B. eexists. split; [exact EA|]. split; [exact EB|]. split; [exact (moving_matrices t U rebuild qs TY WF IOK LQ)|exact M].
Qed.
(** C165: the transpose of the contact Jacobian times vectors fixed at the query points that see the surface. *)
Theorem contact_transposed_derivative : forall ord t U rebuild (qs : R -> list v3) dq mults, let b := q_base t in
  sb_type b = SFace -> well_formed b -> (forall tr, In tr (sb_topo b) -> distinct_corners tr) -> in_place b -> indices_ok t -> (forall l, In l (trivial_neighborhood t) -> NoDup l) ->
  valid_kernel (q_kernel t) -> p_weighted (sb_bg b) = false -> lists_the_set ord ->
  (forall s, length (qs s) = length (trivial_neighborhood t)) -> (forall r, moves (fun s => nth r (qs s) v3_0) (dq r)) ->
  (forall r, In r (filled t) -> contact_point t (nth r (qs 0) v3_0) (nth r (trivial_neighborhood t) [])) -> length mults = length (filled t) ->
  exists A B L, contact_hessian ord t (qs 0) mults = Result (Some A) /\ contact_query_hessian t (qs 0) mults = Result (Some B) /\
    (forall s, contact_matrices (surface_at t (mesh_line (sb_verts b) U s) rebuild) (qs s) = Some (L s)) /\
    forall v, moves (fun s => transposed_product (L s) (for_filled t mults) v) (v3_add (column_major_product A U v) (column_major_product B dq v)).
Proof.
  intros ord t U rebuild qs dq mults b TY WF DC IP IOK ND Vk PW OK LQ MQ CP LM.
  destruct (assembled_transposed ord t U rebuild qs dq TY WF DC IP IOK ND Vk PW OK LQ MQ CP mults LM) as (A & B & EA & EB & M). exists A, B. eexists. split; [exact EA|]. split; [exact EB|]. split; [exact (moving_matrices t U rebuild qs TY WF IOK LQ)|exact M].
Qed.
Lemma sorted_listing : lists_the_set (nodup Nat.eq_dec).
Proof. intros l. split; [apply NoDup_nodup|]. intros v. apply nodup_In. Qed.
Lemma flat_level : flat_around (sb_samples (flat SFace)) [0; 1]%nat (V3 0 0 1).
Proof.
  destruct flat_faces as [FP FN]. split; [unfold v3_dot; cbn; lra|]. intros i j Hi Hj. unfold direction. rewrite !smp_pos, !smp_nml, FP, FN.
  assert (E : nth i [V3 0 0 1; V3 0 0 1] v3_0 = V3 0 0 1) by (destruct Hi as [<-|[<-|[]]]; reflexivity). rewrite E, norm_z by lra.
  split; [intros X; injection X; lra|]. split; [apply v3_eq; unv; field|]. split.
  - destruct Hi as [<-|[<-|[]]]; destruct Hj as [<-|[<-|[]]]; unfold v3_dot; unv; cbn [nth vx vy vz]; lra.
  - destruct Hi as [<-|[<-|[]]]; destruct Hj as [<-|[<-|[]]]; reflexivity.
Qed.
Lemma flat_contact : contact_point (flat_topo SFace) above [0; 1]%nat.
Proof.
  assert (GP : forall i, In i [0; 1]%nat -> gap (sb_samples (flat SFace)) above i = v3_norm (away (sb_samples (flat SFace)) above i)) by reflexivity.
  assert (RC : v3_norm (away (sb_samples (flat SFace)) above 0) < 1).
  { apply Rsqr_incrst_0; [|apply sqrt_pos|lra]. unfold v3_norm. rewrite Rsqr_sqrt by (unfold v3_dot; nra). unfold away. rewrite smp_pos. destruct flat_faces as [-> _]. unfold Rsqr, v3_dot, v3_sub, above. cbn. lra. }
  destruct (contact_map_flat above (sb_samples (flat SFace)) [0; 1]%nat (Cubic 1) (sb_bg (flat SFace)) (V3 0 0 1) flat_cubic) as (ms & c & _ & G & _).
  { discriminate. } { intros i Hi. apply (flat_regular SFace i Hi). } { reflexivity. } { exists 0%nat. split; [left; reflexivity|]. cbn [support]. exact RC. } { exact flat_level. }
  unfold contact_point. cbv zeta. rewrite flat_kernel. change (q_base (flat_topo SFace)) with (flat SFace). exists 0%nat, (V3 0 0 1).
  refine (conj (flat_nearest SFace) (conj (flat_regular SFace) (conj _ (conj RC (conj G _))))); [discriminate|]. intros i Hi. rewrite (proj1 (proj2 (proj2 flat_level i i Hi Hi))). unfold v3_dot. cbn [vx vy vz]. lra.
Qed.
(** The rate of the only query point. *)
Definition only (dq : v3) (r : nat) : v3 := match r with O => dq | _ => v3_0 end.
Lemma flat_moving : forall dq, (forall r, moves (fun s => nth r [v3_line above dq s] v3_0) (only dq r)) /\ forall r, In r (filled (flat_topo SFace)) -> contact_point (flat_topo SFace) (nth r [v3_line above dq 0] v3_0) (nth r (trivial_neighborhood (flat_topo SFace)) []).
Proof.
  intros dq. split.
  - intros [|[|r]]; cbn [nth only]; [apply moves_line|apply moves_const|apply moves_const].
  - intros r Hr. cbn in Hr. destruct Hr as [<-|[]]. cbn [nth]. rewrite line_0. exact flat_contact.
Qed.
Example contact_product_derivative_ex : forall U dq mults, length mults = 4%nat -> exists A B L, contact_jacobian_jacobian (nodup Nat.eq_dec) (flat_topo SFace) [above] mults = Result (Some A) /\ contact_query_jacobian_jacobian (flat_topo SFace) [above] mults = Result (Some B) /\
  (forall s, contact_matrices (surface_at (flat_topo SFace) (mesh_line (sb_verts (flat SFace)) U s) true) [v3_line above dq s] = Some (L s)) /\
  moves (fun s => block_product (L s) (fun v => nth v mults v3_0) 0) (v3_add (column_major_product A U 0) (column_major_product B (only dq) 0)).
Proof.
  intros U dq mults LM. destruct (flat_ok SFace) as (WF & _ & IP & _). destruct (flat_moving dq) as [MQ CP].
  destruct (contact_product_derivative (nodup Nat.eq_dec) (flat_topo SFace) U true (fun s => [v3_line above dq s]) (only dq) mults) as (A & B & L & EA & EB & EL & M); try assumption; try reflexivity.
  - exact (flat_distinct' SFace).
  - exact (flat_indices SFace).
  - intros l [<-|[]]. repeat constructor; cbn; intuition discriminate.
  - rewrite flat_kernel. exact flat_cubic.
  - exact sorted_listing.
  - cbv beta in EA, EB. rewrite line_0 in EA, EB. exists A, B, L. exact (conj EA (conj EB (conj EL (M 0%nat)))).
Qed.
Example contact_transposed_derivative_ex : forall U dq mult v, exists A B L, contact_hessian (nodup Nat.eq_dec) (flat_topo SFace) [above] [mult] = Result (Some A) /\ contact_query_hessian (flat_topo SFace) [above] [mult] = Result (Some B) /\
  (forall s, contact_matrices (surface_at (flat_topo SFace) (mesh_line (sb_verts (flat SFace)) U s) true) [v3_line above dq s] = Some (L s)) /\
  moves (fun s => transposed_product (L s) (for_filled (flat_topo SFace) [mult]) v) (v3_add (column_major_product A U v) (column_major_product B (only dq) v)).
Proof.
  intros U dq mult v. destruct (flat_ok SFace) as (WF & _ & IP & _). destruct (flat_moving dq) as [MQ CP].
  destruct (contact_transposed_derivative (nodup Nat.eq_dec) (flat_topo SFace) U true (fun s => [v3_line above dq s]) (only dq) [mult]) as (A & B & L & EA & EB & EL & M); try assumption; try reflexivity.
  - exact (flat_distinct' SFace).
  - exact (flat_indices SFace).
  - intros l [<-|[]]. repeat constructor; cbn; intuition discriminate.
  - rewrite flat_kernel. exact flat_cubic.
  - exact sorted_listing.
  - cbv beta in EA, EB. rewrite line_0 in EA, EB. exists A, B, L. exact (conj EA (conj EB (conj EL (M v)))).
Qed.

(** ** Layout *)
Lemma vertex_blocks_total ord t q view tr : lists_the_set ord -> sb_type (q_base t) = SFace -> well_formed (q_base t) -> (forall i, In i view -> (i < length (sb_samples (q_base t)))%nat) -> view <> [] ->
  let tri i := nth i (sb_topo (q_base t)) (0, 0, 0)%nat in
  exists bv : nat -> v3 -> list (nat * m3), vertex_contact_blocks ord t q view tr = Some (map (fun i => (tri i, bv i)) view) /\
    forall i m, map fst (bv i m) = tri_verts (tri i) ++ ord (flat_map tri_verts (map tri view)) ++ tri_verts (tri i).
Proof.
  intros OK TY [WT WL] RG N tri. rewrite TY in WL. unfold vertex_contact_blocks. destruct (closest_some q (sb_samples (q_base t)) view N) as (c & C).
  unfold query_jacobian_at, bg_new. cbv zeta. unfold bg_local. rewrite C. set (b := bg_new_impl _ _ _ _ _ _ _). set (g := v3_add _ _).
  assert (T : forall i, In i view -> nth_error (sb_topo (q_base t)) i = Some (tri i) /\ forall w, In w (tri_verts (tri i)) -> (w < length (sb_verts (q_base t)))%nat).
  { intros i Hi. specialize (RG i Hi). rewrite WL in RG. split; [apply nth_error_nth'; exact RG|]. intros w. apply WT, nth_In, RG. }
  unfold vertex_weight_gradients, vertex_weight_hessians. change (b_view b) with view.
  match goal with |- context [scatter v3_sub _ ?x _ ?l] => destruct (scatter_spec v3_sub v3_0 (sb_topo (q_base t)) x tri view l) as (l1 & -> & _) end.
  { intros i Hi. rewrite repeat_length. apply T, Hi. }
  match goal with |- context [scatter m3_sub _ ?x _ ?l] => destruct (scatter_spec m3_sub m3_0 (sb_topo (q_base t)) x tri view l) as (l2 & -> & _) end.
  { intros i Hi. rewrite repeat_length. apply T, Hi. }
  set (fn := fun i => face_unit_normal_gradients (sb_verts (q_base t)) (sb_topo (q_base t)) i (smp (sb_samples (q_base t)) i)).
  set (gr := fun i => match fn i with Some [A0; A1; A2] => [A0; A1; A2] | _ => [m3_0; m3_0; m3_0] end).
  rewrite (all_some_each fn gr).
  2:{ intros i Hi. destruct (T i Hi) as [E W]. unfold gr, fn, face_unit_normal_gradients. rewrite E. pose proof (tri_at_some _ _ W) as TA. clear E W. destruct (tri i) as [[? ?] ?]. rewrite TA. reflexivity. }
  rewrite (all_some_each (nth_error (sb_topo (q_base t))) tri) by (intros i Hi; apply T, Hi).
  assert (LG : forall i, length (gr i) = 3%nat) by (intros i; unfold gr; destruct (fn i) as [[|? [|? [|? [|]]]]|]; reflexivity).
  set (verts := ord (flat_map tri_verts (map tri view))). set (jacs := jacobian_gradient_phi _ _ _ _ _ _).
  assert (LJ : length jacs = length verts) by (unfold jacs, jacobian_gradient_phi; apply map_length).
  assert (BV : forall v, In v verts -> (v < length (sb_verts (q_base t)))%nat).
  { intros v Hv. apply (proj1 (proj2 (OK _) v)) in Hv. apply in_flat_map in Hv. destruct Hv as (x & Hx & Hv). apply in_map_iff in Hx. destruct Hx as (i & <- & Hi). apply (T i Hi), Hv. }
  rewrite combine_maps. unfold weight_nml_vertex_gradients. cbv zeta. change (b_view b) with view. rewrite ?combine_maps.
  match goal with |- context [accumulate ?u] => destruct (accumulate_spec u (repeat v3_0 (length (sb_verts (q_base t))))) as (l & -> & _) end.
  { intros p Hp. rewrite repeat_length. apply in_app_or in Hp. destruct Hp as [Hp|Hp].
    - apply in_map_iff in Hp. destruct Hp as ([v x] & <- & Hv). apply in_combine_l in Hv. exact (BV v Hv).
    - apply in_flat_map in Hp. destruct Hp as (x & Hx & Hp). apply in_map_iff in Hx. destruct Hx as (i & <- & Hi). apply in_flat_map in Hp. destruct Hp as ([v G] & Hv & Hp). apply in_combine_l in Hv.
      apply (T i Hi). destruct Hp as [<-|[<-|[]]]; exact Hv. }
  cbn [option_map]. rewrite map_map. eexists. split; [reflexivity|]. intros i m. cbv beta. unfold sample_contact_blocks. cbv zeta. rewrite !map_app, !map_map. f_equal; [apply map_id|]. f_equal.
  - rewrite (map_ext _ fst) by (intros [v M]; reflexivity). clearbody jacs verts. clear -LJ. revert jacs LJ. induction verts as [|v l IH]; intros [|j js] LJ; try discriminate; [reflexivity|]. cbn [combine map fst]. f_equal. apply IH. cbn in LJ. lia.
  - cbn [fst]. specialize (LG i). destruct (gr i) as [|? [|? [|? [|]]]]; try discriminate LG. destruct (tri i) as [[? ?] ?]. reflexivity.
Qed.
Lemma query_blocks_total t q view tr : view <> [] -> exists bq, query_contact_blocks t q view tr = Some bq.
Proof.
  intros N. unfold query_contact_blocks, query_jacobian_at, query_hessian_at, bg_new, bg_local. cbv zeta. destruct (closest_some q (sb_samples (q_base t)) view N) as (c & ->). eexists. reflexivity.
Qed.
Lemma flat_fst {A B C} (f : A -> list (B * C)) (h : A -> list B) l : (forall a, In a l -> map fst (f a) = h a) -> map fst (flat_map f l) = flat_map h l.
Proof. intros H. induction l as [|a l IH]; [reflexivity|]. cbn [flat_map]. rewrite map_app, (H a (or_introl eq_refl)), IH by (intros x Hx; apply H; right; exact Hx). reflexivity. Qed.
(** The places of the blocks, from the triangles, the neighbourhoods and the query points that have neighbours. *)
Definition view_columns (ord : list nat -> list nat) (topo : list triangle) (view : list nat) (i : nat) : list nat :=
  let tri i := nth i topo (0, 0, 0)%nat in tri_verts (tri i) ++ ord (flat_map tri_verts (map tri view)) ++ tri_verts (tri i).
Definition places1 ord (topo : list triangle) (ns : list (list nat)) (rows : list nat) : list (nat * nat) :=
  flat_map (fun r => flat_map (fun i => map (fun v => (r, v)) (view_columns ord topo (nth r ns []) i)) (nth r ns [])) rows.
Definition places2 (ns : list (list nat)) (rows : list nat) : list (nat * nat) := flat_map (fun r => map (fun _ => (r, r)) (nth r ns [])) rows.
Definition places3 ord (topo : list triangle) (ns : list (list nat)) (rows : list nat) : list (nat * nat) :=
  flat_map (fun r => flat_map (fun i => flat_map (fun row => map (fun v => (row, v)) (view_columns ord topo (nth r ns []) i)) (tri_verts (nth i topo (0, 0, 0)%nat))) (nth r ns [])) rows.
Definition places4 (topo : list triangle) (ns : list (list nat)) (rows : list nat) : list (nat * nat) :=
  flat_map (fun r => flat_map (fun i => map (fun v => (v, r)) (tri_verts (nth i topo (0, 0, 0)%nat))) (nth r ns [])) rows.
Lemma derivative_places : forall ord t, let b := q_base t in let nb r := nth r (trivial_neighborhood t) [] in let ns := trivial_neighborhood t in
  lists_the_set ord -> well_formed b -> indices_ok t -> sb_type b = SFace ->
  (forall qs mults, length qs = length (trivial_neighborhood t) -> (length (sb_verts b) <= length mults)%nat -> exists A B, contact_jacobian_jacobian ord t qs mults = Result (Some A) /\ contact_query_jacobian_jacobian t qs mults = Result (Some B) /\ map fst A = places1 ord (sb_topo b) ns (filled t) /\ map fst B = places2 ns (filled t)) /\
  (forall qs mults, length qs = length (trivial_neighborhood t) -> length mults = length (filled t) -> exists A B, contact_hessian ord t qs mults = Result (Some A) /\ contact_query_hessian t qs mults = Result (Some B) /\ map fst A = places3 ord (sb_topo b) ns (filled t) /\ map fst B = places4 (sb_topo b) ns (filled t)) /\
  (forall r v, In (r, v) (places1 ord (sb_topo b) ns (filled t)) <-> exists i, In i (nb r) /\ depends_on b i v) /\
  (forall r r', In (r, r') (places2 ns (filled t)) <-> r' = r /\ nb r <> []) /\
  (forall v v', In (v, v') (places3 ord (sb_topo b) ns (filled t)) <-> exists r i j, In i (nb r) /\ In j (nb r) /\ depends_on b i v /\ depends_on b j v') /\
  (forall v r, In (v, r) (places4 (sb_topo b) ns (filled t)) <-> exists i, In i (nb r) /\ depends_on b i v).
Proof.
  intros ord t b nb ns OK WF IOK TY.
  set (tri := fun i => nth i (sb_topo b) (0, 0, 0)%nat). set (verts := fun r => ord (flat_map tri_verts (map tri (nb r)))). set (cols := fun r i => tri_verts (tri i) ++ verts r ++ tri_verts (tri i)).
  assert (NI : forall r, In r (filled t) -> In (nb r) (trivial_neighborhood t) /\ nb r <> []) by (intros r Hr; apply filled_in in Hr; destruct Hr as [X Y]; split; [apply nth_In; exact X|exact Y]).
  assert (NL : forall r i, In r (filled t) -> In i (nb r) -> (i < length (sb_samples b))%nat) by (intros r i Hr Hi; apply (proj1 (proj2 IOK) (nb r)); [left; apply NI, Hr|exact Hi]).
  assert (NT : forall r i, In r (filled t) -> In i (nb r) -> (i < length (sb_topo b))%nat). { intros r i Hr Hi. pose proof (NL r i Hr Hi) as LI. destruct WF as [_ W2]. rewrite TY in W2. rewrite <- W2. exact LI. }
  assert (TB : forall r i v, In r (filled t) -> In i (nb r) -> In v (tri_verts (tri i)) -> (v < length (sb_verts b))%nat) by (intros r i v Hr Hi Hv; apply (proj1 WF (tri i)); [apply nth_In, (NT r i Hr Hi)|exact Hv]).
  assert (ET : forall r i, In r (filled t) -> In i (nb r) -> nth_error (sb_topo b) i = Some (tri i)) by (intros r i Hr Hi; apply nth_error_nth', (NT r i Hr Hi)).
  assert (FI : forall r i, In i (nb r) -> In r (filled t)).
  { intros r i Hi. apply filled_in. split; [|intros E; unfold nb in Hi; rewrite E in Hi; destruct Hi]. destruct (le_lt_dec (length (trivial_neighborhood t)) r) as [G|G]; [unfold nb in Hi; rewrite nth_overflow in Hi by exact G; destruct Hi|exact G]. }
  assert (DP : forall r i v, In i (nb r) -> depends_on b i v <-> In v (tri_verts (tri i))).
  { intros r i v Hi. unfold depends_on. rewrite TY, (ET r i (FI r i Hi) Hi). split; [intros (x & E & H); injection E as <-; exact H|eauto]. }
  assert (CO : forall r i v, In i (nb r) -> In v (cols r i) <-> exists j, In j (nb r) /\ In v (tri_verts (tri j))).
  { intros r i v Hi. unfold cols. rewrite !in_app_iff. assert (V : In v (verts r) <-> exists j, In j (nb r) /\ In v (tri_verts (tri j))).
    { unfold verts. split.
      - intros H. apply (proj1 (proj2 (OK _) v)) in H. apply in_flat_map in H. destruct H as (x & Hx & H). apply in_map_iff in Hx. destruct Hx as (j & <- & Hj). eauto.
      - intros (j & Hj & H). apply (proj2 (proj2 (OK _) v)). apply in_flat_map. exists (tri j). split; [apply in_map; exact Hj|exact H]. }
    rewrite V. split; [intros [H|[H|H]]; eauto|tauto]. }
  assert (HB : forall (qs : list v3), exists (bq : bool -> nat -> nat -> v3 -> m3) (bv : bool -> nat -> nat -> v3 -> list (nat * m3)), forall r, In r (filled t) ->
    (forall tr, query_contact_blocks t (nth r qs v3_0) (nb r) tr = Some (bq tr r)) /\ (forall tr, vertex_contact_blocks ord t (nth r qs v3_0) (nb r) tr = Some (map (fun i => (tri i, bv tr r i)) (nb r))) /\
    forall tr i m, map fst (bv tr r i m) = cols r i).
  { intros qs. assert (G : forall r, In r (filled t) -> exists (bq : bool -> nat -> v3 -> m3) (bv : bool -> nat -> v3 -> list (nat * m3)),
      (forall tr, query_contact_blocks t (nth r qs v3_0) (nb r) tr = Some (bq tr)) /\ (forall tr, vertex_contact_blocks ord t (nth r qs v3_0) (nb r) tr = Some (map (fun i => (tri i, bv tr i)) (nb r))) /\ forall tr i m, map fst (bv tr i m) = cols r i).
    { intros r Hr. destruct (NI r Hr) as [_ NN]. destruct (query_blocks_total t (nth r qs v3_0) (nb r) true NN) as (q1 & E1). destruct (query_blocks_total t (nth r qs v3_0) (nb r) false NN) as (q2 & E2).
      destruct (vertex_blocks_total ord t (nth r qs v3_0) (nb r) true OK TY WF (fun i => NL r i Hr) NN) as (v1 & V1 & C1). destruct (vertex_blocks_total ord t (nth r qs v3_0) (nb r) false OK TY WF (fun i => NL r i Hr) NN) as (v2 & V2 & C2).
      exists (fun tr : bool => if tr then q1 else q2), (fun tr : bool => if tr then v1 else v2). split; [intros []; assumption|]. split; [intros []; assumption|]. intros []; assumption. }
    revert G. generalize (filled t). intros l. induction l as [|a l IH]; intros G; [exists (fun _ _ _ _ => m3_0), (fun _ _ _ _ => []); intros r []|].
    destruct IH as (bq & bv & H); [intros r Hr; apply G; right; exact Hr|]. destruct (G a (or_introl eq_refl)) as (bq0 & bv0 & H0).
    exists (fun tr r => if Nat.eqb a r then bq0 tr else bq tr r), (fun tr r => if Nat.eqb a r then bv0 tr else bv tr r). intros r Hr. destruct (Nat.eqb_spec a r) as [<-|N]; [exact H0|]. apply H. destruct Hr as [E|Hr]; [contradiction|exact Hr]. }
  change (places1 ord (sb_topo b) ns (filled t)) with (flat_map (fun r => flat_map (fun i => map (fun v => (r, v)) (cols r i)) (nb r)) (filled t)).
  change (places2 ns (filled t)) with (flat_map (fun r => map (fun _ => (r, r)) (nb r)) (filled t)).
  change (places3 ord (sb_topo b) ns (filled t)) with (flat_map (fun r => flat_map (fun i => flat_map (fun row => map (fun v => (row, v)) (cols r i)) (tri_verts (tri i))) (nb r)) (filled t)).
  change (places4 (sb_topo b) ns (filled t)) with (flat_map (fun r => flat_map (fun i => map (fun v => (v, r)) (tri_verts (tri i))) (nb r)) (filled t)).
  refine (conj _ (conj _ (conj _ (conj _ (conj _ _))))).
  - intros qs mults LQ LM. destruct (HB qs) as (bq & bv & H). set (x := fun v => nth v mults v3_0). set (mean := fun i => v3_scale (1 / 3) (vsum (map x (tri_verts (tri i))))).
    exists (flat_map (fun r => flat_map (fun i => map (fun e => (r, fst e, snd e)) (bv false r i (mean i))) (nb r)) (filled t)), (flat_map (fun r => map (fun i => (r, r, bq false r i (mean i))) (nb r)) (filled t)).
    refine (conj _ (conj _ (conj _ _))).
    + unfold contact_jacobian_jacobian. fold b. rewrite TY. f_equal. unfold hessian_rows. rewrite rows_of_filled by exact LQ. rewrite map_map. cbv beta iota. apply concat_flat. intros r Hr. cbv beta. destruct (H r Hr) as (_ & EV & _). unfold contact_jacobian_jacobian_at. fold (nb r). rewrite EV.
      rewrite map_map. rewrite (concat_flat _ (fun i => bv false r i (mean i))).
      * cbn [option_map]. f_equal. clear. induction (nb r) as [|a l IH]; [reflexivity|]. cbn [flat_map]. rewrite map_app, IH. reflexivity.
      * intros i Hi. rewrite (all_some_each (nth_error mults) x); [reflexivity|]. intros v V. apply nth_error_nth'. specialize (TB r i v Hr Hi V). lia.
    + unfold contact_query_jacobian_jacobian. fold b. rewrite TY. f_equal. unfold hessian_rows. rewrite rows_of_filled by exact LQ. rewrite map_map. cbv beta iota. apply concat_flat. intros r Hr. cbv beta. destruct (H r Hr) as (EQ & _). fold (nb r). rewrite EQ.
      apply (all_some_each _ (fun i => (r, r, bq false r i (mean i)))). intros i Hi. rewrite (mean_multiplier_some (sb_topo b) mults i (length (sb_verts b)) LM (NT r i Hr Hi)); [reflexivity|]. intros v. apply (TB r i v Hr Hi).
    + apply flat_fst. intros r Hr. apply flat_fst. intros i Hi. destruct (H r Hr) as (_ & _ & EC). rewrite <- (EC false i (mean i)), !map_map. reflexivity.
    + apply flat_fst. intros r Hr. rewrite map_map. reflexivity.
  - intros qs mults LQ LM. destruct (HB qs) as (bq & bv & H).
    exists (flat_map (fun r => flat_map (fun i => flat_map (fun row => map (fun e => (row, fst e, m3_scale (1 / 3) (snd e))) (bv true r i (for_filled t mults r))) (tri_verts (tri i))) (nb r)) (filled t)),
      (flat_map (fun r => flat_map (fun i => map (fun v => (v, r, m3_scale (1 / 3) (bq true r i (for_filled t mults r)))) (tri_verts (tri i))) (nb r)) (filled t)).
    assert (CM : combine (hessian_rows t qs) mults = map (fun r => (r, (nth r qs v3_0, nb r), for_filled t mults r)) (filled t)).
    { unfold hessian_rows. rewrite rows_of_filled by exact LQ. pose proof (for_filled_combine t mults LM) as E. clear -E. 
      assert (G : forall {X Y Z} (f : X -> Y) (h : X -> Z) l m, combine l m = map (fun r => (r, h r)) l -> combine (map f l) m = map (fun r => (f r, h r)) l).
      { clear. intros X Y Z f h. induction l as [|a l IH]; intros [|m ms] E; try discriminate; try reflexivity. cbn [combine map] in *. injection E as -> E. rewrite IH by exact E. reflexivity. }
      exact (G _ _ _ (fun r => (r, (nth r qs v3_0, nth r (trivial_neighborhood t) []))) (for_filled t mults) _ _ E). }
    refine (conj _ (conj _ (conj _ _))).
    + unfold contact_hessian. fold b. rewrite TY, CM. f_equal. rewrite map_map. cbv beta iota. apply concat_flat. intros r Hr. cbv beta. destruct (H r Hr) as (_ & EV & _). unfold contact_hessian_at. rewrite EV. cbn [option_map]. f_equal.
      clear. induction (nb r) as [|a l IH]; [reflexivity|]. cbn [map flat_map]. rewrite IH. reflexivity.
    + unfold contact_query_hessian. fold b. rewrite TY, CM. f_equal. rewrite map_map. cbv beta iota. apply concat_flat. intros r Hr. cbv beta. destruct (H r Hr) as (EQ & _). rewrite EQ. apply concat_flat. intros i Hi. rewrite (ET r i Hr Hi). reflexivity.
    + apply flat_fst. intros r Hr. apply flat_fst. intros i Hi. apply flat_fst. intros row _. destruct (H r Hr) as (_ & _ & EC). rewrite <- (EC true i (for_filled t mults r)), !map_map. reflexivity.
    + apply flat_fst. intros r Hr. apply flat_fst. intros i Hi. rewrite map_map. reflexivity.
  - intros r v. rewrite in_flat_map. split.
    + intros (r' & Hr & HI). apply in_flat_map in HI. destruct HI as (i & Hi & HI). apply in_map_iff in HI. destruct HI as (w & E & Hw). injection E as -> ->. apply (CO r i v Hi) in Hw. destruct Hw as (j & Hj & Hw). exists j. split; [exact Hj|]. apply (DP r j v Hj), Hw.
    + intros (i & Hi & D). apply (DP r i v Hi) in D. exists r. split; [exact (FI r i Hi)|]. apply in_flat_map. exists i. split; [exact Hi|]. apply in_map_iff. exists v. split; [reflexivity|]. apply (CO r i v Hi). eauto.
  - intros r r'. rewrite in_flat_map. split.
    + intros (a & Hr & HI). apply in_map_iff in HI. destruct HI as (i & E & Hi). injection E as -> ->. split; [reflexivity|]. apply NI, Hr.
    + intros [-> NN]. destruct (nb r) as [|i l] eqn:E; [contradiction|]. exists r. rewrite E. split; [apply (FI r i); rewrite E; left; reflexivity|left; reflexivity].
  - intros v v'. rewrite in_flat_map. split.
    + intros (r & Hr & HI). apply in_flat_map in HI. destruct HI as (i & Hi & HI). apply in_flat_map in HI. destruct HI as (row & Hrow & HI). apply in_map_iff in HI. destruct HI as (w & E & Hw). injection E as -> ->. apply (CO r i v' Hi) in Hw. destruct Hw as (j & Hj & Hw).
      exists r, i, j. split; [exact Hi|]. split; [exact Hj|]. split; [apply (DP r i v Hi), Hrow|apply (DP r j v' Hj), Hw].
    + intros (r & i & j & Hi & Hj & D1 & D2). apply (DP r i v Hi) in D1. apply (DP r j v' Hj) in D2. exists r. split; [exact (FI r i Hi)|]. apply in_flat_map. exists i. split; [exact Hi|]. apply in_flat_map. exists v. split; [exact D1|]. apply in_map_iff. exists v'. split; [reflexivity|]. apply (CO r i v' Hi). eauto.
  - intros v r. rewrite in_flat_map. split.
    + intros (r' & Hr & HI). apply in_flat_map in HI. destruct HI as (i & Hi & HI). apply in_map_iff in HI. destruct HI as (w & E & Hw). injection E as -> ->. exists i. split; [exact Hi|]. apply (DP r i v Hi), Hw.
    + intros (i & Hi & D). apply (DP r i v Hi) in D. exists r. split; [exact (FI r i Hi)|]. apply in_flat_map. exists i. split; [exact Hi|]. apply in_map_iff. exists v. auto.
Qed.
(** C166: the places of the blocks depend only on the neighbourhoods and the triangles; whatever the query points and the multipliers, the
    iterators give blocks at these places: of rates in the vertices for a query point and every vertex it sees, of rates in the query
    points on the diagonal, and for the transpose between vertices of the same query point and between a vertex and a query point that
    sees it. *)
Theorem contact_derivatives_layout : forall ord t, let b := q_base t in let nb r := nth r (trivial_neighborhood t) [] in
  lists_the_set ord -> well_formed b -> indices_ok t ->
  match sb_type b with
  | SVertex => forall qs mults, contact_jacobian_jacobian ord t qs mults = Unsupported /\ contact_query_jacobian_jacobian t qs mults = Unsupported /\ contact_hessian ord t qs mults = Unsupported /\ contact_query_hessian t qs mults = Unsupported
  | SFace => exists I1 I2 I3 I4 : list (nat * nat),
      (forall t' qs mults, same_sparsity t t' -> well_formed (q_base t') -> indices_ok t' -> length qs = length (trivial_neighborhood t) -> (length (sb_verts b) <= length mults)%nat -> exists A B, contact_jacobian_jacobian ord t' qs mults = Result (Some A) /\ contact_query_jacobian_jacobian t' qs mults = Result (Some B) /\ map fst A = I1 /\ map fst B = I2) /\
      (forall t' qs mults, same_sparsity t t' -> well_formed (q_base t') -> indices_ok t' -> length qs = length (trivial_neighborhood t) -> length mults = length (filled t) -> exists A B, contact_hessian ord t' qs mults = Result (Some A) /\ contact_query_hessian t' qs mults = Result (Some B) /\ map fst A = I3 /\ map fst B = I4) /\
      (forall r v, In (r, v) I1 <-> exists i, In i (nb r) /\ depends_on b i v) /\
      (forall r r', In (r, r') I2 <-> r' = r /\ nb r <> []) /\
      (forall v v', In (v, v') I3 <-> exists r i j, In i (nb r) /\ In j (nb r) /\ depends_on b i v /\ depends_on b j v') /\
      (forall v r, In (v, r) I4 <-> exists i, In i (nb r) /\ depends_on b i v)
  end.
Proof.
  intros ord t b nb OK WF IOK. destruct (sb_type b) eqn:TY; [intros qs mults; unfold contact_jacobian_jacobian, contact_query_jacobian_jacobian, contact_hessian, contact_query_hessian; fold b; rewrite TY; auto|].
  destruct (derivative_places ord t OK WF IOK TY) as (_ & _ & REST). do 4 eexists. refine (conj _ (conj _ REST)); intros t' qs mults (S1 & S2 & S3 & S4) WF' IOK' LQ LM; fold b in S1, S2, S3; rewrite TY in S1;
    destruct (derivative_places ord t' OK WF' IOK' S1) as (P & Q & _); unfold filled in *; rewrite ?S2, ?S3, ?S4 in *; [apply P|apply Q]; assumption.
Qed.
Example contact_derivatives_layout_ex : forall qs mults, length qs = 1%nat -> length mults = 4%nat -> exists A, contact_jacobian_jacobian (nodup Nat.eq_dec) (flat_topo SFace) qs mults = Result (Some A) /\ In (0, 3)%nat (map fst A) /\ ~ In (0, 4)%nat (map fst A).
Proof.
  intros qs mults LQ LM. destruct (flat_ok SFace) as (WF & _). pose proof (contact_derivatives_layout (nodup Nat.eq_dec) (flat_topo SFace) sorted_listing WF (flat_indices SFace)) as L. cbv zeta in L.
  change (sb_type (q_base (flat_topo SFace))) with SFace in L. cbv iota in L. destruct L as (I1 & I2 & I3 & I4 & G & _ & M & _). destruct (G (flat_topo SFace) qs mults (conj eq_refl (conj eq_refl (conj eq_refl eq_refl))) WF (flat_indices SFace) LQ) as (A & B & EA & _ & EI & _); [change (length (sb_verts (q_base (flat_topo SFace)))) with 4%nat; lia|]. exists A. split; [exact EA|]. rewrite EI. split.
  - apply M. exists 1%nat. split; [right; left; reflexivity|]. unfold depends_on. eexists. split; [reflexivity|]. cbn. tauto.
  - intros H. apply M in H. destruct H as (i & Hi & tr & E & D). cbn in Hi. destruct Hi as [<-|[<-|[]]]; cbn in E; injection E as <-; cbn in D; intuition discriminate.
Qed.

(** ** A weighted background *)
Lemma tent_entry S s : -1 < s < 1 -> s_pos (smp S 0) = V3 0 0 s -> s_nml (smp S 0) = V3 0 0 3 -> s_value (smp S 0) = 0 -> entry_at overhead S [0%nat] (Cubic 2) (BgParams FDistance true) 0 = m3_I.
Proof.
  intros D P N V. unfold entry_at, contact_setup. rewrite (tent_jacobian S s FDistance D P N V eq_refl). unfold bg_local. cbn [closest_sample fold_left]. fold (tent_bg S FDistance).
  unfold sample_contact_jacobian_at, weight_nml_sum_inv. cbv zeta. cbn [map]. rewrite (tb_dist S s FDistance D P), (tb_sample S s D P), N, unit_z, rsum_cons, rsum_nil.
  destruct (cubic_value (1 - s) ltac:(lra)) as (-> & _). replace (normal_kernel (V3 0 0 1) (V3 0 0 1)) with 1 by (unfold normal_kernel, v3_dot; cbn [vx vy vz]; field).
  set (w := 1 - _ + _). assert (W : 0 < w) by (unfold w; set (x := (1 - s) / 2); replace (1 - 3 * x * x + 2 * x * x * x) with ((1 - x) * (1 - x) * (1 + 2 * x)) by ring; assert (0 < x < 1) by (unfold x; lra); apply Rmult_lt_0_compat; [apply Rmult_lt_0_compat|]; lra).
  destruct (Rlt_dec 0 (w * 1 + 0)); [|lra]. replace (v3_dot (V3 0 0 1) (V3 0 0 1)) with 1 by (unfold v3_dot; cbn [vx vy vz]; ring). unfold rodrigues_rotation. destruct (Req_EM_T 1 (-1)); [lra|]. clearbody w.
  cbv [m3_add m3_scale m3_mul m3_mulv m3_transpose m3_I m3_diag cross_matrix v3_cross v3_add v3_scale v3_dot r0 r1 r2 vx vy vz]. f_equal; f_equal; field; lra.
Qed.
Ltac tidy := cbv [map fold_right fst snd msum fold_right m3_add m3_0 m3_scale m3_sub m3_mul m3_mulv m3_neg m3_transpose m3_diag m3_I scaled_tangent_projection area_normal_gradient cross_matrix v3_add v3_0 v3_scale v3_sub v3_neg v3_dot v3_cross outer r0 r1 r2 vx vy vz]; match goal with |- M3 _ _ _ = _ => f_equal; f_equal; field | |- V3 _ _ _ = _ => f_equal; field end.
Lemma tent_product : exists A, contact_jacobian_jacobian (nodup Nat.eq_dec) (tent_topo FDistance) [overhead] [V3 0 0 3; v3_0; v3_0] = Result (Some A) /\ column_major_product A (fun _ => V3 0 0 1) 0 = V3 0 0 (3 / 2).
Proof.
  set (S := sb_samples (q_base (tent_topo FDistance))).
  assert (P : s_pos (smp S 0) = V3 0 0 0) by reflexivity. assert (N : s_nml (smp S 0) = V3 0 0 3) by reflexivity. assert (V : s_value (smp S 0) = 0) by reflexivity. assert (D : -1 < 0 < 1) by lra.
  pose proof (tb_dist S 0 FDistance D P) as Ed. pose proof (tb_wsi S 0 FDistance D P) as Ew. pose proof (tb_total_grad S 0 FDistance D P) as [_ En].
  pose proof (tb_sample S 0 D P) as Es. pose proof (tb_sample_grad S 0 D P) as Eg. pose proof (tb_sample_hess S 0 D P) as Eh. pose proof (tb_bg_hess S 0 FDistance D P) as Eb. destruct (tb_grad S 0 FDistance D P) as [_ Ec].
  pose proof (tent_jacobian S 0 FDistance D P N V eq_refl) as EJ.
  unfold contact_jacobian_jacobian. change (sb_type (q_base (tent_topo FDistance))) with SFace. cbv iota. change (hessian_rows (tent_topo FDistance) [overhead]) with [(0%nat, (overhead, [0%nat]))]. cbn [map all_some].
  unfold contact_jacobian_jacobian_at, vertex_contact_blocks. change (sb_samples (q_base (tent_topo FDistance))) with S. replace (q_kernel (tent_topo FDistance)) with (Cubic 2) by (cbn; unfold lm_radius; cbn; f_equal; lra).
  change (sb_bg (q_base (tent_topo FDistance))) with (BgParams FDistance true). change (sb_verts (q_base (tent_topo FDistance))) with [V3 1 0 0; V3 0 1 0; V3 (-1) (-1) 0]. change (sb_topo (q_base (tent_topo FDistance))) with [(0, 1, 2)%nat].
  rewrite EJ. unfold bg_local. cbn [closest_sample fold_left]. fold (tent_bg S FDistance). set (b := tent_bg S FDistance) in *.
  unfold vertex_weight_gradients, vertex_weight_hessians. rewrite Ew. change (b_view b) with [0%nat]. cbn [scatter fold_left nth_error tri_verts length repeat subtract_at option_map].
  cbn [map all_some]. unfold face_unit_normal_gradients. rewrite N, norm_z by lra. cbn [map all_some nth_error tri_at option_map].
  change (nodup Nat.eq_dec (flat_map tri_verts [(0, 1, 2)%nat])) with [0; 1; 2]%nat.
  unfold jacobian_gradient_phi, weight_nml_vertex_gradients. change (b_view b) with [0%nat]. change (b_kernel b) with (Cubic 2). change (b_q b) with overhead. change (b_all b) with S. rewrite Ed, Ew.
  assert (NK : normal_kernel (V3 0 0 1) (V3 0 0 1) = 1) by (unfold normal_kernel, v3_dot; cbn [vx vy vz]; field).
  assert (WI : weight_nml_sum_inv overhead S [0%nat] (Cubic 2) (1 - 0) (V3 0 0 1) = 2).
  { unfold weight_nml_sum_inv. cbv zeta. cbn [map]. rewrite Es, N, unit_z, rsum_cons, rsum_nil, NK. destruct (cubic_value (1 - 0) ltac:(lra)) as (-> & _). destruct (Rlt_dec 0 _) as [_|X]; [field|exfalso; apply X; lra]. }
  cbv zeta. rewrite WI.
  cbn [map combine position Nat.eqb nth_error nth tri_verts app flat_map fst snd accumulate fold_left subtract_at repeat length option_map all_some vsum fold_right].
  eexists. split; [reflexivity|]. unfold sample_contact_blocks. cbv zeta.
  cbn [map combine position Nat.eqb nth_error nth tri_verts app flat_map fst snd accumulate fold_left subtract_at repeat length option_map all_some vsum fold_right concat].
  unfold column_major_product. cbn [map Nat.eqb vsum fold_right].
  rewrite ?Es, ?Eg, ?Eh, ?(Eb (Some 0%nat)), ?Ec, ?En, ?N, ?unit_z, ?NK.
  assert (G0 : m3_mul (m3_neg (area_normal_gradient (V3 1 0 0, V3 0 1 0, V3 (-1) (-1) 0) 0)) (scaled_tangent_projection (v3_scale (1 / 3) (V3 0 0 3)) (1 / 3)) = M3 v3_0 v3_0 (V3 (- (2 / 3)) (1 / 3) 0)) by tidy.
  assert (G1 : m3_mul (m3_neg (area_normal_gradient (V3 1 0 0, V3 0 1 0, V3 (-1) (-1) 0) 1)) (scaled_tangent_projection (v3_scale (1 / 3) (V3 0 0 3)) (1 / 3)) = M3 v3_0 v3_0 (V3 (1 / 3) (- (2 / 3)) 0)) by tidy.
  assert (G2 : m3_mul (m3_neg (area_normal_gradient (V3 1 0 0, V3 0 1 0, V3 (-1) (-1) 0) 2)) (scaled_tangent_projection (v3_scale (1 / 3) (V3 0 0 3)) (1 / 3)) = M3 v3_0 v3_0 (V3 (1 / 3) (1 / 3) 0)) by tidy.
  rewrite G0, G1, G2.
  assert (SQ : forall a c D d, D = m3_0 -> d = v3_0 -> sample_query_component overhead (smp S 0) (Cubic 2) (Some (M3 v3_0 v3_0 (V3 a c 0))) v3_0 D d 1 (1 - 0) = M3 (V3 (1 / 4) 0 (a / 2)) (V3 0 (1 / 4) (c / 2)) (V3 0 0 (1 / 2))).
  { intros a c D' d' -> ->. unfold sample_query_component. cbv zeta. rewrite Es, Eg, Eh, P, N, V, sub_z, unit_z. replace (1 - 0) with 1 by ring. destruct (cubic_value 1 ltac:(lra)) as (-> & -> & ->). tidy. }
  destruct (cubic_value 1 ltac:(lra)) as (K0 & K1 & K2). rewrite !SQ by (replace (1 - 0) with 1 by ring; replace (1 + 0) with 1 by ring; rewrite ?K1, ?K2; tidy).
  unfold turned_multiplier, rodrigues_jacobian_product. cbv zeta.
  replace (1 - 0) with 1 by ring. replace (1 + 0) with 1 by ring. rewrite K0, K1.
  replace (v3_cross (V3 0 0 1) (V3 0 0 1)) with v3_0 by (apply v3_eq; cbv [v3_cross v3_0 vx vy vz]; ring). replace (v3_dot (V3 0 0 1) (V3 0 0 1)) with 1 by (unfold v3_dot; cbn [vx vy vz]; ring).
  replace (m3_mulv (rodrigues_rotation (cross_matrix v3_0) 1) (v3_scale (1 / 3) (v3_add (V3 0 0 3) (v3_add v3_0 (v3_add v3_0 v3_0))))) with (V3 0 0 1).
  2:{ unfold rodrigues_rotation. destruct (Req_EM_T 1 (-1)); [lra|]. apply v3_eq; cbv [m3_mul m3_mulv m3_add m3_scale m3_I m3_diag m3_transpose cross_matrix v3_add v3_scale v3_dot v3_0 r0 r1 r2 vx vy vz]; field. }
  replace (v3_scale (1 / 3) (v3_add (V3 0 0 3) (v3_add v3_0 (v3_add v3_0 v3_0)))) with (V3 0 0 1) by (apply v3_eq; cbv [v3_add v3_scale v3_0 vx vy vz]; field).
  destruct (Req_EM_T (1 + 1) 0); [lra|].
  cbv [map fold_right fst snd msum fold_right m3_add m3_0 m3_scale m3_sub m3_mul m3_mulv m3_neg m3_transpose m3_diag m3_I scaled_tangent_projection area_normal_gradient cross_matrix v3_add v3_0 v3_scale v3_sub v3_neg v3_dot v3_cross outer r0 r1 r2 vx vy vz].
  f_equal; field.
Qed.
(** C164, refuted for a weighted background: a triangle moves towards the query point, the contact Jacobian stays the same, and the
    blocks give a rate that is not zero. *)
Theorem weighted_contact_product_refuted : exists ord t U q mults A L, let b := q_base t in
  sb_type b = SFace /\ well_formed b /\ (forall tr, In tr (sb_topo b) -> distinct_corners tr) /\ in_place b /\ indices_ok t /\ trivial_neighborhood t = [[0%nat]] /\ valid_kernel (q_kernel t) /\ p_weighted (sb_bg b) = true /\
  lists_the_set ord /\ contact_point t q [0%nat] /\ length mults = length (sb_verts b) /\ contact_jacobian_jacobian ord t [q] mults = Result (Some A) /\
  (forall s, -1 < s < 1 -> contact_matrices (surface_at t (mesh_line (sb_verts b) U s) true) [q] = Some L) /\ column_major_product A U 0 <> v3_0.
Proof.
  destruct tent_product as (A & EA & EP). destruct (tent_ok (BgParams FDistance true)) as (WF & DC & IP). destruct (tent_view (BgParams FDistance true)) as (NE & RV).
  assert (K : q_kernel (tent_topo FDistance) = Cubic 2) by (cbn; unfold lm_radius; cbn; f_equal; lra).
  assert (IOK : indices_ok (tent_topo FDistance)).
  { refine (conj _ (conj _ _)); cbn; try reflexivity; try lia. intros l i [[<-|[]]|[<-|[]]] [<-|[]]; lia. }
  exists (nodup Nat.eq_dec), (tent_topo FDistance), (fun _ => V3 0 0 1), overhead, [V3 0 0 3; v3_0; v3_0], A, (map (fun v => (0%nat, v, m3_scale (1 / 3) m3_I)) [0; 1; 2]%nat). cbv zeta. rewrite K.
  refine (conj eq_refl (conj WF (conj DC (conj IP (conj IOK (conj eq_refl (conj _ (conj eq_refl (conj sorted_listing (conj _ (conj eq_refl (conj EA (conj _ _))))))))))))).
  - cbn. lra.
  - unfold contact_point. cbv zeta. rewrite K. exists 0%nat, (V3 0 0 1). refine (conj NE (conj RV (conj _ (conj _ (conj _ _))))).
    + intros _. cbn [q_base tent_topo tent lm_base sb_samples smp nth s_nml s_pos]. unfold away, v3_dot, v3_sub, overhead. cbn [smp nth s_nml s_pos vx vy vz]. unfold v3_add, v3_neg. cbn [vx vy vz]. lra.
    + cbn [k_radius q_base tent_topo tent lm_base sb_samples]. unfold away. cbn [smp nth s_pos]. rewrite sub_z, norm_z; lra.
    + apply (tent_jacobian _ 0); try reflexivity. lra.
    + intros i [<-|[]]. unfold direction. cbn [q_base tent_topo tent lm_base sb_samples smp nth s_nml]. rewrite norm_z by lra. unfold v3_dot, v3_scale. cbn [vx vy vz]. lra.
  - intros s Hs. pose proof (moving_matrices (tent_topo FDistance) (fun _ => V3 0 0 1) true (fun _ => [overhead]) eq_refl WF IOK (fun _ => eq_refl) s) as M. cbv beta in M. rewrite M. f_equal.
    pose proof (moved_sample (tent (BgParams FDistance true)) (fun _ => V3 0 0 1) true s 0 WF DC ltac:(cbn; lia)) as MS. cbv zeta in MS. cbn [sb_type tent] in MS. destruct MS as (MV & MP & MN).
    change (filled (tent_topo FDistance)) with [0%nat]. change (trivial_neighborhood (tent_topo FDistance)) with [[0%nat]]. rewrite K. cbn [flat_map nth app]. change (tri_verts (nth 0 (sb_topo (q_base (tent_topo FDistance))) (0, 0, 0)%nat)) with [0; 1; 2]%nat.
    change (sb_bg (q_base (tent_topo FDistance))) with (BgParams FDistance true). change (q_base (tent_topo FDistance)) with (tent (BgParams FDistance true)). rewrite (tent_entry _ s Hs).
    + reflexivity.
    + etransitivity; [exact MP|]. apply v3_eq; cbn; lra.
    + etransitivity; [exact MN|]. apply v3_eq; cbn; lra.
    + exact MV.
  - rewrite EP. intros E. injection E. lra.
Qed.
Example weighted_contact_product_refuted_ex : exists A, contact_jacobian_jacobian (nodup Nat.eq_dec) (tent_topo FDistance) [overhead] [V3 0 0 3; v3_0; v3_0] = Result (Some A) /\ column_major_product A (fun _ => V3 0 0 1) 0 = V3 0 0 (3 / 2).
Proof. exact tent_product. Qed.

Print Assumptions rotation_product_derivative.
Print Assumptions normal_kernel_derivative.
Print Assumptions contact_product_derivative.
Print Assumptions contact_transposed_derivative.
Print Assumptions contact_derivatives_layout.
Print Assumptions weighted_contact_product_refuted.
