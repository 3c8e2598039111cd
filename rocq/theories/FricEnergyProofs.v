(** Proofs about assembled friction: the lagged potential, the power of the friction force, and the lagged Jacobian as a quadratic form. *)
From Coq Require Import Reals List Bool Lra Lia Sorting.Sorted.
From Coquelicot Require Import Coquelicot.
From Verif Require Import Vec3 Mat3 RList KernelModel KernelSpec FieldModel FieldSpec FieldProofs NeighborModel NeighborSpec NeighborProofs UpdateProps SurfJacModel SurfJacSpec SurfJacProofs HessModel HessSpec HessMixProofs SurfHessSpec ContactModel ContactProofs ContactJacModel ContactJacSpec ContactJacProofs ContactJacProps ContactMapModel ContactMapSpec ContactMapProofs
  AssemblyModel ContactAsmModel ContactAsmSpec ContactAsmProofs ContactAsmProps ContactDerivModel ContactDerivSpec ContactDerivRowProofs ContactDerivProps BasisJacModel BasisJacSpec BasisJacProofs
  ContactHessModel ContactHessSpec ContactHessProofs ContactRowProofs ContactMoveProofs FrictionModel FrictionSpec FrictionProofs FricAsmModel FricAsmSpec FricForceSpec FricAlgProofs FricCurveProofs FricStateProofs FricActProofs FricFormProofs FricMoveProofs FricJacProofs FricTotalProofs.
From Verif Require MassProofs.
Import ListNotations.
Local Open Scope R_scope.

(** ** The friction law of one contact *)
Lemma law_symmetric kd fp w lam u x : v2_dot u (friction_jacobian_mul kd w lam fp x) = v2_dot x (friction_jacobian_mul kd w lam fp u).
Proof.
  unfold friction_jacobian_mul. cbv zeta. destruct (Rlt_dec 0 (v2_norm w)) as [P|P]; destruct u as [u1 u2], x as [x1 x2].
  - assert (NZ : v2_norm w <> 0) by lra. destruct w as [w1 w2]. set (nn := v2_norm _) in *. clearbody nn. unfold v2_dot, v2_add, v2_scale. cbn [v2x v2y]. field. exact NZ.
  - unfold v2_dot, v2_scale. cbn [v2x v2y]. ring.
Qed.
Lemma profile_growth kd x e : 0 < e -> 0 <= x -> 0 <= sliding_profile kd x e /\ 0 <= sliding_profile kd x e + sliding_profile_derivative kd x e * x /\ sliding_profile_derivative kd x e <= 0.
Proof.
  intros E X. unfold sliding_profile, sliding_profile_derivative. destruct kd; cbv zeta.
  - set (d := x + 1 / 10 * e). assert (D : 0 < d) by (unfold d; lra). assert (I : 0 < / d) by (apply Rinv_0_lt_compat, D). refine (conj _ (conj _ _)).
    + unfold Rdiv. nra.
    + replace (1 / d + - 1 / (d * d) * x) with ((d - x) * (/ d * / d)) by (field; lra). apply Rmult_le_pos; [unfold d; lra|nra].
    + replace (- 1 / (d * d)) with (- (/ d * / d)) by (field; lra). nra.
  - assert (I : 0 < / e) by (apply Rinv_0_lt_compat, E). destruct (Rlt_dec x e) as [P|P]; refine (conj _ (conj _ _)).
    + replace ((2 - x / e) / e) with ((2 * e - x) * (/ e * / e)) by (field; lra). apply Rmult_le_pos; [lra|nra].
    + replace ((2 - x / e) / e + - 1 / (e * e) * x) with (2 * (e - x) * (/ e * / e)) by (field; lra). apply Rmult_le_pos; [lra|nra].
    + replace (- 1 / (e * e)) with (- (/ e * / e)) by (field; lra). nra.
    + assert (0 < / x) by (apply Rinv_0_lt_compat; lra). unfold Rdiv. lra.
    + replace (1 / x + - 1 / (x * x) * x) with 0 by (field; lra). lra.
    + assert (0 < / x) by (apply Rinv_0_lt_compat; lra). replace (- 1 / (x * x)) with (- (/ x * / x)) by (field; lra). nra.
Qed.
Lemma cauchy_plane (w u : v2) : v2_dot w u * v2_dot w u <= v2_norm w * v2_norm w * v2_dot u u.
Proof.
  unfold v2_norm. rewrite sqrt_sqrt by (unfold v2_dot; nra). destruct w as [a b], u as [x y]. unfold v2_dot. cbn [v2x v2y]. pose proof (Rle_0_sqr (a * y - b * x)) as H. unfold Rsqr in H. nra.
Qed.
Lemma law_semidefinite kd fp w lam u : valid_params fp -> fp_static fp = fp_dynamic fp -> 0 <= lam -> 0 <= v2_dot u (friction_jacobian_mul kd w lam fp u).
Proof.
  intros (He & Hd & _ & Hv & _) ES HL. unfold friction_jacobian_mul. cbv zeta. rewrite ES. assert (NW : 0 <= v2_norm w) by apply sqrt_pos. destruct (profile_growth kd (v2_norm w) (fp_epsilon fp) He NW) as (S0 & S1 & S2). pose proof (cauchy_plane w u) as CS.
  assert (UU : 0 <= v2_dot u u) by (unfold v2_dot; nra). set (s := sliding_profile _ _ _) in *. set (ds := sliding_profile_derivative _ _ _) in *. set (h := falloff _ _). set (dh := dfalloff _ _). clearbody s ds h dh.
  assert (MS : 0 <= fp_dynamic fp * lam) by nra.
  destruct (Rlt_dec 0 (v2_norm w)) as [P|P].
  - assert (EQ : forall nn, nn <> 0 -> v2_dot u (v2_add (v2_scale (fp_viscous fp + (fp_dynamic fp + (fp_dynamic fp - fp_dynamic fp) * h) * s * lam) u) (v2_scale ((fp_dynamic fp * ds + (fp_dynamic fp - fp_dynamic fp) * (dh * s + h * ds)) * (v2_dot w u * lam / nn)) w))
      = fp_viscous fp * v2_dot u u + fp_dynamic fp * lam * (s * v2_dot u u + ds * (v2_dot w u * v2_dot w u * / nn))).
    { intros nn NZ. destruct u as [u1 u2], w as [w1 w2]. unfold v2_dot, v2_add, v2_scale. cbn [v2x v2y]. field. exact NZ. }
    rewrite EQ by lra. set (nn := v2_norm w) in *. assert (B : v2_dot w u * v2_dot w u * / nn <= nn * v2_dot u u).
    { apply (Rmult_le_reg_r nn); [exact P|]. replace (v2_dot w u * v2_dot w u * / nn * nn) with (v2_dot w u * v2_dot w u) by (field; lra). nra. }
    set (q := v2_dot w u * v2_dot w u * / nn) in *. clearbody q nn. set (uu := v2_dot u u) in *. clearbody uu.
    assert (T : 0 <= s * uu + ds * q) by nra. apply Rplus_le_le_0_compat; apply Rmult_le_pos; assumption.
  - replace (v2_dot u (v2_scale (fp_viscous fp + (fp_dynamic fp + (fp_dynamic fp - fp_dynamic fp) * h) * s * lam) u)) with ((fp_viscous fp + fp_dynamic fp * lam * s) * v2_dot u u) by (unfold v2_dot, v2_scale; cbn [v2x v2y]; ring).
    apply Rmult_le_pos; [|exact UU]. apply Rplus_le_le_0_compat; [exact Hv|]. apply Rmult_le_pos; assumption.
Qed.
Lemma plane_dot f x w : v3_dot (from_contact_coordinates f (plane w)) x = v2_dot w (to_tangent_space f x).
Proof. rewrite dot_comm, <- frame_adjoint. unfold to_tangent_space, plane, v3_dot, v2_dot. cbn [vx vy vz v2x v2y]. ring. Qed.

(** ** Rows of the contact matrices *)
Lemma block_line L (x y : nat -> v3) s r : block_product L (fun j => v3_line (x j) (y j) s) r = v3_line (block_product L x r) (block_product L y r) s.
Proof.
  unfold block_product, v3_line. rewrite <- vsum_scale, <- vsum_plus. apply vsum_ext. intros [[i j] B] _. destruct (Nat.eqb i r); [rewrite mulv_plus, mulv_scale_r; reflexivity|]. apply v3_eq; unv; ring.
Qed.
Lemma pull_line c L x y s k : pull_form c L (fun j => v3_line (x j) (y j) s) k = v3_line (pull_form c L x k) (pull_form c L y k) s.
Proof.
  unfold pull_form. rewrite (block_line L (fun v => x (sv c v)) (fun v => y (sv c v)) s). generalize (block_product L (fun v => x (sv c v)) (nth k (filled (ct_topo c)) 0%nat)) (block_product L (fun v => y (sv c v)) (nth k (filled (ct_topo c)) 0%nat)).
  intros a b. unfold v3_line. apply v3_eq; unv; ring.
Qed.
Lemma tangent_line f x y s : to_tangent_space f (v3_line x y s) = v2_line (to_tangent_space f x) (to_tangent_space f y) s.
Proof.
  unfold to_tangent_space, to_contact_coordinates, v3_line, v2_line. rewrite mulv_plus, mulv_scale_r. generalize (m3_mulv (contact_basis_matrix f) x) (m3_mulv (contact_basis_matrix f) y). intros [a1 a2 a3] [b1 b2 b3]. unfold v2_add, v2_scale, v3_add, v3_scale. cbn. reflexivity.
Qed.

Section Energy.
Variable iamax : v3 -> nat.
Variable ord : list nat -> list nat.
Hypothesis OK : lists_the_set ord.
Variable n : nat.
Variable st : friction_state.
Hypothesis RS : reached iamax ord n st.
Let c := fs_contact st.
Let t := ct_topo c.
Let N := length (filled t).
Let act k := nth k (filled t) 0%nat.
Let SH : contact_shape c n := proj1 (reached_facts iamax ord n st OK RS).
Let D : described iamax ord c n st := proj2 (proj2 (reached_facts iamax ord n st OK RS)).
Variable L : blocks.
Hypothesis EL : contact_matrices t (ct_points c) = Some L.
Lemma known_slips v : length v = n -> contact_mul (friction_maps st) v = map (pull_form c L (at3 v)) (seq 0 N).
Proof. intros LV. exact (velocities_known iamax ord c n SH v st L D LV EL). Qed.
Lemma pull_within U k : (k < N)%nat -> pull_form c L (at3 (map U (seq 0 n))) k = pull_form c L U k.
Proof.
  intros K. assert (W : forall v, (v < n)%nat -> at3 (map U (seq 0 n)) v = U v) by (intros v Lv; unfold at3; apply nth_map_seq, Lv). unfold pull_form. f_equal.
  - unfold block_product. apply vsum_ext. intros [[i j] B] I. destruct (Nat.eqb i _); [|reflexivity]. f_equal. apply W. apply (vertex_range c n SH). left. unfold sv. apply nth_In. rewrite (LSV c n SH). exact (matrices_columns c n L SH EL _ I).
  - apply W. apply (vertex_range c n SH). right. unfold cv. apply nth_In. rewrite (LCV c n SH). apply (filled_range c n SH). apply nth_In, K.
Qed.
Lemma push_pull y U : pairing N y (pull_form c L U) = pairing n (push_form c L y) U.
Proof.
  destruct D as (D1 & D2 & D3 & D4 & D5 & _). destruct (state_action iamax ord c n SH st D) as (L' & EL' & _ & PS & _). assert (L' = L) by (unfold t in EL; congruence). subst L'.
  destruct (contact_gradient_adjoint t (ct_points c) (filled t) (ct_surface c) (ct_collider c) n (fs_jacobian st) (WF c n SH) (IOK c n SH) (LPN c n SH) (filled_nodup c) (filled_range c n SH) (LSV c n SH) (LCV c n SH) (fun i I => vertex_range c n SH i (or_introl I)) (fun i I => vertex_range c n SH i (or_intror I)) D4) as (g & EG & _ & P).
  unfold t in EG. rewrite D5 in EG. injection EG as <-. assert (LU : length (map U (seq 0 n)) = n) by (rewrite map_length, seq_length; reflexivity). specialize (P (map U (seq 0 n)) y LU).
  assert (EM : {| cm_matrix := stored (fs_jacobian st); cm_constrained := filled t; cm_surface := ct_surface c; cm_collider := ct_collider c |} = friction_maps st) by (unfold friction_maps; rewrite D2; reflexivity).
  rewrite EM, (known_slips _ LU) in P. fold N in P. transitivity (pairing N y (fun k => nth k (map (pull_form c L (at3 (map U (seq 0 n)))) (seq 0 N)) v3_0)); [|etransitivity; [exact P|]].
  - unfold pairing. apply rsum_ext. intros k K. apply in_seq in K. rewrite nth_map_seq by lia. rewrite pull_within by lia. reflexivity.
  - unfold pairing. apply rsum_ext. intros i I. apply in_seq in I. rewrite nth_map_seq by lia. f_equal. apply PS.
Qed.

Variable o : friction_options.
Let kd := fo_profile o.
Let fp := fo_params o.
Let fr k := frame_at iamax c (act k).
Let lam k := lam_at c (act k).
Let slip v k := to_tangent_space (fr k) (pull_form c L v k).
Lemma energy_form v dqdv : length v = n -> friction_energy o st v dqdv = rsum (map (fun k => friction_potential kd (slip (at3 v) k) (lam k) fp) (seq 0 N)) * dqdv.
Proof.
  intros LV. unfold friction_energy. rewrite (known_slips v LV).
  assert (EC : combine (map (pull_form c L (at3 v)) (seq 0 N)) (combine (fs_lambda st) (fs_frames st)) = map (fun k => (pull_form c L (at3 v) k, (lam k, fr k))) (seq 0 N)) by exact (contacts_known iamax ord c n SH v st L D).
  rewrite EC, map_map. reflexivity.
Qed.
Hypothesis SEP : separate_sides c.
Lemma force_pairing v U : length v = n -> pairing n (fun i => nth i (compute_friction_force o st v) v3_0) U = - rsum (map (fun k => v2_dot (friction_profile kd (slip (at3 v) k) (lam k) fp) (slip U k)) (seq 0 N)).
Proof.
  intros LV. transitivity (pairing n (fun i => push_form c L (fun k => v3_scale (-1) (push_at iamax c kd fp L v k)) i) U).
  - unfold pairing. apply rsum_ext. intros i I. apply in_seq in I. f_equal. rewrite push_scale. apply (force_form iamax ord c n SH st D o v i L SEP EL LV). lia.
  - assert (E : pairing n (push_form c L (fun k => v3_scale (-1) (push_at iamax c kd fp L v k))) U = pairing N (fun k => v3_scale (-1) (push_at iamax c kd fp L v k)) (pull_form c L U)) by (symmetry; apply push_pull). etransitivity; [exact E|]. unfold pairing.
    rewrite (rsum_ext _ (fun k => (-1) * v2_dot (friction_profile kd (slip (at3 v) k) (lam k) fp) (slip U k))).
    + rewrite rsum_scale. ring.
    + intros k _. assert (EP : push_at iamax c kd fp L v k = from_contact_coordinates (fr k) (plane (friction_profile kd (slip (at3 v) k) (lam k) fp))) by reflexivity. rewrite EP.
      transitivity ((-1) * v3_dot (from_contact_coordinates (fr k) (plane (friction_profile kd (slip (at3 v) k) (lam k) fp))) (pull_form c L U k)).
      * match goal with |- v3_dot (v3_scale _ ?a) ?b = _ => generalize a b end. intros a b. unfold v3_dot, v3_scale. cbn [vx vy vz]. ring.
      * f_equal. apply plane_dot.
Qed.
Lemma slip_line v U k h : length v = n -> (k < N)%nat -> slip (at3 (mesh_line v U h)) k = v2_line (slip (at3 v) k) (slip U k) h.
Proof.
  intros LV K. unfold slip. rewrite <- tangent_line, <- pull_line. f_equal. rewrite <- (pull_within (fun j => v3_line (at3 v j) (U j) h) k K), <- (pull_within (at3 (mesh_line v U h)) k K). f_equal. f_equal. apply map_ext_in. intros i I. apply in_seq in I. unfold at3. apply (mesh_nth c). lia.
Qed.
Lemma rsum_derive (f : nat -> R -> R) (l : nat -> R) ks : (forall k, In k ks -> is_derive (f k) 0 (l k)) -> is_derive (fun h => rsum (map (fun k => f k h) ks)) 0 (rsum (map l ks)).
Proof.
  induction ks as [|k ks IH]; intros H; [apply (is_derive_ext (fun _ => 0)); [intros; reflexivity|apply @is_derive_const]|]. cbn [map]. rewrite rsum_cons.
  apply (is_derive_ext (fun h => f k h + rsum (map (fun k => f k h) ks))); [intros h; cbn [map]; rewrite rsum_cons; reflexivity|]. apply @is_derive_plus; [apply H; left; reflexivity|]. apply IH. intros j J. apply H. right. exact J.
Qed.
Lemma energy_gradient v U dqdv : length v = n -> 0 < fp_epsilon fp -> plain_params fp ->
  is_derive (fun h => fp_dynamic fp * friction_energy o st (mesh_line v U h) dqdv) 0 (- dqdv * pairing n (fun i => nth i (compute_friction_force o st v) v3_0) U).
Proof.
  intros LV EP PP. rewrite (force_pairing v U LV).
  apply (is_derive_ext (fun h => dqdv * rsum (map (fun k => fp_dynamic fp * friction_potential kd (v2_line (slip (at3 v) k) (slip U k) h) (lam k) fp) (seq 0 N)))).
  - intros h. rewrite energy_form by (rewrite (mesh_length c); exact LV). rewrite rsum_scale. rewrite (rsum_ext (fun k => friction_potential kd (slip (at3 (mesh_line v U h)) k) (lam k) fp) (fun k => friction_potential kd (v2_line (slip (at3 v) k) (slip U k) h) (lam k) fp)).
    + match goal with |- dqdv * (_ * ?x) = _ => generalize x end. intros x. change (@eq R (dqdv * (fp_dynamic fp * x)) (fp_dynamic fp * (x * dqdv))). ring.
    + intros k K. apply in_seq in K. rewrite slip_line by (try exact LV; lia). reflexivity.
  - match goal with |- is_derive _ _ (- dqdv * - ?x) => replace (- dqdv * - x) with (dqdv * x) by (generalize x; intros; ring) end. apply (is_derive_scal _ 0 dqdv).
    apply (rsum_derive (fun k h => fp_dynamic fp * friction_potential kd (v2_line (slip (at3 v) k) (slip U k) h) (lam k) fp)). intros k _. exact (potential_gradient kd (slip (at3 v) k) (slip U k) (lam k) fp EP PP).
Qed.
Lemma power_sign v : length v = n -> valid_params fp -> 0 <= ct_kappa c -> pairing n (fun i => nth i (compute_friction_force o st v) v3_0) (at3 v) <= 0.
Proof.
  intros LV VP KP. rewrite (force_pairing v (at3 v) LV). apply Ropp_le_cancel. rewrite Ropp_involutive, Ropp_0. apply rsum_nonneg. intros x I. apply in_map_iff in I. destruct I as (k & <- & _).
  assert (DP : 0 < ct_delta c) by apply SH. apply (friction_opposes kd (slip (at3 v) k) (lam k) fp VP). apply (multiplier_one (ct_delta c) (ct_kappa c)); assumption.
Qed.

(** The lagged Jacobian. *)
Lemma lagged_form cur v dqdv m J U W : length v = n -> (m <= n)%nat -> fo_lagged o = true -> friction_jacobian_blocks iamax ord o st cur v dqdv m = Some J ->
  (forall i, (m <= i)%nat -> U i = v3_0) -> (forall i, (m <= i)%nat -> W i = v3_0) ->
  pairing m U (block_product J W) = rsum (map (fun k => v2_dot (slip U k) (friction_jacobian_mul kd (slip (at3 v) k) (lam k) fp (slip W k))) (seq 0 N)).
Proof.
  intros LV MN OL E UZ WZ.
  assert (EV : contact_mul (friction_maps st) v = map (fun k => pull_form c L (at3 v) k) (seq 0 N)) by exact (known_slips v LV).
  assert (EC : combine (map (fun k => pull_form c L (at3 v) k) (seq 0 N)) (combine (fs_lambda st) (fs_frames st)) = map (fun k => (pull_form c L (at3 v) k, (lam k, fr k))) (seq 0 N)) by exact (contacts_known iamax ord c n SH v st L D).
  unfold friction_jacobian_blocks in E. rewrite OL in E. cbv zeta in E. rewrite EV, EC in E. injection E as <-.
  set (y := fun k => from_contact_coordinates (fr k) (m3_mulv (eta_matrix kd fp (slip (at3 v) k) (lam k)) (to_contact_coordinates (fr k) (pull_form c L W k)))).
  transitivity (pairing n (push_form c L y) U).
  - transitivity (pairing m (push_form c L y) U).
    + unfold pairing. apply rsum_ext. intros i I. apply in_seq in I. rewrite within_apply by (try assumption; lia). rewrite dot_comm. f_equal. exact (lagged_action iamax ord c n SH v m st o L D LV MN EL W i WZ).
    + unfold pairing. replace n with (m + (n - m))%nat by lia. rewrite seq_app, map_app, rsum_app. rewrite (rsum_ext _ (fun _ => 0 * 0) (seq (0 + m) (n - m))).
      * rewrite rsum_scale. ring.
      * intros i I. apply in_seq in I. rewrite UZ by lia. rewrite dot_0_r. ring.
  - etransitivity; [symmetry; apply push_pull|]. unfold pairing. apply rsum_ext. intros k _. unfold y. rewrite eta_apply.
    match goal with |- v3_dot (from_contact_coordinates ?f (plane ?w)) ?x = _ => etransitivity; [apply (plane_dot f x w)|] end. unfold slip at 1. unfold v2_dot. rewrite (Rmult_comm (v2x _)), (Rmult_comm (v2y _)). reflexivity.
Qed.
End Energy.
