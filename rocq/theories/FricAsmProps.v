(** Properties of friction assembled over the mesh. *)
From Coq Require Import Reals List Bool Lra Lia Psatz Sorting.Sorted.
From Coquelicot Require Import Coquelicot.
From Verif Require Import Vec3 Mat3 RList KernelModel KernelSpec FieldModel FieldSpec FieldProofs NeighborModel NeighborSpec NeighborProofs UpdateProps SurfJacModel SurfJacSpec SurfJacProofs SurfJacProps HessModel HessSpec SurfHessSpec ContactModel ContactJacModel ContactJacSpec ContactMapModel ContactMapSpec ContactMapProofs
  AssemblyModel ContactAsmModel ContactAsmSpec ContactDerivModel ContactDerivSpec ContactDerivProps BasisJacModel BasisJacSpec BasisJacProps
  ContactHessModel ContactHessSpec ContactHessProofs ContactRowProofs ContactMoveProofs FrictionModel FrictionSpec FricAsmModel FricAsmSpec FricForceSpec FricStateProofs FricActProofs FricFormProofs FricMoveProofs FricJacProofs FricTotalProofs ContactJacProps HessProps ContactMapProps.
Import ListNotations.
Local Open Scope R_scope.

(** C167.  The friction Jacobian holds the negative derivatives of the friction force on the vertices in their velocities, positions
    moving with [dqdv] times the velocities: sliding velocities, normal forces, bases and contact matrices all follow. *)
Theorem friction_jacobian_is_derivative : forall iamax ord s prev o X V dqdv, let n := length X in let c := fs_contact s in
  picks_largest iamax -> lists_the_set ord -> reached iamax ord n s -> at_positions c X -> length V = n ->
  separate_sides c -> smooth_contacts c -> steady_bases c ->
  fo_lagged o = false -> fo_incomplete o = false -> valid_params (fo_params o) -> fp_viscous (fo_params o) = 0 -> smooth_velocities (fo_params o) s V ->
  exists J, friction_jacobian iamax ord o prev s V dqdv n = Some J /\
    (forall e, In e J -> (fst (fst e) < 3 * n)%nat /\ (snd (fst e) < 3 * n)%nat) /\
    forall U rb i, respects c U -> (i < 3 * n)%nat ->
      is_derive (fun h => coordinate (force_at iamax o s rb (mesh_line X (fun v => v3_scale dqdv (U v)) h) (mesh_line V U h)) i) 0 (- matrix_times (3 * n) J (coordinate U) i).
Proof.
  intros iamax ord s prev o X V dqdv n c PK OK RS AT LV SEP SC SB OL OI VP VI SV.
  destruct (full_derivative iamax PK ord OK n s RS V LV SEP o VP SV SC X AT eq_refl SB prev dqdv OL OI VI) as (J & EJ & M). pose proof (blocks_within _ _ _ _ _ _ _ _ _ EJ) as BW.
  exists (flat_map scalar_entries J). unfold friction_jacobian. rewrite EJ. split; [reflexivity|]. split.
  { intros e He. apply in_flat_map in He. destruct He as (h & Hh & He). destruct (BW h Hh). apply (scalar_range n h e); assumption. }
  intros U rb i RE I. destruct (reached_facts iamax ord n s OK RS) as (SH & _).
  rewrite <- (times_ext _ _ (coordinate (within_mesh n U)) (coordinate U)) by (intros j Lj; apply within_coordinate; exact Lj). rewrite matrix_times_blocks by exact BW. rewrite <- coordinate_neg.
  apply (is_derive_ext (fun h => coordinate (force_at iamax o s rb (mesh_line X (fun v => v3_scale dqdv (within_mesh n U v)) h) (mesh_line V (within_mesh n U) h)) i)).
  - intros h. rewrite (within_line n V) by lia. replace (mesh_line X (fun v => v3_scale dqdv (within_mesh n U v)) h) with (mesh_line X (fun v => v3_scale dqdv (U v)) h); [reflexivity|].
    rewrite <- (within_line n X (fun v => v3_scale dqdv (U v))) by lia. unfold mesh_line. apply map_ext. intros [v x]. cbn [fst snd]. f_equal. unfold within_mesh. destruct (Nat.ltb v n); [reflexivity|symmetry; apply FricAlgProofs.scale_0_r || (apply v3_eq; unv; ring)].
  - apply (moves_coordinate (fun h v => force_at iamax o s rb _ _ v) _ n i); [|exact I]. intros v Lv. apply (M (within_mesh n U) rb v); [|exact (within_respects c n U SH RE)|exact Lv]. intros w Hw. unfold within_mesh. destruct (Nat.ltb_spec w n); [lia|reflexivity].
Qed.

(** C168.  Lagged: with contacts, normal forces and bases of the previous state, the Jacobian holds the negative derivatives of the force
    in the velocities of the [m] vertices that may move, viscosity included. *)
Theorem lagged_friction_jacobian_is_derivative : forall iamax ord s cur o n V dqdv m, let c := fs_contact s in
  lists_the_set ord -> reached iamax ord n s -> length V = n -> (m <= n)%nat -> separate_sides c ->
  fo_lagged o = true -> valid_params (fo_params o) -> smooth_velocities (fo_params o) s V ->
  exists J, friction_jacobian iamax ord o s cur V dqdv m = Some J /\
    (forall e, In e J -> (fst (fst e) < 3 * m)%nat /\ (snd (fst e) < 3 * m)%nat) /\
    forall U i, (forall v, (m <= v)%nat -> U v = v3_0) -> (i < 3 * m)%nat ->
      is_derive (fun h => coordinate (fun v => nth v (compute_friction_force o s (mesh_line V U h)) v3_0) i) 0 (- matrix_times (3 * m) J (coordinate U) i).
Proof.
  intros iamax ord s cur o n V dqdv m c OK RS LV MN SEP OL VP SV.
  destruct (lagged_derivative iamax ord OK n s RS V LV SEP o VP SV cur dqdv m MN OL) as (J & EJ & M). pose proof (blocks_within _ _ _ _ _ _ _ _ _ EJ) as BW.
  exists (flat_map scalar_entries J). unfold friction_jacobian. rewrite EJ. split; [reflexivity|]. split.
  { intros e He. apply in_flat_map in He. destruct He as (h & Hh & He). destruct (BW h Hh). apply (scalar_range m h e); assumption. }
  intros U i UZ I. rewrite matrix_times_blocks by exact BW. rewrite <- coordinate_neg.
  apply (moves_coordinate (fun h v => nth v (compute_friction_force o s (mesh_line V U h)) v3_0) _ m i); [|exact I]. intros v Lv. apply (M U v UZ Lv).
Qed.

(** C169.  The incomplete Jacobian holds the negative derivatives of the force when sliding velocities and normal forces follow the
    motion, contact matrices and bases being those of the current state. *)
Theorem incomplete_friction_jacobian_is_derivative : forall iamax ord s prev o X V dqdv m, let n := length X in let c := fs_contact s in
  lists_the_set ord -> reached iamax ord n s -> at_positions c X -> length V = n -> (m <= n)%nat ->
  separate_sides c -> smooth_contacts c ->
  fo_lagged o = false -> fo_incomplete o = true -> valid_params (fo_params o) -> fp_viscous (fo_params o) = 0 -> smooth_velocities (fo_params o) s V ->
  exists J, friction_jacobian iamax ord o prev s V dqdv m = Some J /\
    (forall e, In e J -> (fst (fst e) < 3 * m)%nat /\ (snd (fst e) < 3 * m)%nat) /\
    forall U rb i, (forall v, (m <= v)%nat -> U v = v3_0) -> respects c U -> (i < 3 * m)%nat ->
      is_derive (fun h => coordinate (pressed_force_at o s rb (mesh_line X (fun v => v3_scale dqdv (U v)) h) (mesh_line V U h)) i) 0 (- matrix_times (3 * m) J (coordinate U) i).
Proof.
  intros iamax ord s prev o X V dqdv m n c OK RS AT LV MN SEP SC OL OI VP VI SV.
  destruct (incomplete_derivative iamax ord OK n s RS V LV SEP o VP SV SC X AT eq_refl prev dqdv m MN OL OI VI) as (J & EJ & M). pose proof (blocks_within _ _ _ _ _ _ _ _ _ EJ) as BW.
  exists (flat_map scalar_entries J). unfold friction_jacobian. rewrite EJ. split; [reflexivity|]. split.
  { intros e He. apply in_flat_map in He. destruct He as (h & Hh & He). destruct (BW h Hh). apply (scalar_range m h e); assumption. }
  intros U rb i UZ RE I. rewrite matrix_times_blocks by exact BW. rewrite <- coordinate_neg.
  apply (moves_coordinate (fun h v => pressed_force_at o s rb _ _ v) _ m i); [|exact I]. intros v Lv. apply (M U rb v UZ RE Lv).
Qed.

(** ** A point that slides over two triangles *)
Definition slide : contact := Contact (flat_topo SFace) [above] [0; 1; 2; 3]%nat [4%nat] false false 0 1 3.
Definition slide_at : list v3 := [V3 0 0 0; V3 1 0 0; V3 0 1 0; V3 1 1 0; above].
Definition slide_with : list v3 := [v3_0; v3_0; v3_0; V3 0 0 1; V3 1 2 0].
Definition rubber : friction_params := {| fp_dynamic := 1 / 2; fp_static := 1 / 2; fp_viscous := 0; fp_stribeck := 1; fp_epsilon := 1 / 100 |}.
Definition rub (lagged incomplete : bool) : friction_options := FrictionOptions Stabilized rubber lagged incomplete.
Lemma slide_shape n : (5 <= n)%nat -> contact_shape slide n /\ in_place (q_base (ct_topo slide)).
Proof.
  intros L. destruct (flat_ok SFace) as (A & B & C & _). split; [|exact C]. unfold contact_shape. cbv zeta. cbn [slide ct_topo ct_points ct_surface ct_collider ct_delta].
  split; [reflexivity|]. split; [exact A|]. split; [exact B|]. split; [rewrite flat_kernel; exact flat_cubic|]. split; [exact (flat_indices SFace)|].
  split; [intros l [<-|[]]; repeat constructor; cbn; intuition discriminate|]. split; [reflexivity|]. split; [reflexivity|]. split; [reflexivity|]. split; [reflexivity|].
  split; [repeat constructor|]. split; [|lra]. intros v [H|H]; cbn in H; repeat destruct H as [<-|H]; try lia; destruct H.
Qed.
Lemma slide_positions : at_positions slide slide_at.
Proof. split; reflexivity. Qed.
Lemma slide_points : smooth_contacts slide.
Proof. split; [reflexivity|]. intros r Hr. cbn in Hr. destruct Hr as [<-|[]]. exact flat_contact. Qed.
Lemma flat_gradient : query_jacobian_at above (sb_samples (flat SFace)) [0; 1]%nat None (Cubic 1) (sb_bg (flat SFace)) = Some (V3 0 0 1).
Proof.
  destruct (contact_map_flat above (sb_samples (flat SFace)) [0; 1]%nat (Cubic 1) (sb_bg (flat SFace)) (V3 0 0 1) flat_cubic) as (ms & c & _ & G & _); [..|exact G].
  - discriminate.
  - intros i Hi. apply (flat_regular SFace i Hi).
  - reflexivity.
  - exists 0%nat. split; [left; reflexivity|]. cbn [support]. assert (RC : v3_norm (away (sb_samples (flat SFace)) above 0) < 1); [|exact RC]. apply Rsqr_incrst_0; [|apply sqrt_pos|lra]. unfold v3_norm. rewrite Rsqr_sqrt by (unfold v3_dot; nra). unfold away. rewrite smp_pos. destruct flat_faces as [-> _]. unfold Rsqr, v3_dot, v3_sub, above. cbn. lra.
  - exact flat_level.
Qed.
Lemma slide_rows : crows slide = [(0%nat, (above, [0; 1]%nat))].
Proof. reflexivity. Qed.
Lemma slide_gradient : jcol slide (0%nat, (above, [0; 1]%nat)) = V3 0 0 1.
Proof. unfold jcol, csamples, cbase. cbn [fst snd slide ct_topo]. rewrite flat_kernel. change (q_base (flat_topo SFace)) with (flat SFace). rewrite flat_gradient. reflexivity. Qed.
Lemma slide_steady : steady_bases slide.
Proof.
  intros L E e I. destruct (slide_shape 5 (le_n 5)) as [SH _]. pose proof (query_rows slide 5 SH) as Q. rewrite slide_rows in Q. cbn [map fst] in Q. rewrite slide_gradient in Q. assert (EL : L = [(0%nat, 0%nat, V3 0 0 1)]) by congruence. rewrite EL in I. destruct I as [<-|[]]. cbn [snd]. split.
  - intros H. injection H. lra.
  - exists 2%nat. split; [lia|]. intros j J N. destruct j as [|[|[|j]]]; try lia; cbn [v3_get vx vy vz]; rewrite Rabs_R0, Rabs_R1; lra.
Qed.
Lemma slide_sides : separate_sides slide.
Proof. split; [repeat constructor; intros []|]. intros v H [<-|[]]. cbn in H. intuition discriminate. Qed.
Lemma rubber_smooth w : smooth_sliding rubber w.
Proof.
  assert (E : w = V2 0 0 \/ w <> V2 0 0). { destruct w as [x y]. destruct (Req_EM_T x 0) as [->|N]; [destruct (Req_EM_T y 0) as [->|N]; [left; reflexivity|]|]; right; intros H; injection H; intros; contradiction. }
  destruct E as [->|N]; [left|right]; (split; [assumption || reflexivity|]); left; reflexivity.
Qed.
Lemma rubber_valid : valid_params rubber /\ fp_viscous rubber = 0.
Proof. split; [|reflexivity]. unfold valid_params, rubber. cbn. lra. Qed.
Lemma slide_state : exists s, precompute_friction first_largest (nodup Nat.eq_dec) slide 5 = Some s /\ fs_contact s = slide /\ fs_active s = [0%nat] /\ fs_frames s = [contact_frame first_largest (V3 0 0 1)] /\ reached first_largest (nodup Nat.eq_dec) 5 s.
Proof.
  destruct (slide_shape 5 (le_n 5)) as [SH PL]. destruct (precompute_described first_largest (nodup Nat.eq_dec) sorted_listing slide 5 SH) as (s & E & D). exists s. split; [exact E|]. split; [apply D|]. split; [apply D|]. split; [|exact (reached_built _ _ _ slide s SH PL E)].
  assert (EF : fs_frames s = frames_of first_largest slide) by apply D. rewrite EF. unfold frames_of. rewrite slide_rows. cbn [map]. rewrite slide_gradient. reflexivity.
Qed.
(** The hypotheses of C167, C168 and C169 hold of one state; the Jacobians exist. *)
Example friction_jacobian_ex : exists s J, precompute_friction first_largest (nodup Nat.eq_dec) slide 5 = Some s /\ fs_active s = [0%nat] /\ friction_jacobian first_largest (nodup Nat.eq_dec) (rub false false) s s slide_with (1 / 10) 5 = Some J /\
  forall U rb i, (i < 15)%nat -> is_derive (fun h => coordinate (force_at first_largest (rub false false) s rb (mesh_line slide_at (fun v => v3_scale (1 / 10) (U v)) h) (mesh_line slide_with U h)) i) 0 (- matrix_times 15 J (coordinate U) i).
Proof.
  destruct slide_state as (s & E & EC & EA & _ & RS). destruct (friction_jacobian_is_derivative first_largest (nodup Nat.eq_dec) s s (rub false false) slide_at slide_with (1 / 10)) as (J & EJ & _ & M); rewrite ?EC; try reflexivity.
  - exact first_largest_picks.
  - exact sorted_listing.
  - exact RS.
  - exact slide_positions.
  - exact slide_sides.
  - exact slide_points.
  - exact slide_steady.
  - apply rubber_valid.
  - intros p _. apply rubber_smooth.
  - exists s, J. refine (conj E (conj EA (conj EJ _))). intros U rb i I. apply M; [|exact I]. rewrite EC. split; intros H; discriminate H.
Qed.
Example lagged_friction_jacobian_ex : exists s J, precompute_friction first_largest (nodup Nat.eq_dec) slide 5 = Some s /\ friction_jacobian first_largest (nodup Nat.eq_dec) (rub true false) s s slide_with (1 / 10) 4 = Some J /\
  forall U i, (forall v, (4 <= v)%nat -> U v = v3_0) -> (i < 12)%nat -> is_derive (fun h => coordinate (fun v => nth v (compute_friction_force (rub true false) s (mesh_line slide_with U h)) v3_0) i) 0 (- matrix_times 12 J (coordinate U) i).
Proof.
  destruct slide_state as (s & E & EC & EA & _ & RS). destruct (lagged_friction_jacobian_is_derivative first_largest (nodup Nat.eq_dec) s s (rub true false) 5 slide_with (1 / 10) 4) as (J & EJ & _ & M); rewrite ?EC; try reflexivity.
  - exact sorted_listing.
  - exact RS.
  - lia.
  - exact slide_sides.
  - apply rubber_valid.
  - intros p _. apply rubber_smooth.
  - exists s, J. refine (conj E (conj EJ _)). intros U i UZ I. apply M; assumption.
Qed.
Example incomplete_friction_jacobian_ex : exists s J, precompute_friction first_largest (nodup Nat.eq_dec) slide 5 = Some s /\ friction_jacobian first_largest (nodup Nat.eq_dec) (rub false true) s s slide_with (1 / 10) 4 = Some J /\
  forall U rb i, (forall v, (4 <= v)%nat -> U v = v3_0) -> (i < 12)%nat -> is_derive (fun h => coordinate (pressed_force_at (rub false true) s rb (mesh_line slide_at (fun v => v3_scale (1 / 10) (U v)) h) (mesh_line slide_with U h)) i) 0 (- matrix_times 12 J (coordinate U) i).
Proof.
  destruct slide_state as (s & E & EC & EA & _ & RS). destruct (incomplete_friction_jacobian_is_derivative first_largest (nodup Nat.eq_dec) s s (rub false true) slide_at slide_with (1 / 10) 4) as (J & EJ & _ & M); rewrite ?EC; try reflexivity.
  - exact sorted_listing.
  - exact RS.
  - exact slide_positions.
  - cbn. lia.
  - exact slide_sides.
  - exact slide_points.
  - apply rubber_valid.
  - intros p _. apply rubber_smooth.
  - exists s, J. refine (conj E (conj EJ _)). intros U rb i UZ I. apply M; [exact UZ| |exact I]. rewrite EC. split; intros H; discriminate H.
Qed.

(** C167 and C169, finding: with viscosity the Jacobians are wrong, since the change of the normal forces multiplies the viscous part of
    the friction law, which does not depend on them. *)
Definition syrup : friction_params := {| fp_dynamic := 1 / 2; fp_static := 1 / 2; fp_viscous := 1; fp_stribeck := 1; fp_epsilon := 1 / 100 |}.
Definition slide_only : list v3 := [v3_0; v3_0; v3_0; v3_0; V3 1 2 0].
Definition rising (v : nat) : v3 := if Nat.eqb v 4 then V3 0 0 1 else v3_0.
Lemma syrup_smooth w : smooth_sliding syrup w.
Proof.
  assert (E : w = V2 0 0 \/ w <> V2 0 0). { destruct w as [x y]. destruct (Req_EM_T x 0) as [->|N]; [destruct (Req_EM_T y 0) as [->|N]; [left; reflexivity|]|]; right; intros H; injection H; intros; contradiction. }
  destruct E as [->|N]; [left|right]; (split; [assumption || reflexivity|]); left; reflexivity.
Qed.
Lemma slide_potential : 1 / 2 <= dpot slide (0%nat, (above, [0; 1]%nat)) <= 1 / 2.
Proof.
  assert (H : 1 / 2 <= potential_at above (sb_samples (flat SFace)) [0; 1]%nat (Cubic 1) (sb_bg (flat SFace)) 0 <= 1 / 2).
  { apply FieldProps.potential_of_planes; [exact flat_cubic| |reflexivity| |].
    - intros i Hi. destruct (flat_regular SFace i Hi) as (A & B & C). split; [exact A|]. cbn [support]. exact C.
    - exists 0%nat. split; [left; reflexivity|]. cbn [support]. assert (RC : v3_norm (away (sb_samples (flat SFace)) above 0) < 1); [|exact RC]. apply Rsqr_incrst_0; [|apply sqrt_pos|lra]. unfold v3_norm. rewrite Rsqr_sqrt by (unfold v3_dot; nra). unfold away. rewrite smp_pos. destruct flat_faces as [-> _]. unfold Rsqr, v3_dot, v3_sub, above. cbn. lra.
    - intros i Hi. unfold plane_value, away. assert (VZ : s_value (smp (sb_samples (flat SFace)) i) = 0) by (destruct Hi as [<-|[<-|[]]]; reflexivity). rewrite VZ, ?smp_pos, ?smp_nml. destruct flat_faces as [-> ->]. destruct Hi as [<-|[<-|[]]]; cbn [nth]; unfold v3_norm, v3_dot, v3_sub, above; cbn [vx vy vz]; replace (0 * 0 + 0 * 0 + 1 * 1) with 1 by ring; rewrite ?sqrt_1; lra. }
  unfold dpot, csamples, cbase. cbn [fst snd slide ct_topo ct_offset]. rewrite flat_kernel. change (q_base (flat_topo SFace)) with (flat SFace). lra.
Qed.

Lemma slide_normal : orthonormal (contact_frame first_largest (V3 0 0 1)) /\ fr_normal (contact_frame first_largest (V3 0 0 1)) = V3 0 0 (-1).
Proof.
  assert (N : v3_norm (V3 0 0 1) = 1) by (unfold v3_norm, v3_dot; cbn [vx vy vz]; replace (0 * 0 + 0 * 0 + 1 * 1) with 1 by ring; apply sqrt_1).
  assert (E : contact_normal (V3 0 0 1) = V3 0 0 (-1)) by (unfold contact_normal; rewrite N; destruct (Rlt_dec 0 1); [|lra]; apply v3_eq; unv; cbn [vx vy vz]; field).
  unfold contact_frame. rewrite E. assert (U : v3_dot (V3 0 0 (-1)) (V3 0 0 (-1)) = 1) by (unfold v3_dot; cbn [vx vy vz]; ring).
  destruct (first_largest_picks (V3 0 0 (-1))) as [I M]. destruct (contact_frame_from_normal (V3 0 0 (-1)) (first_largest (V3 0 0 (-1))) U I M) as (_ & A & B & _). split; assumption.
Qed.
Lemma slide_viscous s o L dqdv : fs_contact s = slide -> fo_params o = syrup -> push_form slide L (viscous_at first_largest s slide_only o L rising dqdv) 4 = v3_scale (- 9 * dqdv) (V3 1 2 0).
Proof.
  intros EC EO. unfold push_form. change (length (filled (ct_topo slide))) with 1%nat. change (length (sb_verts (cbase slide))) with 4%nat. cbn [seq map]. unfold sv, cv. cbn [slide ct_surface ct_collider ct_topo nth]. change (nth 0 (filled (flat_topo SFace)) 0%nat) with 0%nat. cbn [nth Nat.eqb].
  assert (EV : viscous_at first_largest s slide_only o L rising dqdv 0 = v3_scale (9 * dqdv) (V3 1 2 0)).
  { unfold viscous_at. cbv zeta. rewrite EC, EO. change (nth 0 (filled (ct_topo slide)) 0%nat) with 0%nat. change (row_at slide 0) with (0%nat, (above, [0; 1]%nat)).
    assert (EF : frame_at first_largest slide 0 = contact_frame first_largest (V3 0 0 1)) by (unfold frame_at, grad_at; change (row_at slide 0) with (0%nat, (above, [0; 1]%nat)); rewrite slide_gradient; reflexivity). rewrite EF.
    destruct slide_normal as [OR EN]. match goal with |- context [from_contact_coordinates ?f (plane (to_tangent_space ?f ?v))] => change (from_contact_coordinates f (plane (to_tangent_space f v))) with (from_tangent_space f (to_tangent_space f v)); rewrite <- (proj2 (proj2 (ContactJacProofs.project_out_spec f v OR))) end. rewrite EN.
    assert (EP : pull_form slide L (at3 slide_only) 0 = V3 (-1) (-2) 0).
    { unfold pull_form. change (nth 0 (filled (ct_topo slide)) 0%nat) with 0%nat. assert (Z : block_product L (fun v => at3 slide_only (sv slide v)) 0 = v3_0).
      { unfold block_product. apply ContactAsmProofs.vsum_zero. intros [[r cl] B] _. assert (Q : at3 slide_only (sv slide cl) = v3_0) by (unfold sv; destruct cl as [|[|[|[|[|cl]]]]]; reflexivity). rewrite Q. destruct (Nat.eqb r 0); [|reflexivity]. apply v3_eq; unfold m3_mulv, v3_dot, v3_0; cbn [vx vy vz]; ring. }
      rewrite Z. unfold cv. cbn [slide ct_collider nth]. unfold at3. cbn [slide_only nth]. apply v3_eq; unv; cbn [vx vy vz v3_0]; unfold v3_0; cbn [vx vy vz]; ring. }
    rewrite EP. assert (ER : rate1 slide rising (0%nat, (above, [0; 1]%nat)) = 1).
    { unfold rate1. rewrite slide_gradient. unfold mcol, cv. cbn [fst slide ct_collider nth]. change (rising 4) with (V3 0 0 1). rewrite (rsum_ext _ (fun _ => 0 * 0)). { rewrite rsum_scale. unfold v3_dot. cbn [vx vy vz]. ring. }
      intros e _. unfold mobj. assert (Q : rising (sv slide (fst e)) = v3_0) by (unfold sv; destruct (fst e) as [|[|[|[|[|cl]]]]]; reflexivity). unfold slide in Q |- *. rewrite Q. unfold v3_dot, v3_0. cbn [vx vy vz]. ring. }
    rewrite ER. assert (ED : dpot slide (0%nat, (above, [0; 1]%nat)) = 1 / 2) by (pose proof slide_potential; lra). rewrite ED. cbn [slide ct_delta ct_kappa syrup fp_viscous]. unfold penalty_ddb. destruct (Rlt_dec 0 (1 - 1 / 2)); [|lra].
    unfold project_out_normal. apply v3_eq; unfold v3_sub, v3_scale, v3_dot; cbn [vx vy vz]; field. }
  rewrite EV. rewrite !vsum_cons. unfold vsum. cbn [fold_right]. apply v3_eq; unv; unfold v3_0; cbn [vx vy vz]; ring.
Qed.

Theorem viscous_friction_jacobian_refuted : exists iamax ord s X V dqdv fp U i, let n := length X in let c := fs_contact s in
  picks_largest iamax /\ lists_the_set ord /\ reached iamax ord n s /\ at_positions c X /\ length V = n /\ separate_sides c /\ smooth_contacts c /\ steady_bases c /\
  valid_params fp /\ smooth_velocities fp s V /\ respects c U /\ (forall v, (n <= v)%nat -> U v = v3_0) /\ (i < 3 * n)%nat /\ 0 < fp_viscous fp /\
  let full := FrictionOptions Stabilized fp false false in let incomplete := FrictionOptions Stabilized fp false true in
  (exists J, friction_jacobian iamax ord full s s V dqdv n = Some J /\
    ~ is_derive (fun h => coordinate (force_at iamax full s false (mesh_line X (fun v => v3_scale dqdv (U v)) h) (mesh_line V U h)) i) 0 (- matrix_times (3 * n) J (coordinate U) i)) /\
  (exists J, friction_jacobian iamax ord incomplete s s V dqdv n = Some J /\
    ~ is_derive (fun h => coordinate (pressed_force_at incomplete s false (mesh_line X (fun v => v3_scale dqdv (U v)) h) (mesh_line V U h)) i) 0 (- matrix_times (3 * n) J (coordinate U) i)).
Proof.
  destruct slide_state as (s & E & EC & EA & _ & RS). exists first_largest, (nodup Nat.eq_dec), s, slide_at, slide_only, 1, syrup, rising, 13%nat. cbv zeta. rewrite EC.
  assert (UZ : forall v, (5 <= v)%nat -> rising v = v3_0) by (intros v H; unfold rising; destruct (Nat.eqb_spec v 4); [lia|reflexivity]).
  assert (RE : respects slide rising) by (split; intros H; discriminate H). assert (VP : valid_params syrup) by (unfold valid_params, syrup; cbn; lra). assert (SV : smooth_velocities syrup s slide_only) by (intros p _; apply syrup_smooth).
  refine (conj first_largest_picks (conj sorted_listing (conj RS (conj slide_positions (conj eq_refl (conj slide_sides (conj slide_points (conj slide_steady (conj VP (conj SV (conj RE (conj UZ (conj _ (conj _ (conj _ _))))))))))))))); [cbn; lia|cbn; lra| |].
  all: assert (SEP : separate_sides (fs_contact s)) by (rewrite EC; exact slide_sides); assert (SC : smooth_contacts (fs_contact s)) by (rewrite EC; exact slide_points); assert (SB : steady_bases (fs_contact s)) by (rewrite EC; exact slide_steady); assert (AT : placed (fs_contact s) slide_at) by (rewrite EC; exact slide_positions); assert (RE' : respects (fs_contact s) rising) by (rewrite EC; exact RE).
  all: destruct (reached_facts first_largest (nodup Nat.eq_dec) 5 s sorted_listing RS) as (SH & PL & D); destruct (state_action first_largest (nodup Nat.eq_dec) (fs_contact s) 5 SH s D) as (L & EL & _).
  - destruct (full_viscous first_largest first_largest_picks (nodup Nat.eq_dec) sorted_listing 5 s RS slide_only eq_refl SEP (FrictionOptions Stabilized syrup false false) VP SV SC slide_at AT eq_refl SB s 1 L EL eq_refl eq_refl) as (J & EJ & M).
    exists (flat_map scalar_entries J). change (length slide_at) with 5%nat. unfold friction_jacobian. rewrite EJ. split; [reflexivity|]. intros H. rewrite (matrix_times_blocks 5 J rising 13 (blocks_within _ _ _ _ _ _ _ _ _ EJ)) in H.
    pose proof (moves_coordinate _ _ 5 13 (fun v Lv => M rising false v UZ RE' Lv) ltac:(lia)) as H2. pose proof (eq_trans (eq_sym (is_derive_unique _ _ _ H2)) (is_derive_unique _ _ _ H)) as Q. clear - Q EC.
    change (coordinate ?f 13) with (vy (f 4%nat)) in Q. cbv beta in Q. rewrite EC, (slide_viscous s (FrictionOptions Stabilized syrup false false) L 1 EC eq_refl) in Q. unfold v3_scale, v3_add in Q. cbn [vx vy vz] in Q. lra.
  - destruct (incomplete_viscous first_largest (nodup Nat.eq_dec) sorted_listing 5 s RS slide_only eq_refl SEP (FrictionOptions Stabilized syrup false true) VP SV SC slide_at AT eq_refl s 1 5 L EL (le_n 5) eq_refl eq_refl) as (J & EJ & M).
    exists (flat_map scalar_entries J). change (length slide_at) with 5%nat. unfold friction_jacobian. rewrite EJ. split; [reflexivity|]. intros H. rewrite (matrix_times_blocks 5 J rising 13 (blocks_within _ _ _ _ _ _ _ _ _ EJ)) in H.
    pose proof (moves_coordinate _ _ 5 13 (fun v Lv => M rising false v UZ RE' Lv) ltac:(lia)) as H2. pose proof (eq_trans (eq_sym (is_derive_unique _ _ _ H2)) (is_derive_unique _ _ _ H)) as Q. clear - Q EC.
    change (coordinate ?f 13) with (vy (f 4%nat)) in Q. cbv beta in Q. rewrite EC, (slide_viscous s (FrictionOptions Stabilized syrup false true) L 1 EC eq_refl) in Q. unfold v3_scale, v3_add in Q. cbn [vx vy vz] in Q. lra.
Qed.

Print Assumptions friction_jacobian_is_derivative.
Print Assumptions lagged_friction_jacobian_is_derivative.
Print Assumptions incomplete_friction_jacobian_is_derivative.
Print Assumptions viscous_friction_jacobian_refuted.
