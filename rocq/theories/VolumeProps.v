(** Properties of the volume change penalty. *)
From Coq Require Import Reals List Arith Bool Lra Lia Permutation.
From Coquelicot Require Import Coquelicot.
From Verif Require Import Calc Vec3 Mat3 RList ElasticModel ElasticSpec ElasticProofs ElasticMeshProofs ElasticHessProofs MassModel MassSpec MassProofs VolumeModel VolumeSpec VolumeProofs.
Import ListNotations.
Local Open Scope R_scope.

(** The unit corner tetrahedron and its closed surface. *)
Definition corner_pos (i : nat) : v3 := match i with 0%nat => V3 1 0 0 | 1%nat => V3 0 1 0 | 2%nat => V3 0 0 1 | _ => v3_0 end.
Definition ex_zone : zone := Zone (tet_faces (0, 1, 2, 3)%nat) (1 / 6) 2 (1 / 2) false.
Lemma ex_closed : closed_surface (topo ex_zone).
Proof.
  unfold closed_surface, ex_zone, directed_edges. cbn. apply NoDup_Permutation; [| |].
  1,2: repeat constructor; simpl; intuition congruence.
  intros x. simpl. intuition (subst; auto 20).
Qed.

(** C49: the sparse Jacobian has as many columns as values and is the derivative of the penalty along every displacement. *)
Theorem volume_gradient_is_derivative : forall z pos d,
  pressurization z * rest_volume z <> 0 -> compression z <> 0 ->
  length (vol_jacobian_cols z) = vol_jacobian_size z /\ length (vol_jacobian_values z pos) = vol_jacobian_size z /\
  is_derive (fun s => volume_penalty z (move pos d s)) 0 (sparse_dot (combine (vol_jacobian_cols z) (vol_jacobian_values z pos)) (coords d)).
Proof. intros z pos d Hb Hk. split; [exact (proj1 (jacobian_lengths z pos))|]. split; [exact (proj2 (jacobian_lengths z pos))|]. rewrite jacobian_dot. exact (penalty_derive z pos d Hb Hk). Qed.
Example volume_gradient_is_derivative_ex : volume_change ex_zone corner_pos = - (1 / 2) /\ vol_jacobian_size ex_zone = 36%nat /\ nth 3 (vol_jacobian_cols ex_zone) 0%nat = 3%nat.
Proof. split; [|split; reflexivity]. unfold volume_change, signed_volume, ex_zone. cbn [topo tet_faces map]. rewrite ?rsum_cons, ?rsum_nil. unfold tri_det. cbn [ta tb tc corner_pos pressurization rest_volume]. unm. field. Qed.

(** C49: on a force buffer holding all vertices, exactly the gradient is added, coordinate by coordinate. *)
Theorem pressure_force_adds_gradient : forall z pos n f,
  tris_in_range n (topo z) -> length f = (3 * n)%nat ->
  exists f', subtract_pressure_force z pos f = Some f' /\ length f' = (3 * n)%nat /\
    forall p, nth p f' 0 = nth p f 0 + sparse_dot (combine (vol_jacobian_cols z) (vol_jacobian_values z pos)) (fun q => if Nat.eqb q p then 1 else 0).
Proof.
  intros z pos n f H Hf. destruct (add_at_cols_dot (combine (vol_jacobian_cols z) (vol_jacobian_values z pos)) (fun _ => 0) (3 * n)%nat) with (f := f) as (f' & E & L & N); [|exact Hf|].
  - intros [c v] Hc. apply in_combine_l in Hc. unfold vol_jacobian_cols in Hc. apply in_flat_map in Hc. destruct Hc as (t & Ht & Hc). apply in_flat_map in Hc. destruct Hc as (vi & Hv & Hc). apply in_map_iff in Hc. destruct Hc as (j & <- & Hj).
    apply in_seq in Hj. destruct (H t Ht) as (A & B & C). cbn [fst]. assert (tri_ix t vi < n)%nat by (destruct vi as [|[|vi]]; assumption). lia.
  - exists f'. split; [exact E|]. split; [exact L|]. intros p. rewrite N. f_equal. unfold sparse_dot. apply rsum_ext. intros [c v] _. cbn [fst snd]. destruct (Nat.eqb c p); ring.
Qed.
Example pressure_force_adds_gradient_ex : tris_in_range 4 (topo ex_zone) /\ exists f, subtract_pressure_force ex_zone corner_pos (repeat 0 12) = Some f.
Proof.
  assert (H : tris_in_range 4 (topo ex_zone)) by (intros t Ht; simpl in Ht; repeat (destruct Ht as [<-|Ht]; [cbn; lia|]); destruct Ht).
  split; [exact H|]. destruct (pressure_force_adds_gradient ex_zone corner_pos 4 (repeat 0 12) H eq_refl) as (f & E & _). exists f. exact E.
Qed.

(** C49: index and value sequences of the Hessian have the announced length, and without the approximation they are the derivative of the
    gradient in every direction. *)
Theorem volume_hessian_is_derivative : forall z pos u w,
  pressurization z * rest_volume z <> 0 ->
  length (vol_hessian_indices z) = vol_hessian_size z /\ length (vol_hessian_values z pos 1) = vol_hessian_size z /\
  (hessian_approximation z = false ->
   is_derive (fun s => sparse_dot (combine (vol_jacobian_cols z) (vol_jacobian_values z (move pos w s))) (coords u)) 0
     (sparse_form (combine (vol_hessian_indices z) (vol_hessian_values z pos 1)) (coords u) (coords w))).
Proof.
  intros z pos u w Hb. split; [exact (proj1 (hessian_lengths z pos 1))|]. split; [exact (proj2 (hessian_lengths z pos 1))|]. intros Ha. rewrite (hessian_form z pos 1 u w Ha).
  apply (is_derive_ext (fun s => pressure_atm * volume_change z (move pos w s) / (compression z * 6) * lin z (move pos w s) u)); [intros s; symmetry; apply jacobian_dot|].
  eapply derive_val; [exact (force_derive z pos u w Hb)|]. ring.
Qed.
Example volume_hessian_is_derivative_ex : vol_hessian_size ex_zone = 1440%nat /\ pressurization ex_zone * rest_volume ex_zone <> 0 /\ hessian_approximation ex_zone = false /\ nth 5 (vol_hessian_indices ex_zone) (0, 0)%nat = (4, 2)%nat.
Proof. split; [reflexivity|]. split; [cbn; lra|]. split; reflexivity. Qed.

(** C85: the approximate Hessian leaves out exactly the rank-one term of the volume derivatives, so the two agree on displacements that
    keep the volume. *)
Theorem approximate_hessian_drops_rank_one : forall ts rv b k pos u w dVu dVw,
  let form approx := let z := Zone ts rv b k approx in sparse_form (combine (vol_hessian_indices z) (vol_hessian_values z pos 1)) (coords u) (coords w) in
  k <> 0 -> b <> 0 -> rv <> 0 ->
  is_derive (fun s => signed_volume ts (move pos u s)) 0 dVu -> is_derive (fun s => signed_volume ts (move pos w s)) 0 dVw ->
  form false = form true + pressure_atm / (k * (b * rv)) * (dVu * dVw).
Proof.
  intros ts rv b k pos u w dVu dVw form Hk Hb Hr Du Dw. unfold form. set (z0 := Zone ts rv b k false). set (z1 := Zone ts rv b k true).
  cbv zeta. rewrite (hessian_form z0 pos 1 u w eq_refl), (approx_form z1 pos 1 u w eq_refl).
  pose proof (derive_same _ _ _ _ (volume_derive z0 pos u) Du) as Lu. pose proof (derive_same _ _ _ _ (volume_derive z0 pos w) Dw) as Lw. rewrite <- Lu, <- Lw.
  unfold z0, z1, volume_change, bil, lin. cbn [topo rest_volume pressurization compression]. field. repeat match goal with |- _ /\ _ => split end; assumption.
Qed.
Example approximate_hessian_drops_rank_one_ex : is_derive (fun s => signed_volume (topo ex_zone) (move corner_pos (fun _ => V3 1 0 0) s)) 0 0.
Proof. eapply derive_val; [apply (volume_derive ex_zone)|]. rewrite lin_const, (closed_edges _ _ _ ex_closed). lra. Qed.

(** C86: pressure forces exert no net torque about the origin, and no net force on a closed surface, whose volume does not change under
    translation. *)
Theorem pressure_forces_balance : forall z pos om c d,
  sparse_dot (combine (vol_jacobian_cols z) (vol_jacobian_values z pos)) (coords (fun i => v3_cross om (pos i))) = 0 /\
  (closed_surface (topo z) -> sparse_dot (combine (vol_jacobian_cols z) (vol_jacobian_values z pos)) (coords (fun _ => c)) = 0 /\
    signed_volume (topo z) (shift pos d) = signed_volume (topo z) pos).
Proof.
  intros z pos om c d. split; [rewrite jacobian_dot, lin_rotation; ring|]. intros H. split; [rewrite jacobian_dot, lin_const, (closed_edges _ pos c H); ring|apply volume_shift; exact H].
Qed.
Example pressure_forces_balance_ex : closed_surface (topo ex_zone) /\ signed_volume (topo ex_zone) corner_pos = 1 / 6.
Proof. split; [exact ex_closed|]. unfold signed_volume, ex_zone. cbn [topo tet_faces map]. rewrite ?rsum_cons, ?rsum_nil. unfold tri_det. cbn [ta tb tc corner_pos]. unm. field. Qed.
(** C86, refuted for an open surface: the forces have a net resultant. *)
Theorem open_surface_force_refuted : exists z pos c, 0 < pressurization z /\ 0 < rest_volume z /\ 0 < compression z /\
  sparse_dot (combine (vol_jacobian_cols z) (vol_jacobian_values z pos)) (coords (fun _ => c)) <> 0.
Proof.
  exists (Zone [Tri 0 1 2] 1 1 1 false), corner_pos, (V3 1 0 0). cbn [pressurization rest_volume compression]. split; [lra|]. split; [lra|]. split; [lra|].
  rewrite jacobian_dot. unfold volume_change, signed_volume, lin. cbn [topo map pressurization rest_volume compression]. rewrite ?rsum_cons, ?rsum_nil. unfold tri_det, tri_lin, corner_grad, pick, pressure_atm. cbn [ta tb tc corner_pos]. unm. lra.
Qed.
Example open_surface_force_refuted_ex : ~ closed_surface [Tri 0 1 2].
Proof. intros H. apply (Permutation_in (0, 1)%nat) in H; [|simpl; auto]. simpl in H. intuition congruence. Qed.

(** C87: the penalty is smallest, and the pressure force vanishes, exactly at the pressurised rest volume; a smaller volume is pushed
    outwards along the volume gradient and a larger one inwards. *)
Theorem penalty_minimal_at_target : forall z pos d,
  0 < pressurization z -> 0 < rest_volume z -> 0 < compression z ->
  pressure_atm * rest_volume z <= volume_penalty z pos /\
  (volume_penalty z pos = pressure_atm * rest_volume z <-> signed_volume (topo z) pos = pressurization z * rest_volume z) /\
  (forall dV, is_derive (fun s => signed_volume (topo z) (move pos d s)) 0 dV ->
   sparse_dot (combine (vol_jacobian_cols z) (vol_jacobian_values z pos)) (coords d) * (signed_volume (topo z) pos - pressurization z * rest_volume z) =
   pressure_atm / (compression z * (pressurization z * rest_volume z)) * (signed_volume (topo z) pos - pressurization z * rest_volume z) ^ 2 * dV).
Proof.
  intros z pos d Hb Hv Hk. unfold volume_penalty. set (v := signed_volume (topo z) pos). assert (Hbv : 0 < pressurization z * rest_volume z) by (apply Rmult_lt_0_compat; assumption).
  assert (E : volume_change z pos = (v - pressurization z * rest_volume z) / (pressurization z * rest_volume z)) by (unfold volume_change; fold v; field; split; lra).
  assert (P : 0 < pressure_atm) by (unfold pressure_atm; lra). assert (Q : 0 < pressure_atm * rest_volume z) by (apply Rmult_lt_0_compat; assumption).
  assert (S : 0 < pressurization z / (compression z * 2)) by (apply Rdiv_lt_0_compat; lra).
  replace (volume_change z pos * volume_change z pos * pressurization z / (compression z * 2)) with (volume_change z pos * volume_change z pos * (pressurization z / (compression z * 2))) by (unfold Rdiv; ring).
  set (k := pressurization z / (compression z * 2)) in *. split; [|split].
  - assert (0 <= volume_change z pos * volume_change z pos * k) by (apply Rmult_le_pos; [apply Rle_0_sqr|lra]). nra.
  - split; intros H.
    + assert (Z : volume_change z pos * volume_change z pos * k = 0) by (apply (Rmult_eq_reg_l (pressure_atm * rest_volume z)); lra).
      assert (Z2 : volume_change z pos * volume_change z pos = 0) by (apply (Rmult_eq_reg_r k); lra). apply Rsqr_0_uniq in Z2. rewrite E in Z2.
      assert (v - pressurization z * rest_volume z = 0) by (apply (Rmult_eq_reg_r (/ (pressurization z * rest_volume z))); [unfold Rdiv in Z2; lra|apply Rinv_neq_0_compat; lra]). lra.
    + assert (Z : volume_change z pos = 0) by (rewrite E, H; unfold Rdiv; ring). rewrite Z. ring.
  - intros dV HdV. pose proof (derive_same _ _ _ _ (volume_derive z pos d) HdV) as L. rewrite jacobian_dot, E, <- L. field. split; lra.
Qed.
Example penalty_minimal_at_target_ex : 0 < pressurization ex_zone /\ 0 < rest_volume ex_zone /\ 0 < compression ex_zone /\ volume_penalty ex_zone corner_pos = pressure_atm * rest_volume ex_zone * (3 / 2).
Proof.
  assert (E : volume_change ex_zone corner_pos = - (1 / 2)) by apply volume_gradient_is_derivative_ex. unfold volume_penalty. rewrite E. unfold ex_zone. cbn. split; [lra|]. split; [lra|]. split; [lra|]. field.
Qed.

(** C50: the rest volume of the penalty of a zone is the sum of the signed volumes of its tetrahedra in the reference configuration and of
    its triangles; when its surface is the boundary of its tetrahedra, the rest configuration has exactly that volume. *)
Theorem penalty_rest_volume_is_volume : forall z cs ref_pos pos surf b k ha,
  at_rest cs ref_pos pos -> let rv := penalty_rest_volume z ref_pos pos 0 cs in
  rv = tets_volume pos (zone_tets z cs) + signed_volume (zone_tris z cs) pos /\
  (boundary (zone_tets z cs) surf -> signed_volume (surf ++ zone_tris z cs) pos = rv /\
     (rv <> 0 -> volume_change (Zone (surf ++ zone_tris z cs) rv 1 k ha) pos = 0) /\ (b * rv <> 0 -> volume_change (Zone (surf ++ zone_tris z cs) rv b k ha) pos = 1 / b - 1)).
Proof.
  intros z cs ref_pos pos surf b k ha H rv. assert (E : rv = tets_volume pos (zone_tets z cs) + signed_volume (zone_tris z cs) pos) by (apply rest_volume_from; exact H).
  split; [exact E|]. intros B. assert (V : signed_volume (surf ++ zone_tris z cs) pos = rv).
  { rewrite E, <- (boundary_volume pos _ surf B). unfold signed_volume. rewrite map_app, rsum_app. field. }
  split; [exact V|]. split; intros Hr; unfold volume_change; cbn [topo pressurization rest_volume]; rewrite V; clearbody rv; [field; exact Hr|].
  field. split; intros Z; apply Hr; rewrite Z; ring.
Qed.
Example penalty_rest_volume_is_volume_ex : let cs := [OtherCell 2; TetCell 0 1 2 3 1; TetCell 1 0 2 4 1] in
  zone_tets 1 cs = [(0, 1, 2, 3); (1, 0, 2, 4)]%nat /\ boundary (zone_tets 1 cs) [Tri 3 2 1; Tri 0 2 3; Tri 1 0 3; Tri 4 2 0; Tri 1 2 4; Tri 0 1 4] /\
  at_rest cs (fun i => corner_pos (nth i [0; 0; 0; 1; 2; 3; 1; 0; 2; 4]%nat 0%nat)) corner_pos.
Proof.
  cbv zeta. split; [reflexivity|]. split.
  - exists [Tri 3 2 1; Tri 0 2 3; Tri 1 0 3; Tri 4 2 0; Tri 1 2 4; Tri 0 1 4], [(Tri 0 1 2, Tri 1 0 2)]. cbn. split; [|split].
    + apply NoDup_Permutation; [| |]. 1,2: repeat constructor; simpl; intuition congruence. intros x. simpl. intuition (subst; auto 20).
    + repeat constructor.
    + repeat constructor.
  - intros i Hi. cbn in Hi. do 10 (destruct i as [|i]; [reflexivity|]). lia.
Qed.

(** C50, refuted for VolumeConstraint: it reads per-corner reference positions with vertex indices, so already two tetrahedra sharing a
    face get a wrong rest volume and the constraint is violated at rest. *)
Theorem constraint_rest_volume_refuted : exists cs ref_pos pos surf,
  at_rest cs ref_pos pos /\ boundary (zone_tets 0 cs) surf /\ constraint_rest_volume 0 ref_pos cs <> tets_volume pos (zone_tets 0 cs) /\
  volume_constraint surf (constraint_rest_volume 0 ref_pos cs) pos <> 0.
Proof.
  pose (cs := [TetCell 0 1 2 3 0; TetCell 1 0 2 4 0]). pose (pos := fun i => match i with 4%nat => V3 1 1 1 | _ => corner_pos i end).
  pose (ref_pos := fun i => pos (nth i [0; 1; 2; 3; 1; 0; 2; 4]%nat 0%nat)). pose (surf := [Tri 3 2 1; Tri 0 2 3; Tri 1 0 3; Tri 4 2 0; Tri 1 2 4; Tri 0 1 4]).
  assert (B : boundary (zone_tets 0 cs) surf).
  { exists [Tri 3 2 1; Tri 0 2 3; Tri 1 0 3; Tri 4 2 0; Tri 1 2 4; Tri 0 1 4], [(Tri 0 1 2, Tri 1 0 2)]. cbn. split; [|split].
    + apply NoDup_Permutation; [| |]. 1,2: repeat constructor; simpl; intuition congruence. intros x. simpl. intuition (subst; auto 20).
    + repeat constructor.
    + repeat constructor. }
  assert (W : constraint_rest_volume 0 ref_pos cs = 1 / 6).
  { unfold constraint_rest_volume, cs. cbn [map Nat.eqb]. rewrite ?rsum_cons, ?rsum_nil. unfold ref_pos, pos. cbn [nth corner_pos]. unfold tet_signed_volume. unm. field. }
  assert (V : tets_volume pos (zone_tets 0 cs) = 1 / 2).
  { unfold tets_volume, cs. cbn [zone_tets flat_map Nat.eqb app map]. rewrite ?rsum_cons, ?rsum_nil. unfold pos. cbn [corner_pos]. unm. field. }
  exists cs, ref_pos, pos, surf. split; [intros i Hi; cbn in Hi; do 8 (destruct i as [|i]; [reflexivity|]); lia|]. split; [exact B|]. split; [rewrite W, V; lra|].
  unfold volume_constraint. pose proof (boundary_volume pos _ surf B) as E. unfold signed_volume in E. rewrite V in E. rewrite W. lra.
Qed.
Example constraint_rest_volume_refuted_ex : corner_vertices [TetCell 0 1 2 3 0; TetCell 1 0 2 4 0] = [0; 1; 2; 3; 1; 0; 2; 4]%nat.
Proof. reflexivity. Qed.

(** C50: the constraint is six times the volume in excess of the rest volume; were the reference positions numbered like the vertices,
    it would vanish at rest. *)
Theorem volume_constraint_is_excess_volume : forall ts rest pos,
  volume_constraint ts rest pos = 6 * (signed_volume ts pos - rest) /\
  (forall z cs, boundary (zone_tets z cs) ts -> rest = constraint_rest_volume z pos cs -> volume_constraint ts rest pos = 0).
Proof.
  intros ts rest pos. assert (E : volume_constraint ts rest pos = 6 * (signed_volume ts pos - rest)) by (unfold volume_constraint, signed_volume; field).
  split; [exact E|]. intros z cs B ->. rewrite E, (boundary_volume pos _ ts B). enough (constraint_rest_volume z pos cs = tets_volume pos (zone_tets z cs)) by lra.
  unfold constraint_rest_volume, tets_volume. clear. induction cs as [|c cs IH]; [reflexivity|]. cbn [map]. rewrite rsum_cons, IH. destruct c as [a b c' d zid|a b c' zid|n]; cbn [zone_tets flat_map].
  2,3: cbn [app]; unfold zone_tets; ring.
  destruct (Nat.eqb zid z); cbn [app map]; rewrite ?rsum_cons; unfold zone_tets; [|ring]. f_equal.
Qed.
Example volume_constraint_is_excess_volume_ex : volume_constraint [Tri 0 1 2; Tri 0 3 1; Tri 0 2 3; Tri 1 3 2] (1 / 3) corner_pos = - 1.
Proof. rewrite (proj1 (volume_constraint_is_excess_volume _ _ _)). unfold signed_volume. cbn [map]. rewrite !rsum_cons, rsum_nil. unfold tri_det. cbn [ta tb tc corner_pos]. unm. field. Qed.

Print Assumptions volume_gradient_is_derivative. Print Assumptions pressure_force_adds_gradient. Print Assumptions volume_hessian_is_derivative. Print Assumptions approximate_hessian_drops_rank_one.
Print Assumptions pressure_forces_balance. Print Assumptions open_surface_force_refuted. Print Assumptions penalty_minimal_at_target. Print Assumptions penalty_rest_volume_is_volume. Print Assumptions constraint_rest_volume_refuted. Print Assumptions volume_constraint_is_excess_volume.
