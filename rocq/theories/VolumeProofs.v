From Coq Require Import Reals List Arith Bool Lra Lia Permutation.
From Coquelicot Require Import Coquelicot.
From Verif Require Import Calc Vec3 Mat3 RList ElasticModel ElasticSpec ElasticProofs ElasticMeshProofs ElasticHessProofs MassModel MassSpec MassProofs VolumeModel VolumeSpec.
Import ListNotations.
Local Open Scope R_scope.

Lemma derive_rsum {A} (f : A -> R -> R) (g : A -> R) l : (forall a, In a l -> is_derive (f a) 0 (g a)) -> is_derive (fun s => rsum (map (fun a => f a s) l)) 0 (rsum (map g l)).
Proof.
  induction l as [|a l IH]; intros H; [apply (is_derive_ext (fun _ => 0)); [reflexivity|]; simpl; rewrite rsum_nil; apply @is_derive_const|].
  cbn [map]. rewrite rsum_cons. apply (is_derive_ext (fun s => f a s + rsum (map (fun a => f a s) l))); [intros s; symmetry; apply rsum_cons|].
  apply @is_derive_plus; [apply H; left; reflexivity|apply IH; intros b Hb; apply H; right; exact Hb].
Qed.
(** Derivative of the determinant, and of that derivative. *)
Definition tri_lin (pos u : nat -> v3) (t : tri) : R := v3_dot (corner_grad pos t 0) (u (ta t)) + v3_dot (corner_grad pos t 1) (u (tb t)) + v3_dot (corner_grad pos t 2) (u (tc t)).
Definition tri_bil (pos u w : nat -> v3) (t : tri) : R :=
  v3_dot (v3_add (v3_cross (w (tb t)) (pos (tc t))) (v3_cross (pos (tb t)) (w (tc t)))) (u (ta t)) +
  v3_dot (v3_add (v3_cross (w (tc t)) (pos (ta t))) (v3_cross (pos (tc t)) (w (ta t)))) (u (tb t)) +
  v3_dot (v3_add (v3_cross (w (ta t)) (pos (tb t))) (v3_cross (pos (ta t)) (w (tb t)))) (u (tc t)).
Lemma tri_det_derive pos d t : is_derive (fun s => tri_det (move pos d s) t) 0 (tri_lin pos d t).
Proof.
  unfold tri_det, tri_lin, corner_grad, pick, move, v3_line. destruct t as [a b c]. cbn [ta tb tc]. destruct (pos a), (pos b), (pos c), (d a), (d b), (d c). unm. auto_derive; [exact I|]. ringR.
Qed.
Lemma tri_lin_derive pos u w t : is_derive (fun s => tri_lin (move pos w s) u t) 0 (tri_bil pos u w t).
Proof.
  unfold tri_lin, tri_bil, corner_grad, pick, move, v3_line. destruct t as [a b c]. cbn [ta tb tc]. destruct (pos a), (pos b), (pos c), (w a), (w b), (w c), (u a), (u b), (u c). unm. auto_derive; [exact I|]. ringR.
Qed.
Definition lin (z : zone) (pos u : nat -> v3) : R := rsum (map (tri_lin pos u) (topo z)).
Definition bil (z : zone) (pos u w : nat -> v3) : R := rsum (map (tri_bil pos u w) (topo z)).
Lemma volume_derive z pos d : is_derive (fun s => signed_volume (topo z) (move pos d s)) 0 (lin z pos d / 6).
Proof.
  unfold signed_volume, lin. pose proof (derive_rsum (fun t s => tri_det (move pos d s) t) (tri_lin pos d) (topo z) (fun t _ => tri_det_derive pos d t)) as D.
  set (F := fun s => rsum (map (fun t => tri_det (move pos d s) t) (topo z))) in D.
  apply (is_derive_ext (fun s => / 6 * F s)); [intros s; unfold F; change (fun t => tri_det (move pos d s) t) with (tri_det (move pos d s)); unfold Rdiv; apply Rmult_comm|].
  unfold Rdiv. rewrite Rmult_comm. apply @is_derive_scal. exact D.
Qed.
Lemma move_0 x d i : move x d 0 i = x i.
Proof. unfold move, v3_line. destruct (x i), (d i). unm. f_equal; ring. Qed.
Lemma signed_volume_ext ts p q : (forall i, p i = q i) -> signed_volume ts p = signed_volume ts q.
Proof. intros H. unfold signed_volume. f_equal. apply rsum_ext. intros t _. unfold tri_det. rewrite !H. reflexivity. Qed.
Lemma penalty_derive z pos d : pressurization z * rest_volume z <> 0 -> compression z <> 0 ->
  is_derive (fun s => volume_penalty z (move pos d s)) 0 (pressure_atm * volume_change z pos / (compression z * 6) * lin z pos d).
Proof.
  intros Hb Hk. unfold volume_penalty, volume_change. pose proof (signed_volume_ext (topo z) (move pos d 0) pos (move_0 pos d)) as E0.
  set (V := fun s : R => signed_volume (topo z) (move pos d s)). assert (D : is_derive V 0 (lin z pos d / 6)) by apply volume_derive. change (signed_volume (topo z) (move pos d 0)) with (V 0) in E0.
  apply (is_derive_ext (fun s => pressure_atm * rest_volume z * ((V s / (pressurization z * rest_volume z) - 1) * (V s / (pressurization z * rest_volume z) - 1) * pressurization z / (compression z * 2) + 1))); [intros s; reflexivity|].
  rewrite <- E0. clearbody V. clear E0. generalize dependent (lin z pos d). intros L D. assert (Hp : pressurization z <> 0) by (intros E; apply Hb; rewrite E; ring). assert (Hr : rest_volume z <> 0) by (intros E; apply Hb; rewrite E; ring).
  assert (X : ex_derive (fun s : R => V s) 0) by (exists (L / 6); exact D). auto_derive; [split; [exact X|split; [exact X|exact I]]|]. rewrite (is_derive_unique (fun s : R => V s) 0 _ D). field. repeat split; assumption.
Qed.

(** * Sparse data *)
Lemma combine_flat_map {A B C} (f : A -> list B) (g : A -> list C) l : (forall a, length (f a) = length (g a)) -> combine (flat_map f l) (flat_map g l) = flat_map (fun a => combine (f a) (g a)) l.
Proof. intros H. induction l as [|a l IH]; [reflexivity|]. cbn [flat_map]. rewrite combine_app by apply H. rewrite IH. reflexivity. Qed.
Lemma get3_coords u i j : (j < 3)%nat -> coords u (3 * i + j) = get3 (u i) j.
Proof. intros H. rewrite coords_at by exact H. unfold get3, pick, v3_get. destruct j as [|[|j]]; reflexivity. Qed.
Lemma jacobian_triplets z pos : combine (vol_jacobian_cols z) (vol_jacobian_values z pos) =
  flat_map (fun t => flat_map (fun vi => map (fun j => ((3 * tri_ix t vi + j)%nat, get3 (corner_grad pos t vi) j * (pressure_atm * volume_change z pos / (compression z * 6)))) (seq 0 3)) (seq 0 3)) (topo z).
Proof. unfold vol_jacobian_cols, vol_jacobian_values. rewrite combine_flat_map by reflexivity. reflexivity. Qed.
Lemma jacobian_dot z pos u : sparse_dot (combine (vol_jacobian_cols z) (vol_jacobian_values z pos)) (coords u) = pressure_atm * volume_change z pos / (compression z * 6) * lin z pos u.
Proof.
  unfold sparse_dot, lin. rewrite jacobian_triplets, rsum_flat_map. set (k := pressure_atm * volume_change z pos / (compression z * 6)). clearbody k. rewrite <- rsum_scale. apply rsum_ext. intros t _.
  rewrite rsum_flat_map. cbn [seq map fst snd]. rewrite ?rsum_cons, ?rsum_nil. rewrite !get3_coords by lia. unfold tri_lin. destruct t as [a b c]. cbn [tri_ix ta tb tc].
  unfold get3, pick, v3_dot. ring.
Qed.
Lemma jacobian_lengths z pos : length (vol_jacobian_cols z) = vol_jacobian_size z /\ length (vol_jacobian_values z pos) = vol_jacobian_size z.
Proof.
  assert (G : forall {B} (f : tri -> list B) l, (forall t, length (f t) = 9%nat) -> length (flat_map f l) = (3 * 3 * length l)%nat).
  { intros B f l H. induction l as [|t l IH]; [reflexivity|]. cbn [flat_map]. rewrite app_length, H, IH. cbn [length]. lia. }
  unfold vol_jacobian_cols, vol_jacobian_values, vol_jacobian_size. split; apply G; reflexivity.
Qed.
Lemma add_at_cols_dot (cvs : list (nat * R)) (u : nat -> R) n : (forall cv, In cv cvs -> (fst cv < n)%nat) -> forall f, length f = n ->
  exists f', add_at_cols cvs f = Some f' /\ length f' = n /\ forall p, nth p f' 0 = nth p f 0 + rsum (map (fun cv => if Nat.eqb (fst cv) p then snd cv else 0) cvs).
Proof.
  intros H. induction cvs as [|[c v] cvs IH]; intros f Hf; [exists f; split; [reflexivity|]; split; [exact Hf|]; intros p; simpl; rewrite rsum_nil; ring|].
  destruct (upd_at_some f c (fun a => a + v)) as (m & E & Lm); [rewrite Hf; exact (H (c, v) (or_introl eq_refl))|].
  destruct (IH (fun cv Hc => H cv (or_intror Hc)) m (eq_trans Lm Hf)) as (f' & E' & L' & N). exists f'. split; [simpl; rewrite E; exact E'|]. split; [exact L'|].
  intros p. rewrite N. destruct (upd_at_nth f c _ m 0 p E) as [_ Nm]. rewrite Nm. cbn [map fst snd]. rewrite rsum_cons. destruct (Nat.eqb c p); ring.
Qed.
Lemma length_flat_const {A B} (f : A -> list B) k l : (forall a, length (f a) = k) -> length (flat_map f l) = (k * length l)%nat.
Proof. intros H. induction l as [|a l IH]; [simpl; lia|]. cbn [flat_map length]. rewrite app_length, H, IH. lia. Qed.
Lemma hessian_lengths z pos lam : length (vol_hessian_indices z) = vol_hessian_size z /\ length (vol_hessian_values z pos lam) = vol_hessian_size z.
Proof.
  assert (G : forall {B} (f : tri -> list B) (g : tri -> tri -> list B), (forall t, length (f t) = 36%nat) -> (forall t t', length (g t t') = 81%nat) ->
    length (flat_map (fun t => f t ++ if hessian_approximation z then [] else flat_map (g t) (topo z)) (topo z)) = vol_hessian_size z).
  { intros B f g Hf Hg. unfold vol_hessian_size, vol_jacobian_size. destruct (hessian_approximation z).
    - rewrite (length_flat_const _ 36); [lia|]. intros t. rewrite app_length, Hf. reflexivity.
    - rewrite (length_flat_const _ (36 + 81 * length (topo z))); [lia|]. intros t. rewrite app_length, Hf, (length_flat_const _ 81) by apply Hg. reflexivity. }
  split; (apply G; [reflexivity|intros; reflexivity]).
Qed.
Lemma sparse_form_app a b u w : sparse_form (a ++ b) u w = sparse_form a u w + sparse_form b u w.
Proof. unfold sparse_form. rewrite map_app, rsum_app. reflexivity. Qed.
Lemma sparse_form_flat {A} (f : A -> list (nat * nat * R)) l u w : sparse_form (flat_map f l) u w = rsum (map (fun a => sparse_form (f a) u w) l).
Proof. unfold sparse_form. rewrite rsum_flat_map. reflexivity. Qed.
Lemma local_form pos t factor lam dv u w : sparse_form (combine (map (vol_local_index t) vol_hessian_iter) (map (vol_local_value pos t factor lam dv) vol_hessian_iter)) (coords u) (coords w) = factor * lam * dv * tri_bil pos u w t.
Proof.
  unfold sparse_form. rewrite combine_map. let l := eval vm_compute in vol_hessian_iter in change vol_hessian_iter with l.
  cbn [map vol_local_index vol_local_value Nat.eqb Nat.add Nat.modulo Nat.divmod Nat.sub snd]. rewrite ?rsum_cons, ?rsum_nil, !get3_coords by lia.
  destruct t as [a b c]. cbn [tri_ix ta tb tc]. unfold tri_bil, get3, pick, skew. cbn [m3_get r0 r1 r2 vx vy vz ta tb tc]. destruct (pos a), (pos b), (pos c), (u a), (u b), (u c), (w a), (w b), (w c).
  unm. ring.
Qed.
Lemma outer_form z pos factor lam t t' u w : sparse_form (combine (vol_outer_indices t t') (vol_outer_values z pos factor lam t t')) (coords u) (coords w) =
  lam * factor / (pressurization z * rest_volume z * 6) * (tri_lin pos u t * tri_lin pos w t').
Proof.
  unfold sparse_form, vol_outer_indices, vol_outer_values. rewrite combine_flat_map by reflexivity. rewrite rsum_flat_map. unfold Rdiv. generalize (/ (pressurization z * rest_volume z * 6)). intros k.
  transitivity (rsum (map (fun vi => rsum (map (fun vj => lam * factor * k * (v3_dot (corner_grad pos t vi) (u (tri_ix t vi)) * v3_dot (corner_grad pos t' vj) (w (tri_ix t' vj)))) (seq 0 3))) (seq 0 3))).
  - apply rsum_ext. intros vi _. rewrite combine_flat_map by reflexivity. rewrite rsum_flat_map. apply rsum_ext. intros vj _. rewrite combine_flat_map by reflexivity. rewrite rsum_flat_map.
    cbn [seq map combine]. rewrite ?rsum_cons, ?rsum_nil, !get3_coords by lia. unfold get3, pick, v3_dot. ring.
  - cbn [seq map]. rewrite ?rsum_cons, ?rsum_nil. unfold tri_lin. cbn [tri_ix]. ring.
Qed.
Lemma hessian_form z pos lam u w : hessian_approximation z = false ->
  sparse_form (combine (vol_hessian_indices z) (vol_hessian_values z pos lam)) (coords u) (coords w) =
  pressure_atm / (compression z * 6) * lam * (volume_change z pos * bil z pos u w + lin z pos u * lin z pos w / (pressurization z * rest_volume z * 6)).
Proof.
  intros Ha. unfold vol_hessian_indices, vol_hessian_values. rewrite Ha. set (f := pressure_atm / (compression z * 6)). set (dv := volume_change z pos).
  rewrite combine_flat_map. 2:{ intros t. rewrite !app_length, !map_length, !(length_flat_const _ 81) by reflexivity. reflexivity. }
  rewrite sparse_form_flat. unfold bil, lin.
  transitivity (rsum (map (fun t => f * lam * dv * tri_bil pos u w t + lam * f / (pressurization z * rest_volume z * 6) * rsum (map (tri_lin pos w) (topo z)) * tri_lin pos u t) (topo z))).
  - apply rsum_ext. intros t _. rewrite combine_app by (rewrite !map_length; reflexivity). rewrite sparse_form_app, local_form. f_equal. rewrite combine_flat_map by reflexivity. rewrite sparse_form_flat.
    transitivity (rsum (map (fun t' => lam * f / (pressurization z * rest_volume z * 6) * tri_lin pos u t * tri_lin pos w t') (topo z))).
    + apply rsum_ext. intros t' _. rewrite outer_form. ring.
    + rewrite rsum_scale. ring.
  - rewrite rsum_plus, !rsum_scale. unfold Rdiv. ring.
Qed.
Lemma approx_form z pos lam u w : hessian_approximation z = true ->
  sparse_form (combine (vol_hessian_indices z) (vol_hessian_values z pos lam)) (coords u) (coords w) = pressure_atm / (compression z * 6) * lam * volume_change z pos * bil z pos u w.
Proof.
  intros Ha. unfold vol_hessian_indices, vol_hessian_values. rewrite Ha. rewrite combine_flat_map by (intros t; rewrite !app_length, !map_length; reflexivity).
  rewrite sparse_form_flat. unfold bil. rewrite <- rsum_scale. apply rsum_ext. intros t _. rewrite !app_nil_r. apply local_form.
Qed.
Lemma force_derive z pos u w : pressurization z * rest_volume z <> 0 ->
  is_derive (fun s => pressure_atm * volume_change z (move pos w s) / (compression z * 6) * lin z (move pos w s) u) 0
    (pressure_atm / (compression z * 6) * (volume_change z pos * bil z pos u w + lin z pos u * lin z pos w / (pressurization z * rest_volume z * 6))).
Proof.
  intros Hb. unfold volume_change. pose proof (signed_volume_ext (topo z) (move pos w 0) pos (move_0 pos w)) as E0.
  assert (E1 : lin z (move pos w 0) u = lin z pos u) by (apply rsum_ext; intros t _; unfold tri_lin, corner_grad; rewrite !move_0; reflexivity).
  set (V := fun s : R => signed_volume (topo z) (move pos w s)). assert (DV : is_derive V 0 (lin z pos w / 6)) by apply volume_derive.
  set (G := fun s : R => lin z (move pos w s) u). assert (DG : is_derive G 0 (bil z pos u w)) by (apply (derive_rsum (fun t s => tri_lin (move pos w s) u t)); intros t _; apply tri_lin_derive).
  change (signed_volume (topo z) (move pos w 0)) with (V 0) in E0. change (lin z (move pos w 0) u) with (G 0) in E1. rewrite <- E0, <- E1.
  apply (is_derive_ext (fun s => pressure_atm * (V s / (pressurization z * rest_volume z) - 1) * / (compression z * 6) * G s)); [intros s; reflexivity|]. clearbody V G. clear E0 E1.
  generalize dependent (lin z pos w). generalize dependent (bil z pos u w). intros B DG L DV. unfold Rdiv. set (k := / (compression z * 6)). clearbody k.
  assert (Hp : pressurization z <> 0) by (intros E; apply Hb; rewrite E; ring). assert (Hr : rest_volume z <> 0) by (intros E; apply Hb; rewrite E; ring).
  assert (XV : ex_derive (fun s : R => V s) 0) by (eexists; exact DV). assert (XG : ex_derive (fun s : R => G s) 0) by (eexists; exact DG).
  auto_derive; [split; [exact XV|split; [exact XG|exact I]]|]. rewrite (is_derive_unique (fun s : R => V s) 0 _ DV), (is_derive_unique (fun s : R => G s) 0 _ DG). field. split; assumption.
Qed.

(** * Translations and rotations *)
Lemma closed_edges ts (pos : nat -> v3) c : closed_surface ts -> rsum (map (fun e => v3_dot (v3_cross (pos (fst e)) (pos (snd e))) c) (directed_edges ts)) = 0.
Proof.
  intros H. pose proof (rsum_perm _ _ (Permutation_map (fun e => v3_dot (v3_cross (pos (fst e)) (pos (snd e))) c) H)) as E. rewrite map_map in E. cbn [fst snd] in E.
  assert (N : rsum (map (fun e => v3_dot (v3_cross (pos (snd e)) (pos (fst e))) c) (directed_edges ts)) = -1 * rsum (map (fun e => v3_dot (v3_cross (pos (fst e)) (pos (snd e))) c) (directed_edges ts))).
  { rewrite <- rsum_scale. apply rsum_ext. intros e _. destruct (pos (fst e)), (pos (snd e)), c. unm. ring. }
  rewrite N in E. lra.
Qed.
Lemma lin_const z pos c : lin z pos (fun _ => c) = rsum (map (fun e => v3_dot (v3_cross (pos (fst e)) (pos (snd e))) c) (directed_edges (topo z))).
Proof.
  unfold lin, directed_edges. rewrite rsum_flat_map. apply rsum_ext. intros t _. cbn [map fst snd]. rewrite ?rsum_cons, ?rsum_nil. unfold tri_lin, corner_grad, pick. ring.
Qed.
Lemma lin_rotation z pos om : lin z pos (fun i => v3_cross om (pos i)) = 0.
Proof. apply rsum_zero. intros t _. unfold tri_lin, corner_grad, pick. destruct (pos (ta t)), (pos (tb t)), (pos (tc t)), om. unm. ring. Qed.
Lemma volume_shift ts pos d : closed_surface ts -> signed_volume ts (shift pos d) = signed_volume ts pos.
Proof.
  intros H. unfold signed_volume. f_equal. pose proof (closed_edges ts pos d H) as E.
  transitivity (rsum (map (tri_det pos) ts) + rsum (map (fun e => v3_dot (v3_cross (pos (fst e)) (pos (snd e))) d) (directed_edges ts))); [|rewrite E; ring].
  unfold directed_edges. rewrite rsum_flat_map, <- rsum_plus. apply rsum_ext. intros t _. cbn [map fst snd]. rewrite ?rsum_cons, ?rsum_nil. unfold tri_det, shift. destruct (pos (ta t)), (pos (tb t)), (pos (tc t)), d. unm. ring.
Qed.

(** * Rest volume *)
Lemma rotated_det pos s t : rotated s t -> tri_det pos t = tri_det pos s.
Proof. intros [->|[->| ->]]; unfold tri_det; cbn [ta tb tc]; destruct (pos (ta s)), (pos (tb s)), (pos (tc s)); unm; ring. Qed.
Lemma opposite_det pos s t : opposite s t -> tri_det pos s + tri_det pos t = 0.
Proof. intros H. rewrite (rotated_det pos _ t H). unfold tri_det. cbn [ta tb tc]. destruct (pos (ta s)), (pos (tb s)), (pos (tc s)). unm. ring. Qed.
Lemma faces_volume pos qs : rsum (map (tri_det pos) (flat_map tet_faces qs)) / 6 = tets_volume pos qs.
Proof.
  unfold tets_volume. rewrite rsum_flat_map. unfold Rdiv. rewrite Rmult_comm, <- rsum_scale. apply rsum_ext. intros [[[a b] c] d] _. cbn [tet_faces map]. rewrite ?rsum_cons, ?rsum_nil. unfold tri_det. cbn [ta tb tc].
  destruct (pos a), (pos b), (pos c), (pos d). unm. ring.
Qed.
Lemma boundary_volume pos qs surf : boundary qs surf -> signed_volume surf pos = tets_volume pos qs.
Proof.
  intros (outer & inner & P & S & O). rewrite <- faces_volume. unfold signed_volume. f_equal. rewrite (rsum_perm _ _ (Permutation_map (tri_det pos) P)), map_app, rsum_app, rsum_flat_map.
  assert (Z : rsum (map (fun p : tri * tri => rsum (map (tri_det pos) [fst p; snd p])) inner) = 0).
  { apply rsum_zero. intros p Hp. cbn [map]. rewrite ?rsum_cons, ?rsum_nil. pose proof (opposite_det pos (fst p) (snd p) (proj1 (Forall_forall _ _) O p Hp)). lra. }
  rewrite Z, Rplus_0_r. clear P O Z. induction S as [|s t outer surf Hst Hs IH]; [reflexivity|]. cbn [map]. rewrite !rsum_cons, IH, (rotated_det pos s t Hst). reflexivity.
Qed.
Lemma nth_after {A} (l m : list A) i d : nth (length l + i) (l ++ m) d = nth i m d.
Proof. rewrite app_nth2_plus. reflexivity. Qed.
Lemma rest_volume_from z (ref_pos pos : nat -> v3) cs : forall first, (forall i, (i < length (corner_vertices cs))%nat -> ref_pos (first + i)%nat = pos (nth i (corner_vertices cs) 0%nat)) ->
  penalty_rest_volume z ref_pos pos first cs = tets_volume pos (zone_tets z cs) + signed_volume (zone_tris z cs) pos.
Proof.
  assert (T : forall qs rs, tets_volume pos (qs ++ rs) = tets_volume pos qs + tets_volume pos rs) by (intros; unfold tets_volume; rewrite map_app, rsum_app; reflexivity).
  assert (U : forall qs rs, signed_volume (qs ++ rs) pos = signed_volume qs pos + signed_volume rs pos) by (intros; unfold signed_volume; rewrite map_app, rsum_app; field).
  induction cs as [|c cs IH]; intros first H; [unfold tets_volume, signed_volume; simpl; rewrite rsum_nil; field|].
  assert (R : forall l, corner_vertices (c :: cs) = l ++ corner_vertices cs -> length l = num_corners c -> penalty_rest_volume z ref_pos pos (first + num_corners c) cs = tets_volume pos (zone_tets z cs) + signed_volume (zone_tris z cs) pos).
  { intros l E L. apply IH. intros i Hi. rewrite <- Nat.add_assoc, H by (rewrite E, app_length; lia). rewrite E, <- L, nth_after. reflexivity. }
  unfold zone_tets, zone_tris in *. cbn [flat_map]. destruct c as [a b c d zid|a b c zid|k]; cbn [penalty_rest_volume].
  - rewrite (R [a; b; c; d] eq_refl eq_refl). destruct (Nat.eqb zid z); [|simpl; ring]. rewrite T. cbn [app].
    pose proof (H 0%nat ltac:(simpl; lia)) as E0. pose proof (H 1%nat ltac:(simpl; lia)) as E1. pose proof (H 2%nat ltac:(simpl; lia)) as E2. pose proof (H 3%nat ltac:(simpl; lia)) as E3.
    rewrite Nat.add_0_r in E0. cbn in E0, E1, E2, E3. rewrite E0, E1, E2, E3. unfold tets_volume at 2. cbn [map]. rewrite rsum_cons, rsum_nil. unfold tet_signed_volume. unfold m3_det. cbn [r0 r1 r2]. ring.
  - rewrite (R [a; b; c] eq_refl eq_refl). destruct (Nat.eqb zid z); [|simpl; ring]. rewrite U. unfold signed_volume at 2. cbn [map app]. rewrite rsum_cons, rsum_nil. unfold tet_signed_volume, tri_det. cbn [ta tb tc].
    destruct (pos a), (pos b), (pos c). unm. field.
  - rewrite (R (repeat 0%nat k) eq_refl (repeat_length _ _)). simpl. ring.
Qed.
