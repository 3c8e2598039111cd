(** Proofs about the assembled contacts: forms of block matrices, the product of the distance gradient, rows of the contact. *)
From Coq Require Import Reals List Bool Lra Lia Psatz Sorting.Sorted.
From Coquelicot Require Import Coquelicot.
From Verif Require Import Vec3 Mat3 RList Calc KernelModel KernelSpec KernelProofs FieldModel FieldSpec FieldProofs FieldDerivProofs
  NeighborModel NeighborSpec NeighborProofs UpdateProps SurfJacModel SurfJacSpec SurfJacProofs SurfJacProps HessModel HessSpec HessProofs HessMixProofs HessProps
  SurfHessModel SurfHessSpec JetProofs SurfHessProofs SurfHessCodeProofs SurfHessProps JointHessProofs ContactModel ContactSpec ContactProofs ContactMapSpec ContactMapProofs AssemblyModel ContactAsmModel ContactAsmSpec ContactAsmProofs ContactAsmProps
  ContactHessModel ContactHessSpec.
From Verif Require MassProofs ElasticModel.
Local Notation m3_get := ElasticModel.m3_get.
Import ListNotations.
Local Open Scope R_scope.

(** ** Forms of block matrices *)
Definition gbil (U W : nat -> v3) (L : list (nat * nat * m3)) : R := rsum (map (fun h => let '(r, c, A) := h in bil A (U r) (W c)) L).
Lemma gbil_app U W a b : gbil U W (a ++ b) = gbil U W a + gbil U W b.
Proof. unfold gbil. rewrite map_app. apply rsum_app. Qed.
Lemma gbil_flat_map {A} U W (f : A -> list (nat * nat * m3)) l : gbil U W (flat_map f l) = rsum (map (fun a => gbil U W (f a)) l).
Proof. unfold gbil. induction l as [|a l IH]; [reflexivity|]. cbn [flat_map map]. rewrite map_app, rsum_app, rsum_cons, IH. reflexivity. Qed.
Lemma gbil_cons U W r c A l : gbil U W ((r, c, A) :: l) = bil A (U r) (W c) + gbil U W l.
Proof. unfold gbil. cbn [map]. apply rsum_cons. Qed.
Lemma gbil_nil U W : gbil U W [] = 0.
Proof. apply rsum_nil. Qed.
Lemma gbil_mirrored U L : gbil U U (flat_map mirrored L) = form full_square U L.
Proof.
  rewrite gbil_flat_map. unfold form. apply rsum_ext. intros [[r c] A] _. unfold mirrored. rewrite gbil_cons. cbn [bform]. unfold full_square.
  destruct (Nat.eqb_spec r c) as [->|]; [rewrite gbil_nil|rewrite gbil_cons, gbil_nil, bil_transpose]; ring.
Qed.
Lemma coordinate_at U m r : (r < 3)%nat -> coordinate U (3 * m + r) = match r with O => vx (U m) | 1%nat => vy (U m) | _ => vz (U m) end.
Proof.
  intros R. unfold coordinate. replace ((3 * m + r) / 3)%nat with m by (rewrite Nat.mul_comm, Nat.div_add_l, (Nat.div_small r 3) by lia; lia).
  replace ((3 * m + r) mod 3)%nat with r by (rewrite Nat.add_comm, Nat.mul_comm, Nat.mod_add, (Nat.mod_small r 3) by lia; reflexivity). reflexivity.
Qed.
Lemma matrix_form_entries n x : forall L, (forall e, In e L -> (fst (fst e) < n)%nat /\ (snd (fst e) < n)%nat) ->
  matrix_form n L x = rsum (map (fun e => let '(i, j, a) := e in a * x i * x j) L).
Proof.
  induction L as [|[[r c] a] L IH]; intros H.
  - unfold matrix_form. cbn [map]. rewrite rsum_nil. apply rsum_zero. intros i _. apply rsum_zero. intros j _. unfold matrix_entry. cbn [filter map]. rewrite rsum_nil. ring.
  - cbn [map]. rewrite rsum_cons, <- IH by (intros e He; apply H; right; exact He). destruct (H _ (or_introl eq_refl)) as [R C]. cbn [fst snd] in R, C. unfold matrix_form.
    assert (E : forall i, rsum (map (fun j => matrix_entry ((r, c, a) :: L) i j * x i * x j) (seq 0 n)) = (if Nat.eqb r i then a * x i * x c else 0) + rsum (map (fun j => matrix_entry L i j * x i * x j) (seq 0 n))).
    { intros i. rewrite (rsum_ext _ (fun j => (if Nat.eqb c j then (if Nat.eqb r i then a * x i * x j else 0) else 0) + matrix_entry L i j * x i * x j)).
      - rewrite rsum_plus, (seq_pick (fun j => if Nat.eqb r i then a * x i * x j else 0)) by exact C. reflexivity.
      - intros j _. unfold matrix_entry. cbn [filter fst snd]. destruct (Nat.eqb r i), (Nat.eqb c j); cbn [andb map snd]; rewrite ?rsum_cons; ring. }
    rewrite (rsum_ext _ _ _ (fun i _ => E i)), rsum_plus, (seq_pick (fun i => a * x i * x c)) by exact R. reflexivity.
Qed.
Lemma scalar_form U W r c A : rsum (map (fun e => let '(i, j, a) := e in a * coordinate U i * coordinate W j) (scalar_entries (r, c, A))) = bil A (U r) (W c).
Proof.
  unfold scalar_entries. cbn [flat_map map app]. rewrite !rsum_cons, rsum_nil. rewrite !coordinate_at by lia. destruct A as [[a1 a2 a3] [a4 a5 a6] [a7 a8 a9]], (U r) as [x1 x2 x3], (W c) as [y1 y2 y3].
  unfold bil, m3_mulv, v3_dot. cbn [ElasticModel.m3_get r0 r1 r2 vx vy vz]. ring.
Qed.
Lemma scalar_range m h e : (fst (fst h) < m)%nat -> (snd (fst h) < m)%nat -> In e (scalar_entries h) -> (fst (fst e) < 3 * m)%nat /\ (snd (fst e) < 3 * m)%nat.
Proof. destruct h as [[r c] A]. cbn [fst snd]. intros R C H. unfold scalar_entries in H. cbn [flat_map map app] in H. repeat destruct H as [<-|H]; try destruct H; cbn [fst snd]; lia. Qed.
Lemma matrix_form_blocks m U L : (forall h, In h L -> (fst (fst h) < m)%nat /\ (snd (fst h) < m)%nat) -> matrix_form (3 * m) (flat_map scalar_entries L) (coordinate U) = gbil U U L.
Proof.
  intros H. rewrite matrix_form_entries.
  - rewrite MassProofs.rsum_flat_map. unfold gbil. apply rsum_ext. intros [[r c] A] _. apply scalar_form.
  - intros e He. apply in_flat_map in He. destruct He as (h & Hh & He). destruct (H h Hh). apply (scalar_range m h e); assumption.
Qed.
(** Entries as bilinear forms of unit motions. *)
Definition unit_axis (a : nat) : v3 := match a with O => V3 1 0 0 | 1%nat => V3 0 1 0 | _ => V3 0 0 1 end.
Definition unit_motion (i : nat) (v : nat) : v3 := if Nat.eqb v (i / 3) then unit_axis (i mod 3) else v3_0.
Lemma unit_coordinate i j : coordinate (unit_motion i) j = if Nat.eqb j i then 1 else 0.
Proof.
  unfold coordinate, unit_motion. pose proof (Nat.div_mod i 3 ltac:(lia)) as Di. pose proof (Nat.div_mod j 3 ltac:(lia)) as Dj. pose proof (Nat.mod_upper_bound i 3 ltac:(lia)). pose proof (Nat.mod_upper_bound j 3 ltac:(lia)).
  destruct (Nat.eqb_spec (j / 3) (i / 3)) as [E|N].
  - destruct (Nat.eqb_spec j i) as [->|N].
    + destruct (i mod 3) as [|[|[|x]]]; try lia; reflexivity.
    + assert ((j mod 3) <> (i mod 3))%nat by lia. destruct (j mod 3) as [|[|[|x]]], (i mod 3) as [|[|[|y]]]; try lia; reflexivity.
  - destruct (Nat.eqb_spec j i) as [->|]; [contradiction|]. destruct (j mod 3) as [|[|x]]; reflexivity.
Qed.
Lemma matrix_entry_blocks i j L : matrix_entry (flat_map scalar_entries L) i j = gbil (unit_motion i) (unit_motion j) L.
Proof.
  assert (E : forall l, matrix_entry l i j = rsum (map (fun e => let '(r, c, a) := e in a * coordinate (unit_motion i) r * coordinate (unit_motion j) c) l)).
  { intros l. unfold matrix_entry. rewrite <- (rsum_filter (fun e : nat * nat * R => andb (Nat.eqb (fst (fst e)) i) (Nat.eqb (snd (fst e)) j)) snd). apply rsum_ext. intros [[r c] a] _. cbn [fst snd]. rewrite !unit_coordinate.
    destruct (Nat.eqb r i), (Nat.eqb c j); cbn [andb]; ring. }
  rewrite E, MassProofs.rsum_flat_map. unfold gbil. apply rsum_ext. intros [[r c] A] _. apply scalar_form.
Qed.
(** Only the rows and columns that may move. *)
Definition cut (m : nat) (U : nat -> v3) (v : nat) : v3 := if active m v then U v else v3_0.
Lemma gbil_active m U W L : gbil U W (filter (fun h => andb (active m (fst (fst h))) (active m (snd (fst h)))) L) = gbil (cut m U) (cut m W) L.
Proof.
  unfold gbil. rewrite <- (rsum_filter (fun h : nat * nat * m3 => andb (active m (fst (fst h))) (active m (snd (fst h)))) (fun h => let '(r, c, A) := h in bil A (U r) (W c))).
  apply rsum_ext. intros [[r c] A] _. cbn [fst snd]. unfold cut. destruct (active m r), (active m c); cbn [andb]; try reflexivity;
    destruct A as [[a1 a2 a3] [a4 a5 a6] [a7 a8 a9]]; try destruct (U r) as [x1 x2 x3]; try destruct (W c) as [y1 y2 y3]; unfold bil, m3_mulv, v3_dot, v3_0; cbn [r0 r1 r2 vx vy vz]; ring.
Qed.
Lemma gbil_ext U W U' W' L : (forall h, In h L -> U (fst (fst h)) = U' (fst (fst h)) /\ W (snd (fst h)) = W' (snd (fst h))) -> gbil U W L = gbil U' W' L.
Proof. intros H. unfold gbil. apply rsum_ext. intros [[r c] A] I. destruct (H _ I) as [E F]. cbn [fst snd] in E, F. rewrite E, F. reflexivity. Qed.
Lemma cut_vanishing m U : (forall v, (m <= v)%nat -> U v = v3_0) -> forall v, cut m U v = U v.
Proof. intros H v. unfold cut, active. destruct (Nat.ltb_spec v m); [reflexivity|symmetry; apply H; assumption]. Qed.
(** Mirrored blocks are symmetric if the ones on the diagonal are, taken together. *)
Definition skew (A : m3) (u w : v3) : R := bil A u w - bil A w u.
Lemma mirrored_symmetric U W L : gbil U W (flat_map mirrored L) - gbil W U (flat_map mirrored L) = rsum (map (fun h => let '(r, c, A) := h in if Nat.eqb r c then skew A (U r) (W r) else 0) L).
Proof.
  rewrite !gbil_flat_map. replace (rsum (map (fun a => gbil U W (mirrored a)) L) - rsum (map (fun a => gbil W U (mirrored a)) L)) with (rsum (map (fun a => gbil U W (mirrored a)) L) + rsum (map (fun a => -1 * gbil W U (mirrored a)) L)) by (rewrite rsum_scale; ring).
  rewrite <- rsum_plus. apply rsum_ext. intros [[r c] A] _. unfold mirrored, skew. rewrite !gbil_cons. destruct (Nat.eqb_spec r c) as [->|]; rewrite ?gbil_cons, !gbil_nil, ?bil_transpose; ring.
Qed.
(** If the mirrored lower triangles and the whole blocks have the same forms, then the diagonal blocks of each vertex add up to a
    symmetric one. *)
Lemma skew_value A u w : skew A u w = (m3_get A 0 1 - m3_get A 1 0) * (vx u * vy w - vy u * vx w) + (m3_get A 0 2 - m3_get A 2 0) * (vx u * vz w - vz u * vx w) + (m3_get A 1 2 - m3_get A 2 1) * (vy u * vz w - vz u * vy w).
Proof. destruct A as [[a1 a2 a3] [a4 a5 a6] [a7 a8 a9]], u as [x1 x2 x3], w as [y1 y2 y3]. unfold skew, bil, m3_mulv, v3_dot. cbn [ElasticModel.m3_get r0 r1 r2 vx vy vz]. ring. Qed.
Lemma square_difference A u : full_square A u - low_square A u = (m3_get A 0 1 - m3_get A 1 0) * (vx u * vy u) + (m3_get A 0 2 - m3_get A 2 0) * (vx u * vz u) + (m3_get A 1 2 - m3_get A 2 1) * (vy u * vz u).
Proof. destruct A as [[a1 a2 a3] [a4 a5 a6] [a7 a8 a9]], u as [x1 x2 x3]. unfold full_square, low_square, bil, m3_mulv, v3_dot. cbn [ElasticModel.m3_get r0 r1 r2 vx vy vz]. ring. Qed.
Lemma skew_total U W n L : (forall Z, form full_square Z L = form low_square Z L) -> (forall h, In h L -> (fst (fst h) < n)%nat) ->
  rsum (map (fun h => let '(r, c, A) := h in if Nat.eqb r c then skew A (U r) (W r) else 0) L) = 0.
Proof.
  intros H RG.
  assert (D : forall Z, rsum (map (fun h => let '(r, c, A) := h in if Nat.eqb r c then full_square A (Z r) - low_square A (Z r) else 0) L) = 0).
  { intros Z. specialize (H Z). unfold form in H. apply Rminus_diag_eq in H. refine (eq_trans _ H). replace (rsum (map (bform full_square Z) L) - rsum (map (bform low_square Z) L)) with (rsum (map (bform full_square Z) L) + rsum (map (fun h => -1 * bform low_square Z h) L)) by (rewrite rsum_scale; ring).
    rewrite <- rsum_plus. apply rsum_ext. intros [[r c] A] _. unfold bform. destruct (Nat.eqb r c); ring. }
  assert (G : forall x y v, (x < y < 3)%nat -> rsum (map (fun h => let '(r, c, A) := h in if Nat.eqb r c then (if Nat.eqb r v then m3_get A x y - m3_get A y x else 0) else 0) L) = 0).
  { intros x y v B. refine (eq_trans _ (D (fun r => if Nat.eqb r v then v3_add (unit_axis x) (unit_axis y) else v3_0))). apply rsum_ext. intros [[r c] A] _. destruct (Nat.eqb r c); [|reflexivity]. rewrite square_difference. cbv beta.
    destruct (Nat.eqb r v); [|unfold v3_0; cbn [vx vy vz]; ring]. destruct x as [|[|x]], y as [|[|[|y]]]; try lia; unfold v3_add; cbn [unit_axis vx vy vz]; ring. }
  assert (SS : forall x y (g : nat -> R), (x < y < 3)%nat -> rsum (map (fun h => let '(r, c, A) := h in if Nat.eqb r c then (m3_get A x y - m3_get A y x) * g r else 0) L) = 0).
  { intros x y g B.
    rewrite (rsum_ext _ (fun h => rsum (map (fun v => g v * (let '(r, c, A) := h in if Nat.eqb r c then (if Nat.eqb r v then m3_get A x y - m3_get A y x else 0) else 0)) (seq 0 n)))).
    - rewrite rsum_swap. apply rsum_zero. intros v _. rewrite rsum_scale, G by exact B. ring.
    - intros [[r c] A] I. specialize (RG _ I). cbn [fst] in RG. destruct (Nat.eqb r c).
      + rewrite (rsum_ext _ (fun v => if Nat.eqb r v then g v * (m3_get A x y - m3_get A y x) else 0)) by (intros v _; destruct (Nat.eqb r v); ring). rewrite (seq_pick (fun v => g v * (m3_get A x y - m3_get A y x))) by exact RG. ring.
      + symmetry. apply rsum_zero. intros v _. ring. }
  rewrite (rsum_ext _ (fun h => (let '(r, c, A) := h in if Nat.eqb r c then (m3_get A 0 1 - m3_get A 1 0) * (vx (U r) * vy (W r) - vy (U r) * vx (W r)) else 0)
    + ((let '(r, c, A) := h in if Nat.eqb r c then (m3_get A 0 2 - m3_get A 2 0) * (vx (U r) * vz (W r) - vz (U r) * vx (W r)) else 0)
      + (let '(r, c, A) := h in if Nat.eqb r c then (m3_get A 1 2 - m3_get A 2 1) * (vy (U r) * vz (W r) - vz (U r) * vy (W r)) else 0)))).
  - rewrite !rsum_plus, (SS 0%nat 1%nat (fun r => vx (U r) * vy (W r) - vy (U r) * vx (W r))), (SS 0%nat 2%nat (fun r => vx (U r) * vz (W r) - vz (U r) * vx (W r))), (SS 1%nat 2%nat (fun r => vy (U r) * vz (W r) - vz (U r) * vy (W r))) by lia. ring.
  - intros [[r c] A] _. destruct (Nat.eqb r c); [|ring]. rewrite skew_value. ring.
Qed.

(** ** The product of the distance gradient *)
Definition col_rate (g : mapped v3) (U : nat -> v3) (j : nat) : R := rsum (map (fun e => if Nat.eqb (snd (fst e)) j then v3_dot (snd e) (U (fst (fst e))) else 0) (stored g)).
Lemma in_rows g e : In e (stored g) -> In (fst (fst e)) (stored_rows g).
Proof. destruct e as [[r j] b]. intros I. apply in_combine_l in I. unfold stored_rows. apply unseen_in. split; [apply (in_map fst _ (r, j) I)|intros []]. Qed.
Lemma rows_sum g m (F : nat -> nat -> v3 -> R) :
  rsum (map (fun r => rsum (map (fun e => F r (fst e) (snd e)) (row_entries g r))) (filter (active m) (stored_rows g)))
  = rsum (map (fun e => if active m (fst (fst e)) then F (fst (fst e)) (snd (fst e)) (snd e) else 0) (stored g)).
Proof.
  rewrite <- (rsum_filter (active m) (fun r => rsum (map (fun e => F r (fst e) (snd e)) (row_entries g r)))).
  rewrite (rsum_ext _ (fun r => rsum (map (fun e => if Nat.eqb (fst (fst e)) r then (if active m r then F r (snd (fst e)) (snd e) else 0) else 0) (stored g)))).
  - rewrite rsum_swap. apply rsum_ext. intros e He. apply (pick_one (fun r => if active m r then F r (snd (fst e)) (snd e) else 0)); [apply unseen_nodup|apply in_rows, He].
  - intros r _. unfold row_entries. rewrite map_map. cbn [fst snd]. fold (stored g). rewrite (rsum_filter (fun e : nat * nat * v3 => Nat.eqb (fst (fst e)) r) (fun e => if active m r then F r (snd (fst e)) (snd e) else 0)).
    destruct (active m r); [reflexivity|]. symmetry. apply rsum_zero. reflexivity.
Qed.
Lemma gradient_product_form g f m U W nc : (forall p, In p (mp_pattern g) -> (snd p < nc)%nat) ->
  gbil U W (gradient_product g f m) = rsum (map (fun j => f j * (col_rate g (cut m U) j * col_rate g (cut m W) j)) (seq 0 nc)).
Proof.
  intros NC. unfold gradient_product. rewrite gbil_flat_map.
  rewrite (rsum_ext _ (fun r => rsum (map (fun c => rsum (map (fun a => rsum (map (fun b => if Nat.eqb (fst a) (fst b) then f (fst a) * (v3_dot (snd a) (U r) * v3_dot (snd b) (W c)) else 0) (row_entries g c))) (row_entries g r))) (filter (active m) (stored_rows g))))).
  2: { intros r _. rewrite gbil_flat_map. apply rsum_ext. intros c _. unfold gbil. rewrite map_map. unfold common_columns. rewrite MassProofs.rsum_flat_map. apply rsum_ext. intros [j a] _. rewrite map_map. cbn [fst snd].
    rewrite (rsum_filter (fun b : nat * v3 => Nat.eqb j (fst b)) (fun b => f j * (v3_dot a (U r) * v3_dot (snd b) (W c)))). apply rsum_ext. intros b _. rewrite bil_scale, bil_outer. reflexivity. }
  rewrite (rsum_ext _ (fun r => rsum (map (fun a => (fun r j a => rsum (map (fun e => if active m (fst (fst e)) then (if Nat.eqb j (snd (fst e)) then f j * (v3_dot a (U r) * v3_dot (snd e) (W (fst (fst e)))) else 0) else 0) (stored g))) r (fst a) (snd a)) (row_entries g r)))).
  2: { intros r _. rewrite rsum_swap. apply rsum_ext. intros a _. cbv beta. apply (rows_sum g m (fun c j b => if Nat.eqb (fst a) j then f (fst a) * (v3_dot (snd a) (U r) * v3_dot b (W c)) else 0)). }
  rewrite (rows_sum g m (fun r j a => rsum (map (fun e => if active m (fst (fst e)) then (if Nat.eqb j (snd (fst e)) then f j * (v3_dot a (U r) * v3_dot (snd e) (W (fst (fst e)))) else 0) else 0) (stored g)))).
  assert (CUT : forall Z v a, v3_dot a (cut m Z v) = if active m v then v3_dot a (Z v) else 0) by (intros Z v a; unfold cut; destruct (active m v); [reflexivity|destruct a as [a0 a1 a2]; unfold v3_dot, v3_0; cbn [vx vy vz]; ring]).
  rewrite (rsum_ext _ (fun e => rsum (map (fun j => if Nat.eqb (snd (fst e)) j then f j * (v3_dot (snd e) (cut m U (fst (fst e))) * col_rate g (cut m W) j) else 0) (seq 0 nc)))).
  - rewrite rsum_swap. apply rsum_ext. intros j _. unfold col_rate at 2.
    rewrite (rsum_ext _ (fun e => (f j * col_rate g (cut m W) j) * (if Nat.eqb (snd (fst e)) j then v3_dot (snd e) (cut m U (fst (fst e))) else 0))) by (intros e _; destruct (Nat.eqb (snd (fst e)) j); ring). rewrite rsum_scale. ring.
  - intros e He. rewrite (seq_pick (fun j => f j * (v3_dot (snd e) (cut m U (fst (fst e))) * col_rate g (cut m W) j))) by (apply NC; destruct e as [p b]; exact (in_combine_l _ _ _ _ He)).
    rewrite CUT. unfold col_rate. destruct (active m (fst (fst e))); [|ring]. rewrite <- Rmult_assoc, <- rsum_scale. apply rsum_ext. intros e' _. rewrite CUT, (Nat.eqb_sym (snd (fst e'))).
    destruct (active m (fst (fst e'))), (Nat.eqb (snd (fst e)) (snd (fst e'))); ring.
Qed.
Lemma vx_vsum {A} (f : A -> R) l : vx (vsum (map (fun a => V3 (f a) 0 0) l)) = rsum (map f l).
Proof. induction l as [|a l IH]; [symmetry; apply rsum_nil|]. cbn [map]. rewrite vsum_cons, rsum_cons, <- IH. reflexivity. Qed.
Lemma col_rate_built J n nc U j : (forall e, In e J -> (fst (fst e) < nc)%nat /\ (snd (fst e) < n)%nat) -> col_rate (build_distance_gradient J n nc) U j = row_product J U j.
Proof.
  intros RG. set (keep := fun p : pos => (Nat.ltb (fst p) n && Nat.ltb (snd p) nc)%bool). assert (B := build_correct v3 v3_add v3_0 v3_monoid keep (distance_triplets J)).
  pose (h := fun (p : pos) (b : v3) => V3 (if Nat.eqb (snd p) j then v3_dot b (U (fst p)) else 0) 0 0).
  assert (HA : forall p x y, h p (v3_add x y) = v3_add (h p x) (h p y)) by (intros [p1 p2] [x0 x1 x2] [y0 y1 y2]; unfold h; cbn [fst snd]; destruct (Nat.eqb p2 j); apply v3_eq; unfold v3_dot, v3_add; cbn [vx vy vz]; ring).
  assert (HZ : forall p, h p v3_0 = v3_0) by (intros [p1 p2]; unfold h; cbn [fst snd]; destruct (Nat.eqb p2 j); apply v3_eq; unfold v3_dot, v3_0; cbn [vx vy vz]; ring).
  assert (E := operator_built v3 v3_add v3_0 h HA HZ keep _ _ B).
  apply (f_equal vx) in E. unfold h in E. rewrite !(vx_vsum (fun e : pos * v3 => if Nat.eqb (snd (fst e)) j then v3_dot (snd e) (U (fst (fst e))) else 0)) in E.
  refine (eq_trans E _). unfold row_product. rewrite ContactAsmProofs.filter_all.
  - unfold distance_triplets. rewrite map_map. apply rsum_ext. intros [[r c] b] _. reflexivity.
  - intros e He. unfold distance_triplets in He. apply in_map_iff in He. destruct He as ([[r c] b] & <- & I). destruct (RG _ I). unfold keep. cbn [fst snd] in *. apply andb_true_intro. split; apply Nat.ltb_lt; assumption.
Qed.
Lemma built_columns J n nc p : In p (mp_pattern (build_distance_gradient J n nc)) -> (snd p < nc)%nat.
Proof.
  intros I. set (keep := fun p : pos => (Nat.ltb (fst p) n && Nat.ltb (snd p) nc)%bool). destruct (build_correct v3 v3_add v3_0 v3_monoid keep (distance_triplets J)) as (_ & _ & M & _). apply M in I. destruct I as [K _].
  unfold keep in K. apply andb_prop in K. apply Nat.ltb_lt, K.
Qed.

(** ** Rows of a contact *)
Definition opt_list {A} (o : option (list A)) : list A := match o with Some l => l | None => [] end.
Lemma all_some_map {A B} (f : A -> option B) (g : A -> B) l : (forall a, In a l -> f a = Some (g a)) -> all_some (map f l) = Some (map g l).
Proof. induction l as [|a l IH]; intros H; [reflexivity|]. cbn [map all_some]. rewrite (H a (or_introl eq_refl)), IH by (intros b Hb; apply H; right; exact Hb). reflexivity. Qed.
Lemma concat_map_flat {A B} (f : A -> list B) l : concat (map f l) = flat_map f l.
Proof. symmetry. apply flat_map_concat_map. Qed.
Lemma subset_spec {A} (X : list A) ids ys : subset X ids = Some ys -> length ys = length ids /\ forall v d, (v < length ids)%nat -> nth_error X (nth v ids 0%nat) = Some (nth v ys d).
Proof.
  intros E. apply all_some_forall2 in E. split; [symmetry; exact (forall2_length _ _ _ E)|]. intros v d L. exact (forall2_nth_default _ _ _ 0%nat d v E L).
Qed.
Lemma subset_line X ids ys U s : subset X ids = Some ys -> subset (mesh_line X U s) ids = Some (mesh_line ys (fun v => U (nth v ids 0%nat)) s).
Proof.
  intros E. apply all_some_forall2 in E. unfold subset, mesh_line. apply all_some_forall2.
  assert (G : forall ids ys m, Forall2 (fun i y => nth_error X i = Some y) ids ys ->
    Forall2 (fun i y => nth_error (map (fun p : nat * v3 => v3_line (snd p) (U (fst p)) s) (combine (seq 0 (length X)) X)) i = Some y) ids
      (map (fun p => v3_line (snd p) (U (nth (fst p - m) ids 0%nat)) s) (combine (seq m (length ys)) ys))).
  { clear. induction ids as [|i ids IH]; intros ys m F; inversion F as [|? y ? ys' H F' E1 E2]; subst; [constructor|]. cbn [length seq combine map fst snd]. constructor.
    - rewrite Nat.sub_diag. cbn [nth]. rewrite nth_error_map. assert (C : nth_error (combine (seq 0 (length X)) X) i = Some (i, y)).
      { apply nth_error_combine. split; [|exact H]. assert (L : (i < length X)%nat) by (apply nth_error_Some; congruence). rewrite (nth_error_nth' _ 0%nat) by (rewrite seq_length; exact L). rewrite seq_nth by exact L. reflexivity. }
      rewrite C. reflexivity.
    - specialize (IH ys' (Datatypes.S m) F').
      assert (EQ : map (fun p : nat * v3 => v3_line (snd p) (U (nth (fst p - m) (i :: ids) 0%nat)) s) (combine (seq (Datatypes.S m) (length ys')) ys') = map (fun p : nat * v3 => v3_line (snd p) (U (nth (fst p - Datatypes.S m) ids 0%nat)) s) (combine (seq (Datatypes.S m) (length ys')) ys')).
      { apply map_ext_in. intros [k y'] I. apply in_combine_l, in_seq in I. cbn [fst snd]. replace (k - m)%nat with (Datatypes.S (k - Datatypes.S m)) by lia. reflexivity. }
      rewrite EQ. exact IH. }
  specialize (G ids ys 0%nat E). assert (EQ : map (fun p : nat * v3 => v3_line (snd p) (U (nth (fst p - 0) ids 0%nat)) s) (combine (seq 0 (length ys)) ys) = map (fun p : nat * v3 => v3_line (snd p) (U (nth (fst p) ids 0%nat)) s) (combine (seq 0 (length ys)) ys)).
  { apply map_ext. intros [k y]. cbn [fst snd]. rewrite Nat.sub_0_r. reflexivity. }
  rewrite <- EQ. exact G.
Qed.
Definition line_row (Z : nat -> v3) (s : R) (p : nat * (v3 * list nat)) : nat * (v3 * list nat) := (fst p, (v3_line (fst (snd p)) (Z (fst p)) s, snd (snd p))).
Lemma rows_line (qs : list v3) (ns : list (list nat)) Z s :
  filter (fun p : nat * (v3 * list nat) => negb (is_nil (snd (snd p)))) (enumerate (combine (mesh_line qs Z s) ns))
  = map (line_row Z s) (filter (fun p => negb (is_nil (snd (snd p)))) (enumerate (combine qs ns))).
Proof.
  unfold enumerate, mesh_line. rewrite !combine_length, map_length, combine_length, seq_length, Nat.min_id. generalize 0%nat. revert ns. induction qs as [|q qs IH]; intros [|l ns] m; try reflexivity.
  cbn [length Nat.min seq combine map filter fst snd]. destruct l; cbn [is_nil negb map]; rewrite IH; reflexivity.
Qed.
Lemma numbers_rows (qs : list v3) : forall ns m k, length qs = length ns ->
  let rows := filter (fun p : nat * (v3 * list nat) => negb (is_nil (snd (snd p)))) (combine (seq m (length (combine qs ns))) (combine qs ns)) in
  forall j p, nth_error rows j = Some p -> (m <= fst p)%nat /\ nth_error (number_nonempty k (map (@length nat) ns)) (fst p - m) = Some (Some (k + j)%nat).
Proof.
  induction qs as [|q qs IH]; intros [|l ns] m k L rows j p H; try discriminate; [destruct j; discriminate H|]. unfold rows in H. cbn [combine length seq filter snd] in H. cbn [map length number_nonempty].
  destruct l as [|a l]; cbn [is_nil negb length] in H |- *.
  - destruct (IH ns (Datatypes.S m) k (f_equal pred L) j p H) as [A B]. split; [lia|]. replace (fst p - m)%nat with (Datatypes.S (fst p - Datatypes.S m)) by lia. exact B.
  - destruct j as [|j]; cbn [nth_error] in H.
    + injection H as <-. cbn [fst]. rewrite Nat.sub_diag, Nat.add_0_r. split; [lia|reflexivity].
    + destruct (IH ns (Datatypes.S m) (Datatypes.S k) (f_equal pred L) j p H) as [A B]. split; [lia|]. replace (fst p - m)%nat with (Datatypes.S (fst p - Datatypes.S m)) by lia. cbn [nth_error]. rewrite B. f_equal. f_equal. lia.
Qed.
Lemma potentials_map k P S : forall qs ns, length qs = length ns -> potentials k P S qs ns (repeat 0 (length qs)) = map (fun p => potential_at (fst p) S (snd p) k P 0) (combine qs ns).
Proof. induction qs as [|q qs IH]; intros [|n ns] L; try discriminate; [reflexivity|]. cbn [length repeat potentials combine map fst snd]. rewrite IH by (cbn in L; lia). reflexivity. Qed.
Lemma kept_values (f : v3 * list nat -> R) : forall qs ns m, length qs = length ns ->
  map snd (filter (fun p : nat * R => negb (Nat.eqb (fst p) 0)) (combine (map (@length nat) ns) (map f (combine qs ns))))
  = map (fun p => f (snd p)) (filter (fun p : nat * (v3 * list nat) => negb (is_nil (snd (snd p)))) (combine (seq m (length (combine qs ns))) (combine qs ns))).
Proof.
  induction qs as [|q qs IH]; intros [|n ns] m L; try discriminate; [reflexivity|]. specialize (IH ns (Datatypes.S m) (f_equal pred L)). cbn [combine map length seq filter fst snd].
  destruct n as [|a n]; cbn [length Nat.eqb is_nil negb map snd]; [exact IH|]. f_equal. exact IH.
Qed.
