(** Second derivatives of the implicit potential in the vertices of the surface. *)
From Coq Require Import Reals List Bool Lra Lia Psatz.
From Coquelicot Require Import Coquelicot.
From Verif Require Import Vec3 Mat3 RList Calc KernelModel KernelSpec KernelProofs FieldModel FieldSpec FieldProofs FieldDerivProofs
  NeighborModel NeighborSpec NeighborProofs UpdateProps SurfJacModel SurfJacSpec SurfJacProofs SurfJacProps HessModel HessSpec HessProofs HessMixProofs HessProps
  SurfHessModel SurfHessSpec JetProofs SurfHessProofs SurfHessCodeProofs.
From Verif Require MassProofs ElasticModel.
Local Notation m3_get := ElasticModel.m3_get.
Import ListNotations.
Local Open Scope R_scope.

(** ** Lower triangles as indices and values *)
Definition entry_form (x : nat -> R) (p : nat * nat * R) : R :=
  let '(r, c, a) := p in if Nat.eqb r c then a * x r * x r else 2 * a * x r * x c.
Lemma seq_pick (f : nat -> R) a n : (a < n)%nat -> rsum (map (fun i => if Nat.eqb a i then f i else 0) (seq 0 n)) = f a.
Proof. intros L. apply pick_one; [apply seq_NoDup|apply in_seq; lia]. Qed.
Lemma lower_entry_cons p a ij vals i j : lower_entry (p :: ij) (a :: vals) i j = (if orb (andb (Nat.leb j i) (andb (Nat.eqb (fst p) i) (Nat.eqb (snd p) j))) (andb (negb (Nat.leb j i)) (andb (Nat.eqb (fst p) j) (Nat.eqb (snd p) i))) then a else 0) + lower_entry ij vals i j.
Proof. unfold lower_entry. destruct (Nat.leb j i); cbn [combine map fst snd]; rewrite rsum_cons; cbn [andb negb orb]; [rewrite orb_false_r|]; reflexivity. Qed.
Lemma lower_form_entries n x : forall ij vals, (forall p, In p ij -> (snd p <= fst p < n)%nat) -> length ij = length vals ->
  lower_form n ij vals x = rsum (map (entry_form x) (combine ij vals)).
Proof.
  induction ij as [|[r c] ij IH]; intros [|a vals] H L; try discriminate.
  - unfold lower_form. cbn [combine map]. rewrite rsum_nil. apply rsum_zero. intros i _. apply rsum_zero. intros j _. unfold lower_entry. destruct (Nat.leb j i); cbn [combine map]; rewrite rsum_nil; ring.
  - cbn [combine map]. rewrite rsum_cons, <- IH by (try (intros p Hp; apply H; right; exact Hp); cbn in L; lia). specialize (H (r, c) (or_introl eq_refl)). cbn [fst snd] in H.
    unfold lower_form.
    assert (E : forall i, rsum (map (fun j => lower_entry ((r, c) :: ij) (a :: vals) i j * x i * x j) (seq 0 n))
      = ((if Nat.eqb r i then a * x i * x c else 0) + (if Nat.eqb c i then (if Nat.eqb r c then 0 else a * x i * x r) else 0)) + rsum (map (fun j => lower_entry ij vals i j * x i * x j) (seq 0 n))).
    { intros i. rewrite (rsum_ext _ (fun j => ((if Nat.eqb c j then (if Nat.eqb r i then a * x i * x j else 0) else 0) + (if Nat.eqb r j then (if Nat.eqb c i then (if Nat.eqb r c then 0 else a * x i * x j) else 0) else 0)) + lower_entry ij vals i j * x i * x j)).
      - rewrite !rsum_plus, (seq_pick (fun j => if Nat.eqb r i then a * x i * x j else 0)), (seq_pick (fun j => if Nat.eqb c i then (if Nat.eqb r c then 0 else a * x i * x j) else 0)) by lia. reflexivity.
      - intros j _. rewrite lower_entry_cons. cbn [fst snd]. destruct (Nat.leb_spec j i), (Nat.eqb_spec r i), (Nat.eqb_spec c j), (Nat.eqb_spec r j), (Nat.eqb_spec c i), (Nat.eqb_spec r c); subst; cbn [andb orb negb]; try lia; ring. }
    rewrite (rsum_ext _ _ _ (fun i _ => E i)). rewrite !rsum_plus, (seq_pick (fun i => a * x i * x c)), (seq_pick (fun i => if Nat.eqb r c then 0 else a * x i * x r)) by lia.
    unfold entry_form. destruct (Nat.eqb_spec r c) as [->|]; ring.
Qed.
(** Entries of a block. *)
Definition block_entries (h : nat * nat * m3) : list (nat * nat * R) :=
  let '(row, col, A) := h in
  flat_map (fun r => map (fun c => ((3 * row + r, 3 * col + c)%nat, m3_get A r c)) (filter (fun c => Nat.leb (3 * col + c) (3 * row + r)) [0; 1; 2]%nat)) [0; 1; 2]%nat.
Definition expand (ij : list (nat * nat)) : list (nat * nat) :=
  filter (fun p => Nat.leb (snd p) (fst p)) (flat_map (fun p => flat_map (fun r => map (fun c => (3 * fst p + r, 3 * snd p + c)%nat) [0; 1; 2]%nat) [0; 1; 2]%nat) ij).
Lemma filter_flat_map {A B} (p : B -> bool) (f : A -> list B) l : filter p (flat_map f l) = flat_map (fun a => filter p (f a)) l.
Proof. induction l as [|a l IH]; [reflexivity|]. cbn [flat_map]. rewrite filter_app, IH. reflexivity. Qed.
Lemma filter_map {A B} (p : B -> bool) (f : A -> B) l : filter p (map f l) = map f (filter (fun a => p (f a)) l).
Proof. induction l as [|a l IH]; [reflexivity|]. cbn. destruct (p (f a)); cbn; rewrite IH; reflexivity. Qed.
Lemma expand_cons i j ij : expand ((i, j) :: ij) = flat_map (fun r => map (fun c => (3 * i + r, 3 * j + c)%nat) (filter (fun c => Nat.leb (3 * j + c) (3 * i + r)) [0; 1; 2]%nat)) [0; 1; 2]%nat ++ expand ij.
Proof.
  unfold expand. rewrite (filter_flat_map _ _ ((i, j) :: ij)), (filter_flat_map _ _ ij). lazymatch goal with |- flat_map ?F (?a :: ?l) = _ => change (flat_map F (a :: l)) with (F a ++ flat_map F l) end. f_equal.
  cbn [fst snd]. rewrite filter_flat_map. apply flat_map_ext. intros r. apply filter_map.
Qed.
Lemma combine_flat_maps {A B C} (f : A -> list B) (g : A -> list C) l : (forall a, length (f a) = length (g a)) -> combine (flat_map f l) (flat_map g l) = flat_map (fun a => combine (f a) (g a)) l.
Proof. intros L. induction l as [|a l IH]; [reflexivity|]. cbn [flat_map]. rewrite combine_app_eq by apply L. rewrite IH. reflexivity. Qed.
Lemma block_combine i j A : combine (flat_map (fun r => map (fun c => (3 * i + r, 3 * j + c)%nat) (filter (fun c => Nat.leb (3 * j + c) (3 * i + r)) [0; 1; 2]%nat)) [0; 1; 2]%nat) (block_values (i, j, A)) = block_entries (i, j, A).
Proof.
  unfold block_values, block_entries. rewrite combine_flat_maps by (intros; rewrite !map_length; reflexivity). apply flat_map_ext. intros r. apply combine_map_same.
Qed.
Lemma block_length i j A : length (flat_map (fun r => map (fun c => (3 * i + r, 3 * j + c)%nat) (filter (fun c => Nat.leb (3 * j + c) (3 * i + r)) [0; 1; 2]%nat)) [0; 1; 2]%nat) = length (block_values (i, j, A)).
Proof. unfold block_values. cbn [flat_map]. rewrite !app_length, !map_length. reflexivity. Qed.
Lemma expand_values : forall L, length (expand (map fst L)) = length (flat_map block_values L) /\ combine (expand (map fst L)) (flat_map block_values L) = flat_map block_entries L.
Proof.
  induction L as [|[[i j] A] L (IH1 & IH2)]; [split; reflexivity|]. cbn [map fst flat_map]. rewrite expand_cons. split.
  - rewrite !app_length, IH1, (block_length i j A). reflexivity.
  - rewrite combine_app_eq by apply block_length. rewrite block_combine, IH2. reflexivity.
Qed.
Lemma entries_form U h : (snd (fst h) <= fst (fst h))%nat -> rsum (map (entry_form (coordinate U)) (block_entries h)) = bform low_square U h.
Proof.
  destruct h as [[i j] A]. cbn [fst snd]. intros L.
  assert (C : forall m r, (r < 3)%nat -> coordinate U (3 * m + r) = match r with O => vx (U m) | 1%nat => vy (U m) | _ => vz (U m) end).
  { intros m r R. unfold coordinate. replace ((3 * m + r) / 3)%nat with m by (rewrite Nat.mul_comm, Nat.div_add_l, (Nat.div_small r 3) by lia; lia).
    replace ((3 * m + r) mod 3)%nat with r by (rewrite Nat.add_comm, Nat.mul_comm, Nat.mod_add, (Nat.mod_small r 3) by lia; reflexivity). reflexivity. }
  unfold block_entries, bform. cbn [flat_map filter]. destruct (Nat.eqb_spec i j) as [->|N].
  - repeat match goal with |- context [Nat.leb ?a ?b] => destruct (Nat.leb_spec a b); try (exfalso; lia) end. cbn [map app]. rewrite !rsum_cons, rsum_nil. cbn [entry_form].
    repeat match goal with |- context [Nat.eqb ?a ?b] => destruct (Nat.eqb_spec a b); try (exfalso; lia) end. rewrite !C by lia. unfold low_square. destruct A as [[a1 a2 a3] [a4 a5 a6] [a7 a8 a9]]. cbn [ElasticModel.m3_get r0 r1 r2 vx vy vz]. ring.
  - repeat match goal with |- context [Nat.leb ?a ?b] => destruct (Nat.leb_spec a b); try (exfalso; lia) end. cbn [map app]. rewrite !rsum_cons, rsum_nil. cbn [entry_form].
    repeat match goal with |- context [Nat.eqb ?a ?b] => destruct (Nat.eqb_spec a b); try (exfalso; lia) end. rewrite !C by lia. destruct A as [[a1 a2 a3] [a4 a5 a6] [a7 a8 a9]], (U i) as [x1 x2 x3], (U j) as [y1 y2 y3].
    unfold bil, m3_mulv, v3_dot. cbn [ElasticModel.m3_get r0 r1 r2 vx vy vz]. ring.
Qed.
Lemma lower_form_blocks U n L : (forall h, In h L -> (snd (fst h) <= fst (fst h) < n)%nat) -> lower_form (3 * n) (expand (map fst L)) (flat_map block_values L) (coordinate U) = form low_square U L.
Proof.
  intros H. destruct (expand_values L) as [EL EC]. rewrite lower_form_entries; [|intros p Hp|exact EL].
  - rewrite EC, MassProofs.rsum_flat_map. unfold form. apply rsum_ext. intros h Hh. apply entries_form, H, Hh.
  - unfold expand in Hp. apply filter_In in Hp. destruct Hp as [Hp Le]. apply Nat.leb_le in Le. split; [exact Le|]. apply in_flat_map in Hp. destruct Hp as (ij & Hij & Hp). apply in_map_iff in Hij. destruct Hij as (h & <- & Hh).
    specialize (H h Hh). apply in_flat_map in Hp. destruct Hp as (r & Hr & Hp). apply in_map_iff in Hp. destruct Hp as (c & <- & Hc). cbn [fst]. cbn in Hr. lia.
Qed.

(** ** Indices of the blocks *)
Lemma map_fst_combine {A B C} (f : A * B -> C) (g : A -> C) : (forall a b, f (a, b) = g a) -> forall l m, length l = length m -> map f (combine l m) = map g l.
Proof. intros E. induction l as [|a l IH]; intros [|b m] L; try discriminate; [reflexivity|]. cbn [combine map]. rewrite E, IH by (cbn in L; lia). reflexivity. Qed.
Lemma fst_map_snd {A B C} (f : A * B -> C) l : map fst (map (fun h => (fst h, f h)) l) = map (@fst A B) l.
Proof. rewrite map_map. reflexivity. Qed.
Lemma lower_block_index r c A : fst (lower_block r c A) = ordered r c.
Proof. unfold lower_block, ordered. destruct (Nat.ltb_spec c r), (Nat.leb_spec c r), (Nat.ltb_spec r c); cbn [fst]; try lia; try reflexivity. Qed.
Lemma corner_verts {A} (f : nat -> A) t : map (fun j => f (vertex_of t j)) [0; 1; 2]%nat = map f (tri_verts t).
Proof. destruct t as [[a b] c]. reflexivity. Qed.
Lemma corner_flat {A} (f : nat -> list A) t : flat_map (fun j => f (vertex_of t j)) [0; 1; 2]%nat = flat_map f (tri_verts t).
Proof. destruct t as [[a b] c]. reflexivity. Qed.
Lemma corner_filter {A} (f : nat -> A) (p : nat -> bool) t : map (fun j => f (vertex_of t j)) (filter (fun j => p (vertex_of t j)) [0; 1; 2]%nat) = map f (filter p (tri_verts t)).
Proof. destruct t as [[a b] c]. cbn. destruct (p a), (p b), (p c); reflexivity. Qed.
Lemma corner_pairs_index t : map (fun p => (vertex_of t (fst p), vertex_of t (snd p))) (corner_pairs t) = flat_map (fun i => map (fun j => (i, j)) (filter (fun j => Nat.leb j i) (tri_verts t))) (tri_verts t).
Proof.
  unfold corner_pairs. rewrite flat_map_map. rewrite <- corner_flat. apply flat_map_ext. intros k. rewrite map_map. cbn [fst snd].
  apply (corner_filter (fun j => (vertex_of t k, j)) (fun j => Nat.leb j (vertex_of t k))).
Qed.
Lemma s2v_index topo row col H : map fst (samples_to_vertices topo row col H) = samples_to_vertices_indices topo row col.
Proof. unfold samples_to_vertices, samples_to_vertices_indices. rewrite flat_map_map. apply flat_map_ext. intros i. rewrite map_map. reflexivity. Qed.
Lemma filter_true {A} (p : A -> bool) l : (forall a, In a l -> p a = true) -> filter p l = l.
Proof. intros H. apply filter_all. apply forallb_forall. exact H. Qed.
Lemma lower_pairs_le view p : In p (lower_pairs view) -> (snd p <= fst p)%nat.
Proof. unfold lower_pairs. intros H. apply in_flat_map in H. destruct H as (i & _ & H). apply in_map_iff in H. destruct H as (j & <- & H). apply filter_In in H. destruct H as [_ L]. apply Nat.ltb_lt in L. cbn. lia. Qed.
Lemma bg_blocks_length b : length (bg_hessian_blocks b) = length (hessian_block_indices (b_weighted b) (b_view b)).
Proof.
  unfold bg_hessian_blocks, hessian_block_indices, lower_pairs. rewrite !app_length, !map_length. f_equal. destruct (b_weighted b); [|reflexivity].
  generalize (b_view b) at 2 4. intros l. induction l as [|i l IH]; [reflexivity|]. cbn [flat_map]. rewrite !app_length, !map_length, IH. reflexivity.
Qed.
Lemma sample_hessian_index b : map fst (sample_hessian_at b) = sample_hessian_indices (b_view b) ++ hessian_block_indices (b_weighted b) (b_view b).
Proof.
  unfold sample_hessian_at, sample_hessian_indices. cbv zeta. rewrite !map_app, map_map, <- app_assoc. f_equal. f_equal.
  - rewrite flat_map_map. unfold lower_pairs. apply flat_map_ext. intros i. rewrite map_map. reflexivity.
  - rewrite map_map. cbn [fst snd]. rewrite filter_true.
    + pose proof (bg_blocks_length b) as L. revert L. generalize (bg_hessian_blocks b) (hessian_block_indices (b_weighted b) (b_view b)). induction l as [|a l IH]; intros [|[x y] m] L; try discriminate; [reflexivity|].
      cbn [combine map fst snd]. rewrite IH by (cbn in L; lia). reflexivity.
    + intros [h p] I. apply in_combine_r in I. cbn [snd fst]. apply Nat.leb_le. unfold hessian_block_indices in I. apply in_app_or in I. destruct I as [I|I].
      * apply in_map_iff in I. destruct I as (i & <- & _). apply Nat.le_refl.
      * destruct (b_weighted b); [apply (lower_pairs_le _ _ I)|destruct I].
Qed.
Lemma main_index topo b : map fst (main_hessian topo b) = main_hessian_indices topo (b_weighted b) (b_view b).
Proof.
  unfold main_hessian, main_hessian_indices. rewrite <- sample_hessian_index, flat_map_map. induction (sample_hessian_at b) as [|[[row col] H] l IH]; [reflexivity|]. cbn [flat_map map fst]. rewrite IH, map_app, s2v_index. f_equal. f_equal.
  destruct (Nat.ltb col row); [apply s2v_index|reflexivity].
Qed.
Lemma normal_index V topo b : map fst (normal_hessian_at V topo b) = normal_hessian_indices topo (b_view b).
Proof.
  unfold normal_hessian_at, normal_hessian_indices. rewrite map_app, map_map. f_equal.
  - rewrite (map_fst_combine _ fst); [|intros [[r c] s] [[r' c'] n]; reflexivity|].
    + unfold symmetric_jacobian. rewrite flat_map_map. apply flat_map_ext. intros i. cbv zeta. rewrite map_map. cbn [fst snd]. apply corner_pairs_index.
    + unfold symmetric_jacobian, normal_hessian_products. induction (b_view b) as [|i l IH]; [reflexivity|]. cbn [flat_map]. rewrite !app_length, IH, !map_length. reflexivity.
  - unfold coupling_blocks. cbv zeta. rewrite flat_map_map. apply flat_map_ext. intros l. rewrite map_app, !flat_map_map. f_equal.
    + rewrite <- (corner_flat (fun i => map (fun j => ordered i j) (tri_verts (tri_of topo l)))). apply flat_map_ext. intros i. rewrite map_map, <- corner_verts. apply map_ext. intros j. apply lower_block_index.
    + apply flat_map_ext. intros m. rewrite flat_map_map. rewrite <- (corner_flat (fun j => map (fun i => ordered j i) (tri_verts (tri_of topo l)))). apply flat_map_ext. intros i. rewrite map_map, <- corner_verts. apply map_ext. intros j. apply lower_block_index.
Qed.
Lemma face_index q S view k topo V P m L : face_hessian_at q S view k topo V P m = Some L -> face_hessian_indices topo (p_weighted P) view = Some (map fst L).
Proof.
  unfold face_hessian_at, face_hessian_indices. destruct (bg_local q S view k P None) as [b|] eqn:EB; [|discriminate]. destruct (view_in_range V topo view) eqn:VR; [|discriminate]. intros E. injection E as <-.
  assert (EV : b_view b = view /\ b_weighted b = p_weighted P). { unfold bg_local in EB. destruct (closest_sample _ _ _); [|discriminate]. injection EB as <-. split; reflexivity. }
  destruct EV as [<- <-]. replace (forallb _ _) with true.
  - f_equal. rewrite map_map. cbn [fst]. rewrite (map_ext _ fst) by reflexivity. rewrite map_app, normal_index, main_index. reflexivity.
  - symmetry. apply forallb_forall. intros i Hi. unfold view_in_range in VR. rewrite forallb_forall in VR. specialize (VR i Hi). apply andb_prop in VR. apply VR.
Qed.
(** Every block lies at or below the diagonal, and within the vertices. *)
Definition below (n : nat) (p : nat * nat) : Prop := (snd p <= fst p < n)%nat.
Lemma vertex_bound b i v : sb_type b = SFace -> well_formed b -> (i < length (sb_samples b))%nat -> In v (tri_verts (tri_of (sb_topo b) i)) -> (v < length (sb_verts b))%nat.
Proof. intros TY [W L] H I. rewrite TY in L. apply (W (tri_of (sb_topo b) i)); [apply nth_In; rewrite <- L; exact H|exact I]. Qed.
Lemma s2v_below b n r c p : (forall v, In v (tri_verts (tri_of (sb_topo b) r)) -> (v < n)%nat) -> In p (samples_to_vertices_indices (sb_topo b) r c) -> below n p.
Proof. intros H I. unfold samples_to_vertices_indices in I. apply in_flat_map in I. destruct I as (i & Hi & I). apply in_map_iff in I. destruct I as (j & <- & I). apply filter_In in I. destruct I as [_ L]. apply Nat.leb_le in L. split; [exact L|apply H, Hi]. Qed.
Lemma ordered_below n i j : (i < n)%nat -> (j < n)%nat -> below n (ordered i j).
Proof. intros A B. unfold ordered, below. destruct (Nat.leb_spec j i); cbn [fst snd]; lia. Qed.
Lemma indices_below b w nbrs ij : sb_type b = SFace -> well_formed b -> (forall i, In i nbrs -> (i < length (sb_samples b))%nat) -> face_hessian_indices (sb_topo b) w nbrs = Some ij -> forall p, In p ij -> below (length (sb_verts b)) p.
Proof.
  intros TY W LEN E p Hp. unfold face_hessian_indices in E. destruct (forallb _ _); [|discriminate]. injection E as <-.
  assert (VB : forall i v, In i nbrs -> In v (tri_verts (tri_of (sb_topo b) i)) -> (v < length (sb_verts b))%nat). { intros i v Hi. apply vertex_bound; auto. }
  apply in_app_or in Hp. destruct Hp as [Hp|Hp].
  - unfold normal_hessian_indices in Hp. apply in_app_or in Hp. destruct Hp as [Hp|Hp]; apply in_flat_map in Hp; destruct Hp as (i & Hi & Hp).
    + apply (s2v_below b _ i i p (fun v => VB i v Hi) Hp).
    + apply in_app_or in Hp. destruct Hp as [Hp|Hp]; apply in_flat_map in Hp; destruct Hp as (x & Hx & Hp).
      * apply in_map_iff in Hp. destruct Hp as (y & <- & Hy). apply ordered_below; [exact (VB i x Hi Hx)|exact (VB i y Hi Hy)].
      * apply in_flat_map in Hp. destruct Hp as (y & Hy & Hp). apply in_map_iff in Hp. destruct Hp as (z & <- & Hz). apply ordered_below; [exact (VB x y Hx Hy)|exact (VB i z Hi Hz)].
  - unfold main_hessian_indices in Hp. apply in_flat_map in Hp. destruct Hp as ([r c] & Hrc & Hp).
    assert (R : In r nbrs /\ In c nbrs).
    { assert (LP : In (r, c) (lower_pairs nbrs) -> In r nbrs /\ In c nbrs). { intros I. unfold lower_pairs in I. apply in_flat_map in I. destruct I as (i & Hi & I). apply in_map_iff in I. destruct I as (j & E & I). injection E as <- <-. apply filter_In in I. tauto. }
      assert (DP : In (r, c) (map (fun i => (i, i)) nbrs) -> In r nbrs /\ In c nbrs). { intros I. apply in_map_iff in I. destruct I as (i & E & I). injection E as <- <-. tauto. }
      unfold sample_hessian_indices, hessian_block_indices in Hrc. rewrite !in_app_iff in Hrc. destruct w; cbn [In] in Hrc; clear - Hrc LP DP; tauto. }
    apply in_app_or in Hp. destruct Hp as [Hp|Hp].
    + apply (s2v_below b _ r c p (fun v => VB r v (proj1 R)) Hp).
    + destruct (Nat.ltb c r); [|destruct Hp]. apply (s2v_below b _ c r p (fun v => VB c v (proj2 R)) Hp).
Qed.

(** ** Rows *)
Definition nearby (qs : list v3) (ns : list (list nat)) : list (v3 * list nat) :=
  filter (fun p => match snd p with [] => false | _ :: _ => true end) (combine qs ns).
Lemma nearby_indices : forall qs ns, length qs = length ns -> nearby qs ns = map (fun i => (nth i qs v3_0, nth i ns [])) (neighbored ns).
Proof.
  induction qs as [|q qs IH]; intros [|n ns] L; try discriminate; [reflexivity|]. unfold nearby, neighbored. change (seq 0 (length (n :: ns))) with (0%nat :: seq 1 (length ns)). cbn [combine filter snd]. change (nth 0 (n :: ns) []) with n.
  assert (X : filter (fun i => match nth i (n :: ns) [] with [] => false | _ :: _ => true end) (seq 1 (length ns)) = map Datatypes.S (neighbored ns)) by (rewrite <- seq_shift; apply filter_map).
  specialize (IH ns (f_equal pred L)). unfold nearby in IH. destruct n; rewrite X; cbn [map nth]; rewrite map_map; cbn [nth]; rewrite IH; reflexivity.
Qed.
Lemma enum_filter {A} (p : A -> bool) : forall (l : list A) n, map snd (filter (fun x => p (snd x)) (combine (seq n (length l)) l)) = filter p l.
Proof. induction l as [|a l IH]; intros n; [reflexivity|]. cbn [length seq combine filter snd]. destruct (p a); cbn [map snd]; rewrite IH; reflexivity. Qed.
Lemma rows_neighbored t qs : map snd (hessian_rows t qs) = nearby qs (trivial_neighborhood t).
Proof.
  unfold hessian_rows, nearby, enumerate. rewrite (enum_filter (fun x : v3 * list nat => negb (is_nil (snd x)))). apply filter_ext. intros [q [|i l]]; reflexivity.
Qed.
Lemma combine_map_left {A B C D} (f : A -> B) (g : B * C -> D) : forall (l : list A) (m : list C), map (fun p => g (f (fst p), snd p)) (combine l m) = map g (combine (map f l) m).
Proof. induction l as [|a l IH]; intros [|c m]; [reflexivity..|]. cbn [combine map fst snd]. rewrite IH. reflexivity. Qed.
(** Rows without neighbours have no indices. *)
Lemma indices_rows topo w : forall (qs : list v3) ns (Ls : list (list (nat * nat * m3))), length qs = length ns ->
  Forall2 (fun p L => face_hessian_indices topo w (snd p) = Some (map fst L)) (nearby qs ns) Ls ->
  option_map (@concat _) (all_some (map (face_hessian_indices topo w) ns)) = Some (map fst (concat Ls)).
Proof.
  induction qs as [|q qs IH]; intros [|n ns] Ls L F; try discriminate.
  - inversion F. reflexivity.
  - unfold nearby in F. cbn [combine filter snd] in F. cbn [map]. destruct n as [|i n].
    + specialize (IH ns Ls (f_equal pred L) F). unfold face_hessian_indices at 1. cbn [forallb all_some]. destruct (all_some (map _ ns)) as [r|]; [|discriminate]. cbn [option_map] in IH |- *. injection IH as IH. f_equal. destruct w; exact IH.
    + inversion F as [|p0 L0 rs Ls' E F' E1 E2]. subst. cbn [snd] in E. specialize (IH ns Ls' (f_equal pred L) F'). rewrite E. cbn [all_some]. destruct (all_some (map _ ns)) as [r|]; [|discriminate]. cbn [option_map] in IH |- *. injection IH as IH. f_equal. cbn [concat]. rewrite map_app, IH. reflexivity.
Qed.
Lemma forall2_weaken {A B} (P Q : A -> B -> Prop) l r : (forall a b, P a b -> Q a b) -> Forall2 P l r -> Forall2 Q l r.
Proof. intros H F. induction F; constructor; auto. Qed.
Section Rows.
Variables (t : query_topo) (qs : list v3) (mults : list R).
Let b := q_base t.
Let k := q_kernel t.
Let S := sb_samples b.
Let V := sb_verts b.
Let near := nearby qs (trivial_neighborhood t).
Hypothesis TY : sb_type b = SFace.
Hypothesis WF : well_formed b.
Hypothesis LQ : length qs = length (trivial_neighborhood t).
Hypothesis LM : length mults = length near.
Hypothesis LEN : forall q nbrs i, In (q, nbrs) near -> In i nbrs -> (i < length S)%nat.
Let row (p : v3 * list nat * R) : option (list (nat * nat * m3)) := face_hessian_at (fst (fst p)) S (snd (fst p)) k (sb_topo b) V (sb_bg b) (snd p).
Lemma near_nonempty q nbrs : In (q, nbrs) near -> nbrs <> [].
Proof. unfold near, nearby. intros H. apply filter_In in H. destruct H as [_ H]. cbn [snd] in H. destruct nbrs; [discriminate|intros C; discriminate C]. Qed.
Lemma near_range q nbrs : In (q, nbrs) near -> view_in_range V (sb_topo b) nbrs = true.
Proof.
  intros H. unfold view_in_range. apply forallb_forall. intros i Hi. apply andb_true_intro. pose proof (LEN q nbrs i H Hi) as L. split.
  - apply Nat.ltb_lt. destruct WF as [_ W]. rewrite TY in W. rewrite <- W. exact L.
  - apply forallb_forall. intros v Hv. apply Nat.ltb_lt. exact (vertex_bound b i v TY WF L Hv).
Qed.
Lemma row_some p : In p (combine near mults) -> exists L, row p = Some L.
Proof.
  destruct p as [[q nbrs] m]. intros I. apply in_combine_l in I. unfold row. cbn [fst snd]. unfold face_hessian_at, bg_local. destruct (closest_some q S nbrs (near_nonempty q nbrs I)) as [c ->].
  rewrite (near_range q nbrs I). eauto.
Qed.
Lemma blocks_rows : surface_hessian_blocks t qs mults = Result (option_map (@concat _) (all_some (map row (combine near mults)))).
Proof.
  unfold surface_hessian_blocks. fold b. rewrite TY. f_equal. f_equal. f_equal. unfold near. rewrite <- (rows_neighbored t qs), <- combine_map_left. apply map_ext. intros [[i [q nbrs]] m]. reflexivity.
Qed.
Lemma forall2_left {A B C} (P : A -> C -> Prop) : forall (l : list A) (m : list B) (r : list C), length m = length l -> Forall2 (fun p c => P (fst p) c) (combine l m) r -> Forall2 P l r.
Proof. induction l as [|a l IH]; intros [|x m] r L F; try discriminate; inversion F; subst; constructor; [assumption|]. apply (IH m); [cbn in L; lia|assumption]. Qed.
Lemma blocks_total : exists Ls, all_some (map row (combine near mults)) = Some Ls /\ surface_hessian_blocks t qs mults = Result (Some (concat Ls)) /\
  surface_hessian_block_indices t = Result (Some (map fst (concat Ls))) /\ (forall h, In h (concat Ls) -> below (length V) (fst h)).
Proof.
  destruct (all_some_total row (combine near mults) row_some) as [Ls E]. exists Ls. split; [exact E|]. split; [rewrite blocks_rows, E; reflexivity|].
  pose proof (proj1 (all_some_forall2 row _ _) E) as F.
  assert (G : Forall2 (fun p L => face_hessian_indices (sb_topo b) (p_weighted (sb_bg b)) (snd p) = Some (map fst L)) near Ls).
  { apply (forall2_left _ near mults Ls LM). refine (forall2_weaken _ _ _ _ _ F). intros [[q nbrs] m] L H. exact (face_index _ _ _ _ _ _ _ _ _ H). }
  split.
  - unfold surface_hessian_block_indices. fold b. rewrite TY. f_equal. exact (indices_rows _ _ qs (trivial_neighborhood t) Ls LQ G).
  - intros h Hh. apply in_concat in Hh. destruct Hh as (L & HL & Hh).
    assert (X : exists p, In p near /\ face_hessian_indices (sb_topo b) (p_weighted (sb_bg b)) (snd p) = Some (map fst L)).
    { clear - G HL. induction G as [|p L' ps Ls H G IH]; [destruct HL|]. destruct HL as [->|HL]; [exists p; split; [left; reflexivity|exact H]|]. destruct (IH HL) as (p' & A & B). exists p'. split; [right; exact A|exact B]. }
    destruct X as ([q nbrs] & A & B). apply (indices_below b (p_weighted (sb_bg b)) nbrs (map fst L) TY WF (fun i => LEN q nbrs i A) B). apply in_map, Hh.
Qed.
End Rows.
Lemma concat_flat_map {A B} (f : A -> list B) : forall Ls, flat_map f (concat Ls) = concat (map (flat_map f) Ls).
Proof. induction Ls as [|L Ls IH]; [reflexivity|]. cbn [concat map]. rewrite flat_map_app, IH. reflexivity. Qed.
Lemma form_concat U : forall Ls, form low_square U (concat Ls) = rsum (map (form low_square U) Ls).
Proof. induction Ls as [|L Ls IH]; [reflexivity|]. cbn [concat map]. rewrite form_app, rsum_cons, IH. reflexivity. Qed.

Lemma expand_below n ij p : (forall q, In q ij -> below n q) -> In p (expand ij) -> (snd p <= fst p < 3 * n)%nat.
Proof.
  intros H Hp. unfold expand in Hp. apply filter_In in Hp. destruct Hp as [Hp Le]. apply Nat.leb_le in Le. split; [exact Le|]. apply in_flat_map in Hp. destruct Hp as (q & Hq & Hp).
  specialize (H q Hq). unfold below in H. apply in_flat_map in Hp. destruct Hp as (r & Hr & Hp). apply in_map_iff in Hp. destruct Hp as (c & <- & Hc). cbn [fst]. cbn in Hr. lia.
Qed.
Lemma row_jet b k q nbrs c v m U rebuild L : sb_type b = SFace -> well_formed b -> (forall tr, In tr (sb_topo b) -> distinct_corners tr) -> in_place b -> valid_kernel k ->
  NoDup nbrs -> (forall i, In i nbrs -> (i < length (sb_samples b))%nat) -> nearest (sb_samples b) q nbrs c -> regular_view k (sb_samples b) q nbrs -> smooth_background k (sb_bg b) v (sb_samples b) q c ->
  face_hessian_at q (sb_samples b) nbrs k (sb_topo b) (sb_verts b) (sb_bg b) m = Some L ->
  exists x y, jet (fun s => m * potential_at q (sb_samples (fst (update_base b (mesh_line (sb_verts b) U s) rebuild))) nbrs k (sb_bg b) v) x y (form low_square U L).
Proof.
  intros TY WF DC IP Vk ND LEN NE RV SB H.
  pose proof (surface_jet b U rebuild k q nbrs c v TY WF DC IP LEN Vk NE RV SB) as J. cbv zeta in J. apply (jet_scal m) in J. eexists. eexists. eapply jet_eq; [exact J|reflexivity|reflexivity|].
  unfold face_hessian_at in H. rewrite (the_background k (sb_bg b) nbrs c (fun _ => q) (fun _ => sb_samples b) NE) in H. destruct (view_in_range _ _ _); [|discriminate]. injection H as <-.
  rewrite (form_scale _ low_rule). f_equal. rewrite (code_form _ low_rule b k q nbrs c v U ND Vk NE RV SB). unfold pos_rate, nml_rate. rewrite TY. reflexivity.
Qed.
(** C152: the values are the lower triangle of the second derivative of the sum of potentials with multipliers, when the vertices move
    in any direction and the surface is updated. *)
Theorem surface_hessian_is_second_derivative : forall t qs mults out, let b := q_base t in let k := q_kernel t in let S := sb_samples b in
  let ns := trivial_neighborhood t in
  sb_type b = SFace -> well_formed b -> (forall tr, In tr (sb_topo b) -> distinct_corners tr) -> in_place b -> valid_kernel k ->
  length qs = length ns -> length mults = length (neighbored ns) ->
  (forall i, In i (neighbored ns) -> let q := nth i qs v3_0 in let nbrs := nth i ns [] in NoDup nbrs /\ (forall j, In j nbrs -> (j < length S)%nat) /\
    exists c, nearest S q nbrs c /\ regular_view k S q nbrs /\ smooth_background k (sb_bg b) (nth i out 0) S q c) ->
  exists ij vals, surface_hessian_indices t = Result (Some ij) /\ surface_hessian_values t qs mults = Result (Some vals) /\ length ij = length vals /\
    (forall p, In p ij -> (snd p <= fst p < 3 * length (sb_verts b))%nat) /\
    forall U rebuild, second_rate (fun s => rsum (map (fun p => let '(i, m) := p in
        m * potential_at (nth i qs v3_0) (sb_samples (fst (update_base b (mesh_line (sb_verts b) U s) rebuild))) (nth i ns []) k (sb_bg b) (nth i out 0))
        (combine (neighbored ns) mults)))
      (lower_form (3 * length (sb_verts b)) ij vals (coordinate U)).
Proof.
  intros t qs mults out b k S ns TY WF DC IP Vk LQ LM ROW.
  assert (NB := nearby_indices qs ns LQ). assert (LM' : length mults = length (nearby qs ns)) by (rewrite NB, map_length; exact LM).
  assert (LEN : forall q nbrs j, In (q, nbrs) (nearby qs ns) -> In j nbrs -> (j < length S)%nat).
  { intros q nbrs j I Hj. rewrite NB in I. apply in_map_iff in I. destruct I as (i & E & I). injection E as <- <-. apply (proj1 (proj2 (ROW i I))), Hj. }
  destruct (blocks_total t qs mults TY WF LQ LM' LEN) as (Ls & E & EB & EI & BL).
  exists (expand (map fst (concat Ls))), (flat_map block_values (concat Ls)).
  split; [unfold surface_hessian_indices; rewrite EI; reflexivity|]. split; [unfold surface_hessian_values; rewrite EB; reflexivity|]. split; [apply expand_values|]. split.
  { intros p Hp. apply (expand_below _ (map fst (concat Ls)) p); [|exact Hp]. intros ij Hij. apply in_map_iff in Hij. destruct Hij as (h & <- & Hh). exact (BL h Hh). }
  intros U rebuild. rewrite lower_form_blocks by exact BL. rewrite form_concat.
  fold ns in E. rewrite NB, <- (combine_map_left (fun i => (nth i qs v3_0, nth i ns []))) in E. apply (proj1 (all_some_forall2 _ _ _)) in E. assert (ROW' : forall p, In p (combine (neighbored ns) mults) -> In (fst p) (neighbored ns)) by (intros [x y] Hp; exact (in_combine_l _ _ _ _ Hp)).
  assert (J : exists x y, jet (fun s => rsum (map (fun p => let '(i, m) := p in
        m * potential_at (nth i qs v3_0) (sb_samples (fst (update_base b (mesh_line (sb_verts b) U s) rebuild))) (nth i ns []) k (sb_bg b) (nth i out 0)) (combine (neighbored ns) mults))) x y (rsum (map (form low_square U) Ls))).
  2: { destruct J as (x & y & J). exact (jet_second _ _ _ _ J). }
  revert ROW' E. generalize (combine (neighbored ns) mults). intros rs. clear EB EI BL LM LM'. revert Ls. induction rs as [|[i m] rs IH]; intros Ls IN F.
  - inversion F. exists 0, 0. cbn [map]. eapply jet_eq; [apply (jet_const 0)|..]; reflexivity.
  - inversion F as [|? L ? Ls' H F' E1 E2]. subst. cbn [fst snd] in H. destruct (IH Ls' (fun p Hp => IN p (or_intror Hp)) F') as (x & y & J).
    destruct (ROW i (IN _ (or_introl eq_refl))) as (ND & LEN' & c & NE & RV & SB).
    destruct (row_jet b k (nth i qs v3_0) (nth i ns []) c (nth i out 0) m U rebuild L TY WF DC IP Vk ND LEN' NE RV SB H) as (x' & y' & J').
    exists (x' + x), (y' + y). cbn [map]. rewrite rsum_cons. eapply jet_ext; [|exact (jet_plus _ _ _ _ _ _ _ _ J' J)]. intros s. cbn [map]. rewrite rsum_cons. reflexivity.
Qed.

(** ** Layout *)
Lemma block_entry_sum r c A i i' a a' : (c <= r)%nat -> (a < 3)%nat -> (a' < 3)%nat -> (3 * i' + a' <= 3 * i + a)%nat ->
  rsum (map (fun p => if andb (Nat.eqb (fst (fst p)) (3 * i + a)) (Nat.eqb (snd (fst p)) (3 * i' + a')) then snd p else 0) (block_entries (r, c, A)))
  = if andb (Nat.eqb r i) (Nat.eqb c i') then m3_get A a a' else 0.
Proof.
  intros CR HA HA' LE.
  assert (E : block_entries (r, c, A) = filter (fun p => Nat.leb (snd (fst p)) (fst (fst p))) (flat_map (fun x => map (fun y => ((3 * r + x, 3 * c + y)%nat, m3_get A x y)) [0; 1; 2]%nat) [0; 1; 2]%nat)).
  { unfold block_entries. rewrite filter_flat_map. apply flat_map_ext. intros x. rewrite filter_map. reflexivity. }
  rewrite E, <- rsum_filter. cbn [flat_map map app fst snd]. rewrite !rsum_cons, rsum_nil. rewrite !enum_eqb by lia.
  destruct (Nat.eqb_spec r i) as [->|]; [|repeat match goal with |- context [Nat.leb ?x ?y] => destruct (Nat.leb x y) end; cbn [andb]; ring].
  destruct (Nat.eqb_spec c i') as [->|]; [|cbn [andb]; rewrite ?andb_false_r; repeat match goal with |- context [Nat.leb ?x ?y] => destruct (Nat.leb x y) end; ring]. cbn [andb].
  destruct a as [|[|[|a]]]; [| | |lia]; (destruct a' as [|[|[|a']]]; [| | |lia]); cbn [Nat.eqb andb];
    repeat match goal with |- context [Nat.leb ?x ?y] => destruct (Nat.leb_spec x y) end; try (exfalso; lia); try ring.
Qed.
(** C153: the block indices are those of the blocks, the indices and values are the entries of the blocks that are not above the diagonal,
    and the buffers of indices and scaled values are filled in the same order. *)
Theorem surface_hessian_layout : forall t qs mults, let b := q_base t in let n := length (sb_verts b) in
  sb_type b = SFace -> well_formed b -> indices_ok t -> length qs = length (trivial_neighborhood t) -> length mults = length (neighbored (trivial_neighborhood t)) ->
  exists bs ij vals, surface_hessian_blocks t qs mults = Result (Some bs) /\ surface_hessian_block_indices t = Result (Some (map fst bs)) /\
    surface_hessian_indices t = Result (Some ij) /\ surface_hessian_values t qs mults = Result (Some vals) /\
    length ij = length vals /\ num_surface_hessian_entries t = Result (Some (length vals)) /\
    (forall h, In h bs -> (snd (fst h) <= fst (fst h) < n)%nat) /\ (forall p, In p ij -> (snd p <= fst p < 3 * n)%nat) /\
    (forall i a i' a', (a < 3)%nat -> (a' < 3)%nat -> (3 * i' + a' <= 3 * i + a)%nat ->
      lower_entry ij vals (3 * i + a) (3 * i' + a') = rsum (map (fun h => if andb (Nat.eqb (fst (fst h)) i) (Nat.eqb (snd (fst h)) i') then m3_get (snd h) a a' else 0) bs)) /\
    (forall scale out, exists out', surface_hessian_scaled_values t qs mults scale out = Result (Some out') /\ length out' = length out /\
      forall j, nth_error out' j = match nth_error out j, nth_error vals j with Some _, Some x => Some (x * scale) | o, _ => o end) /\
    (forall rows cols, length rows = length ij -> length cols = length ij -> surface_hessian_write_indices t rows cols = Result (Some (map fst ij, map snd ij))) /\
    (forall rows cols, (length rows < length ij \/ length cols < length ij)%nat -> surface_hessian_write_indices t rows cols = Result None).
Proof.
  intros t qs mults b n TY WF IOK LQ LM. set (ns := trivial_neighborhood t) in *. assert (NB := nearby_indices qs ns LQ).
  assert (LM' : length mults = length (nearby qs ns)) by (rewrite NB, map_length; exact LM).
  assert (LEN : forall q nbrs j, In (q, nbrs) (nearby qs ns) -> In j nbrs -> (j < length (sb_samples b))%nat).
  { intros q nbrs j H Hj. unfold nearby in H. apply filter_In in H. destruct H as [H _]. apply in_combine_r in H. destruct IOK as (_ & R & _). exact (R nbrs j (or_introl H) Hj). }
  destruct (blocks_total t qs mults TY WF LQ LM' LEN) as (Ls & E & EB & EI & BL). set (bs := concat Ls) in *.
  assert (SI : surface_hessian_indices t = Result (Some (expand (map fst bs)))) by (unfold surface_hessian_indices; rewrite EI; reflexivity).
  assert (SV : surface_hessian_values t qs mults = Result (Some (flat_map block_values bs))) by (unfold surface_hessian_values; rewrite EB; reflexivity).
  destruct (expand_values bs) as [EL EC].
  exists bs, (expand (map fst bs)), (flat_map block_values bs). split; [exact EB|]. split; [exact EI|]. split; [exact SI|]. split; [exact SV|]. split; [exact EL|].
  split; [unfold num_surface_hessian_entries; rewrite SI; cbn [outcome_map option_map]; rewrite EL; reflexivity|]. split; [exact BL|].
  split; [intros p Hp; apply (expand_below n (map fst bs) p); [|exact Hp]; intros ij Hij; apply in_map_iff in Hij; destruct Hij as (h & <- & Hh); exact (BL h Hh)|]. split; [|split; [|split]].
  - intros i a i' a' HA HA' LE. unfold lower_entry. rewrite (proj2 (Nat.leb_le _ _) LE), EC, MassProofs.rsum_flat_map. apply rsum_ext. intros [[r c] A] Hh. cbn [fst snd]. apply block_entry_sum; auto. exact (proj1 (BL _ Hh)).
  - intros scale out. unfold surface_hessian_scaled_values. rewrite SV. cbn [outcome_map option_map]. eexists. split; [reflexivity|]. split; [apply zip_update_length|].
    generalize (flat_map block_values bs). intros vals. revert vals. induction out as [|x out IH]; intros [|y vals] [|j]; cbn [zip_update nth_error]; try reflexivity; [destruct (nth_error out j); reflexivity|apply IH].
  - intros rows cols LR LC. unfold surface_hessian_write_indices. rewrite SI, LR, LC, Nat.leb_refl. cbn [andb]. rewrite (zip_update_all _ (@fst nat nat)), (zip_update_all _ (@snd nat nat)) by (reflexivity || assumption). reflexivity.
  - intros rows cols [L|L]; unfold surface_hessian_write_indices; rewrite SI; apply Nat.leb_gt in L; rewrite L; cbn [andb]; rewrite ?andb_false_r; reflexivity.
Qed.
(** C153: vertex samples have no surface Hessian. *)
Theorem surface_hessian_of_vertices_unsupported : forall t qs mults scale out rows cols, sb_type (q_base t) = SVertex ->
  surface_hessian_blocks t qs mults = Unsupported /\ surface_hessian_values t qs mults = Unsupported /\ surface_hessian_scaled_values t qs mults scale out = Unsupported /\
  surface_hessian_block_indices t = Unsupported /\ surface_hessian_indices t = Unsupported /\ num_surface_hessian_entries t = Unsupported /\
  surface_hessian_write_indices t rows cols = Unsupported.
Proof.
  intros t qs mults scale out rows cols TY.
  assert (A : surface_hessian_blocks t qs mults = Unsupported) by (unfold surface_hessian_blocks; rewrite TY; reflexivity).
  assert (B : surface_hessian_block_indices t = Unsupported) by (unfold surface_hessian_block_indices; rewrite TY; reflexivity).
  assert (C : surface_hessian_indices t = Unsupported) by (unfold surface_hessian_indices; rewrite B; reflexivity).
  assert (D : surface_hessian_values t qs mults = Unsupported) by (unfold surface_hessian_values; rewrite A; reflexivity).
  split; [exact A|]. split; [exact D|]. split; [unfold surface_hessian_scaled_values; rewrite D; reflexivity|]. split; [exact B|]. split; [exact C|].
  split; [unfold num_surface_hessian_entries|unfold surface_hessian_write_indices]; rewrite C; reflexivity.
Qed.

(** ** One multiplier per query point *)
Lemma second_rate_unique f c c' : second_rate f c -> second_rate f c' -> c = c'.
Proof.
  intros (g & G1 & G2) (h & H1 & H2). rewrite <- (is_derive_unique g 0 c G2), <- (is_derive_unique h 0 c' H2). apply Derive_ext_loc.
  generalize (filter_and _ _ G1 H1). apply filter_imp. intros s [A B]. rewrite <- (is_derive_unique _ _ _ A), <- (is_derive_unique _ _ _ B). reflexivity.
Qed.
Lemma second_rate_ext_loc f f' c : locally 0 (fun s => f s = f' s) -> second_rate f c -> second_rate f' c.
Proof.
  intros E (g & G1 & G2). exists g. split; [|exact G2]. apply locally_locally in E. generalize (filter_and _ _ E G1). apply filter_imp. intros s [A B]. exact (is_derive_ext_loc _ _ _ _ A B).
Qed.
Lemma tent_potential S s v : -1 < s < 1 -> s_pos (smp S 0) = V3 0 0 s -> s_nml (smp S 0) = V3 0 0 3 -> s_value (smp S 0) = 0 ->
  potential_at overhead S [0%nat] (Cubic 2) (BgParams FZero true) v = (1 - 3 * ((1 - s) / 2) * ((1 - s) / 2) + 2 * ((1 - s) / 2) * ((1 - s) / 2) * ((1 - s) / 2)) * (1 - s).
Proof.
  intros D P N Z. unfold potential_at, bg_local. cbn [closest_sample fold_left].
  change (bg_new_impl overhead S [0%nat] (Local 0) (Cubic 2) (BgParams FZero true) (Some v)) with (tent_bg S FZero). rewrite (tb_wsi S s FZero D P), (tb_dist S s FZero D P).
  unfold field_value. change (b_value (tent_bg S FZero)) with (BConstant 0). cbv iota. unfold local_potential_at. cbn [map]. rewrite rsum_cons, rsum_nil, (tb_sample S s D P), P, N, Z, sub_z, norm_z by lra.
  destruct (cubic_value (1 - s) ltac:(lra)) as (-> & _). unfold v3_dot. cbn [vx vy vz]. field.
Qed.
Definition tent_late : query_topo := QLocal (LocalMls (LCubic 2) 1 0 (tent (BgParams FZero true))) (Nbh [0; 0]%nat [[]; [0]]%nat [[]; [0]]%nat).
Definition lift : nat -> v3 := fun _ => V3 0 0 1.
Lemma tent_rate rebuild v : second_rate (fun s => potential_at overhead (sb_samples (fst (update_base (tent (BgParams FZero true)) (mesh_line (sb_verts (tent (BgParams FZero true))) lift s) rebuild))) [0%nat] (Cubic 2) (BgParams FZero true) v) (- (3 / 2)).
Proof.
  destruct (tent_ok (BgParams FZero true)) as (A & B & _).
  apply (second_rate_ext_loc (fun s => (1 - 3 * ((1 - s) / 2) * ((1 - s) / 2) + 2 * ((1 - s) / 2) * ((1 - s) / 2) * ((1 - s) / 2)) * (1 - s))).
  - exists (mkposreal 1 Rlt_0_1). intros s Hs. apply Rabs_lt_between in Hs. unfold minus, plus, opp in Hs. cbn in Hs. symmetry.
    pose proof (moved_sample (tent (BgParams FZero true)) lift rebuild s 0 A B ltac:(cbn; lia)) as M. cbv zeta in M. cbn [sb_type tent] in M. destruct M as (MV & MP & MN).
    apply tent_potential; [lra| | |exact MV].
    + etransitivity; [exact MP|]. apply v3_eq; cbn; lra.
    + etransitivity; [exact MN|]. apply v3_eq; cbn; lra.
  - exists (fun s => - (1 - 9 / 4 * (1 - s) * (1 - s) + (1 - s) * (1 - s) * (1 - s))). split.
    + apply filter_forall. intros s. auto_derive; [exact Logic.I|]. field.
    + auto_derive; [exact Logic.I|]. field.
Qed.
(** C154, refuted: given one multiplier per query point, as the documentation asks, the result is not the second derivative of the sum of
    the potentials with their multipliers. *)
Theorem surface_hessian_multipliers_refuted : exists t qs mults ij vals U, let b := q_base t in let k := q_kernel t in let S := sb_samples b in let ns := trivial_neighborhood t in
  sb_type b = SFace /\ well_formed b /\ (forall tr, In tr (sb_topo b) -> distinct_corners tr) /\ in_place b /\ valid_kernel k /\ length qs = length ns /\ length mults = length qs /\
  (forall i, In i (neighbored ns) -> let q := nth i qs v3_0 in let nbrs := nth i ns [] in NoDup nbrs /\ (forall j, In j nbrs -> (j < length S)%nat) /\
    exists c, nearest S q nbrs c /\ regular_view k S q nbrs /\ smooth_background k (sb_bg b) 0 S q c) /\
  surface_hessian_indices t = Result (Some ij) /\ surface_hessian_values t qs mults = Result (Some vals) /\
  forall rebuild, ~ second_rate (fun s => rsum (map (fun i => nth i mults 0 *
      potential_at (nth i qs v3_0) (sb_samples (fst (update_base b (mesh_line (sb_verts b) U s) rebuild))) (nth i ns []) k (sb_bg b) 0) (neighbored ns)))
    (lower_form (3 * length (sb_verts b)) ij vals (coordinate U)).
Proof.
  assert (K : q_kernel tent_late = Cubic 2) by (cbn; unfold lm_radius; cbn; f_equal; lra).
  destruct (tent_ok (BgParams FZero true)) as (A & B & C). destruct (tent_view (BgParams FZero true)) as (N & V).
  assert (ROW : forall i, In i (neighbored (trivial_neighborhood tent_late)) -> let q := nth i [V3 9 9 9; overhead] v3_0 in let nbrs := nth i (trivial_neighborhood tent_late) [] in NoDup nbrs /\ (forall j, In j nbrs -> (j < length (sb_samples (q_base tent_late)))%nat) /\
    exists c, nearest (sb_samples (q_base tent_late)) q nbrs c /\ regular_view (q_kernel tent_late) (sb_samples (q_base tent_late)) q nbrs /\ smooth_background (q_kernel tent_late) (sb_bg (q_base tent_late)) 0 (sb_samples (q_base tent_late)) q c).
  { intros i [<-|[]]. cbv zeta. cbn [nth tent_late trivial_neighborhood n_trivial]. split; [repeat constructor; intros []|]. split; [intros j [<-|[]]; cbn; lia|]. exists 0%nat. rewrite K. split; [exact N|]. split; [exact V|].
    split; [intros X; discriminate X|]. split; [intros _; exact Logic.I|intros _ X; discriminate X]. }
  destruct (surface_hessian_is_second_derivative tent_late [V3 9 9 9; overhead] [0] [0; 0] eq_refl A B C ltac:(rewrite K; cbn; lra) eq_refl eq_refl) as (ij & vals & EI & EV & _ & _ & SR).
  { intros i Hi. pose proof (ROW i Hi) as R. destruct Hi as [<-|[]]. exact R. }
  assert (EV' : surface_hessian_values tent_late [V3 9 9 9; overhead] [0; 1] = surface_hessian_values tent_late [V3 9 9 9; overhead] [0]) by reflexivity.
  exists tent_late, [V3 9 9 9; overhead], [0; 1], ij, vals, lift. cbv zeta. split; [reflexivity|]. split; [exact A|]. split; [exact B|]. split; [exact C|]. split; [rewrite K; cbn; lra|]. split; [reflexivity|]. split; [reflexivity|].
  split; [exact ROW|]. split; [exact EI|]. split; [rewrite EV'; exact EV|]. intros rebuild F.
  specialize (SR lift rebuild). assert (Z : second_rate (fun _ => 0) (lower_form (3 * length (sb_verts (q_base tent_late))) ij vals (coordinate lift))).
  { eapply second_rate_ext_loc; [|exact SR]. apply filter_forall. intros s. cbn [neighbored tent_late trivial_neighborhood n_trivial length seq filter nth combine map]. rewrite rsum_cons, rsum_nil. ring. }
  assert (Z' : second_rate (fun _ => 0) 0) by (apply (jet_second _ 0 0), jet_const). rewrite (second_rate_unique _ _ _ Z Z') in F.
  assert (T : second_rate (fun s => rsum (map (fun i => nth i [0; 1] 0 * potential_at (nth i [V3 9 9 9; overhead] v3_0) (sb_samples (fst (update_base (q_base tent_late) (mesh_line (sb_verts (q_base tent_late)) lift s) rebuild))) (nth i (trivial_neighborhood tent_late) []) (q_kernel tent_late) (sb_bg (q_base tent_late)) 0) (neighbored (trivial_neighborhood tent_late)))) (- (3 / 2))).
  { eapply second_rate_ext_loc; [|exact (tent_rate rebuild 0)]. apply filter_forall. intros s. rewrite K. change (neighbored (trivial_neighborhood tent_late)) with [1%nat]. cbn [map]. rewrite rsum_cons, rsum_nil. cbn [nth trivial_neighborhood n_trivial tent_late]. change (q_base tent_late) with (tent (BgParams FZero true)). cbn [sb_bg tent]. ring. }
  pose proof (second_rate_unique _ _ _ F T). lra.
Qed.

(** C152: after resetting the caches, the values are the lower triangle of the second derivative of the sum, with multipliers, of the values
    that [potential] returns, when the vertices move in any direction and the surface is updated. *)
Lemma neighbored_spec ns i : In i (neighbored ns) <-> (i < length ns)%nat /\ nth i ns [] <> [].
Proof.
  unfold neighbored. rewrite filter_In, in_seq. destruct (nth i ns []) as [|x l]; split; intros [H E]; try discriminate; try congruence; (split; [lia|]); [discriminate|reflexivity].
Qed.
Theorem surface_hessian_of_queries : forall o hash s n qs t changed mults out, let b := lm_base s in let S := sb_samples b in let k := q_kernel t in let ns := trivial_neighborhood t in
  faithful o -> well_formed b -> current b -> sb_type b = SFace -> (forall tr, In tr (sb_topo b) -> distinct_corners tr) -> in_place b -> valid_kernel k -> 0 <= lm_max_step s -> 0 <= lm_radius s ->
  reset o hash qs (QLocal s n) = Some (t, changed) -> length out = length qs -> length mults = length (neighbored ns) ->
  (forall i, In i (neighbored ns) -> let q := nth i qs v3_0 in
    exists c, nearest S q (nth i ns []) c /\ regular_view k S q (nth i ns []) /\ smooth_background k (sb_bg b) (nth i out 0) S q c) ->
  exists ij vals, surface_hessian_indices t = Result (Some ij) /\ surface_hessian_values t qs mults = Result (Some vals) /\ length ij = length vals /\
    forall U rebuild, (forall x, exists out', potential (fst (update_surface t (mesh_line (sb_verts b) U x) rebuild)) qs out = Some out') /\
      second_rate (fun x => match potential (fst (update_surface t (mesh_line (sb_verts b) U x) rebuild)) qs out with
          | Some out' => rsum (map (fun p => let '(i, m) := p in m * nth i out' 0) (combine (neighbored ns) mults)) | None => 0 end)
        (lower_form (3 * length (sb_verts b)) ij vals (coordinate U)).
Proof.
  intros o hash s n qs t changed mults out b S k ns F WF CU TY DC IP VK MS RD RS LO LM ROW.
  assert (RP : 0 <= lm_radius s + lm_max_step s) by lra.
  assert (SNE : qs <> [] -> sb_samples (lm_base s) <> []).
  { intros QN Z. destruct (reset_sets _ _ _ _ _ _ _ RS) as (cl & ex & _ & A & _). destruct qs as [|q0 qs']; [congruence|]. destruct (F (sb_samples (lm_base s)) q0) as (_ & _ & N0 & _). specialize (N0 Z).
    assert (A' := forall2_nth_default _ _ _ v3_0 0%nat 0%nat A ltac:(cbn; lia)). cbv beta in A'. unfold current, b in CU. rewrite CU in A'. cbn [nth] in A'. congruence. }
  destruct (reset_exact o hash qs s n F WF CU RP SNE) as (n' & ch & RS' & L1 & L2 & L3 & EX). rewrite RS in RS'. injection RS' as -> _.
  assert (QB : q_base (QLocal s n') = b) by reflexivity. assert (NS : ns = n_trivial n') by reflexivity.
  destruct (surface_hessian_is_second_derivative (QLocal s n') qs mults out TY WF DC IP VK) as (ij & vals & EI & EV & EL & _ & SR).
  - symmetry. exact L2.
  - exact LM.
  - intros i Hi. cbv zeta. fold ns. destruct (proj1 (neighbored_spec ns i) Hi) as [Li _]. rewrite NS in Li. destruct (EX i ltac:(lia)) as (_ & (ND & TR) & _). rewrite NS. split; [exact ND|]. split; [|exact (ROW i Hi)].
    intros j Hj. apply TR in Hj. exact (proj1 Hj).
  - exists ij, vals. split; [exact EI|]. split; [exact EV|]. split; [exact EL|]. intros U rebuild.
    assert (PV : forall x, exists out', potential (fst (update_surface (QLocal s n') (mesh_line (sb_verts b) U x) rebuild)) qs out = Some out' /\
      forall r, (r < length qs)%nat -> nth r out' 0 = potential_at (nth r qs v3_0) (sb_samples (fst (update_base b (mesh_line (sb_verts b) U x) rebuild))) (nth r (n_trivial n') []) k (sb_bg b) (nth r out 0)).
    { intros x. unfold potential, update_surface. fold b. rewrite (surjective_pairing (update_base b (mesh_line (sb_verts b) U x) rebuild)). cbn [fst trivial_neighborhood]. rewrite L2, LO, Nat.eqb_refl. eexists. split; [reflexivity|].
      intros r HR. refine (eq_trans (proj2 (potentials_nth _ _ _ qs (n_trivial n') out L2 LO) r HR) _). reflexivity. }
    split; [intros x; destruct (PV x) as (o' & E & _); eauto|].
    eapply second_rate_ext_loc; [|exact (SR U rebuild)]. apply filter_forall. intros x. destruct (PV x) as (o' & -> & E). apply rsum_ext. intros [i m] Hp. apply in_combine_l in Hp. destruct (proj1 (neighbored_spec _ i) Hp) as [Li _]. rewrite E; [reflexivity|]. rewrite <- L2. exact Li.
Qed.

(** ** Examples *)
Lemma flat_row : forall i, In i (neighbored (trivial_neighborhood (flat_topo SFace))) -> let q := nth i [above] v3_0 in let nbrs := nth i (trivial_neighborhood (flat_topo SFace)) [] in
  NoDup nbrs /\ (forall j, In j nbrs -> (j < length (sb_samples (q_base (flat_topo SFace))))%nat) /\
  exists c, nearest (sb_samples (q_base (flat_topo SFace))) q nbrs c /\ regular_view (q_kernel (flat_topo SFace)) (sb_samples (q_base (flat_topo SFace))) q nbrs /\
    smooth_background (q_kernel (flat_topo SFace)) (sb_bg (q_base (flat_topo SFace))) (nth i [0] 0) (sb_samples (q_base (flat_topo SFace))) q c.
Proof.
  intros i [<-|[]]. cbv zeta. rewrite flat_kernel. split; [repeat constructor; cbn; intuition discriminate|]. split; [intros j [<-|[<-|[]]]; cbn; lia|]. exists 0%nat. split; [exact (flat_nearest SFace)|]. split; [exact (flat_regular SFace)|exact (flat_background SFace 0)].
Qed.
(** A square of two triangles sharing an edge. *)
Example surface_hessian_is_second_derivative_ex : exists ij vals, surface_hessian_indices (flat_topo SFace) = Result (Some ij) /\ surface_hessian_values (flat_topo SFace) [above] [3] = Result (Some vals) /\
  length vals = length ij /\ In (11, 8)%nat ij /\ In (9, 9)%nat ij /\
  forall U, second_rate (fun s => 3 * potential_at above (sb_samples (fst (update_base (flat SFace) (mesh_line (sb_verts (flat SFace)) U s) true))) [0; 1]%nat (Cubic 1) (sb_bg (flat SFace)) 0)
    (lower_form 12 ij vals (coordinate U)).
Proof.
  destruct (flat_ok SFace) as (A & _ & C & _).
  destruct (surface_hessian_is_second_derivative (flat_topo SFace) [above] [3] [0] eq_refl A (flat_distinct' SFace) C ltac:(rewrite flat_kernel; cbn; lra) eq_refl eq_refl flat_row) as (ij & vals & EI & EV & EL & _ & SR).
  exists ij, vals. split; [exact EI|]. split; [exact EV|]. split; [symmetry; exact EL|].
  assert (CI : surface_hessian_indices (flat_topo SFace) = Result (Some (expand (normal_hessian_indices [(0, 1, 2); (1, 3, 2)]%nat [0; 1]%nat ++ main_hessian_indices [(0, 1, 2); (1, 3, 2)]%nat (p_weighted (sb_bg (flat SFace))) [0; 1]%nat)))) by reflexivity.
  rewrite CI in EI. injection EI as <-. split; [|split].
  - vm_compute. repeat (try (left; reflexivity); right).
  - vm_compute. repeat (try (left; reflexivity); right).
  - intros U. specialize (SR U true). rewrite flat_kernel in SR. eapply second_rate_ext_loc; [|exact SR]. apply filter_forall. intros s. change (neighbored (trivial_neighborhood (flat_topo SFace))) with [0%nat]. cbn [combine map]. rewrite rsum_cons, rsum_nil. cbn [nth]. change (q_base (flat_topo SFace)) with (flat SFace). change (nth 0 (trivial_neighborhood (flat_topo SFace)) []) with [0; 1]%nat. ring.
Qed.
Example surface_hessian_of_queries_ex : exists t changed ij vals, reset scan (fun _ => 0%Z) [above] (QLocal (flat_mls SFace) nbh_new) = Some (t, changed) /\
  surface_hessian_indices t = Result (Some ij) /\ surface_hessian_values t [above] [3] = Result (Some vals) /\ length ij = length vals /\
  forall U, second_rate (fun x => match potential (fst (update_surface t (mesh_line (sb_verts (flat SFace)) U x) true)) [above] [0] with Some out' => 3 * nth 0 out' 0 | None => 0 end)
    (lower_form 12 ij vals (coordinate U)).
Proof.
  destruct (flat_ok SFace) as (A & _ & C & D). destruct (flat_reset SFace) as (t & ch & RS & QK & I0 & SUB). exists t, ch.
  assert (ST : support_of t 0 = nth 0 (trivial_neighborhood t) []).
  { destruct (reset_exact scan (fun _ => 0%Z) [above] (flat_mls SFace) nbh_new scan_faithful A D) as (n' & ch' & E & _); [unfold lm_radius; cbn; lra|intros _; discriminate|]. rewrite RS in E. injection E as -> _. reflexivity. }
  rewrite ST in I0, SUB.
  assert (NB : neighbored (trivial_neighborhood t) = [0%nat]).
  { destruct (reset_exact scan (fun _ => 0%Z) [above] (flat_mls SFace) nbh_new scan_faithful A D) as (n' & ch' & E & _ & L2 & _); [unfold lm_radius; cbn; lra|intros _; discriminate|]. rewrite RS in E. injection E as -> _.
    change (trivial_neighborhood (QLocal (flat_mls SFace) n')) with (n_trivial n') in *. destruct (n_trivial n') as [|l [|? ?]]; try discriminate. cbn [nth] in I0. destruct l; [destruct I0|reflexivity]. }
  destruct (surface_hessian_of_queries scan (fun _ => 0%Z) (flat_mls SFace) nbh_new [above] t ch [3] [0] scan_faithful A D eq_refl (flat_distinct' SFace) C) as (ij & vals & EI & EV & EL & SR).
  - rewrite QK. cbn. lra.
  - cbn. lra.
  - unfold lm_radius. cbn. lra.
  - exact RS.
  - reflexivity.
  - rewrite NB. reflexivity.
  - rewrite NB. intros i [<-|[]]. exists 0%nat. rewrite QK. split; [split; [exact I0|intros j J; apply (flat_nearest SFace), SUB, J]|]. split; [intros j J; apply (flat_regular SFace), SUB, J|apply flat_background].
  - exists ij, vals. split; [exact RS|]. split; [exact EI|]. split; [exact EV|]. split; [exact EL|]. intros U. destruct (SR U true) as [_ S2]. rewrite NB in S2. eapply second_rate_ext_loc; [|exact S2]. apply filter_forall. intros x.
    cbn [combine map]. change (lm_base (flat_mls SFace)) with (flat SFace). destruct (potential _ _ _); [rewrite rsum_cons, rsum_nil; ring|reflexivity].
Qed.
(** Three query points, the second without neighbours. *)
Example surface_hessian_layout_ex : exists bs ij vals, surface_hessian_blocks (three SFace) [above; V3 9 9 9; V3 1 1 1] [2; 5] = Result (Some bs) /\
  surface_hessian_indices (three SFace) = Result (Some ij) /\ surface_hessian_values (three SFace) [above; V3 9 9 9; V3 1 1 1] [2; 5] = Result (Some vals) /\
  length bs = 137%nat /\ length vals = 1074%nat /\ nth_error ij 0 = Some (0, 0)%nat /\ nth_error ij 1073 = Some (8, 8)%nat /\
  lower_entry ij vals 10 5 = rsum (map (fun h => if andb (Nat.eqb (fst (fst h)) 3) (Nat.eqb (snd (fst h)) 1) then m3_get (snd h) 1 2 else 0) bs).
Proof.
  destruct (flat_ok SFace) as (A & _). destruct (surface_hessian_layout (three SFace) [above; V3 9 9 9; V3 1 1 1] [2; 5] eq_refl A (three_indices SFace) eq_refl eq_refl) as (bs & ij & vals & EB & EI & E1 & E2 & EL & EN & _ & _ & X & _).
  exists bs, ij, vals. split; [exact EB|]. split; [exact E1|]. split; [exact E2|].
  assert (Y : exists bi, surface_hessian_block_indices (three SFace) = Result (Some bi) /\ length bi = 137%nat /\ length (expand bi) = 1074%nat /\ nth_error (expand bi) 0 = Some (0, 0)%nat /\ nth_error (expand bi) 1073 = Some (8, 8)%nat).
  { eexists. split; [reflexivity|]. vm_compute. repeat split. }
  destruct Y as (bi & Y1 & Y2 & Y3 & Y4 & Y5). rewrite Y1 in EI. injection EI as ->. rewrite map_length in Y2. unfold surface_hessian_indices in E1. rewrite Y1 in E1. cbn [outcome_map option_map] in E1. injection E1 as <-. change (filter _ _) with (expand (map fst bs)).
  split; [exact Y2|]. split; [rewrite <- EL; exact Y3|]. split; [exact Y4|]. split; [exact Y5|]. exact (X 3%nat 1%nat 1%nat 2%nat ltac:(lia) ltac:(lia) ltac:(lia)).
Qed.
Example surface_hessian_of_vertices_unsupported_ex : surface_hessian_values (flat_topo SVertex) [above] [1] = Unsupported /\ num_surface_hessian_entries (flat_topo SVertex) = Unsupported /\ length (sb_samples (flat SVertex)) = 4%nat.
Proof. repeat split. Qed.
Example surface_hessian_multipliers_refuted_ex : neighbored (trivial_neighborhood tent_late) = [1%nat] /\
  second_rate (fun s => potential_at overhead (sb_samples (fst (update_base (tent (BgParams FZero true)) (mesh_line (sb_verts (tent (BgParams FZero true))) lift s) true))) [0%nat] (Cubic 2) (BgParams FZero true) 0) (- (3 / 2)).
Proof. split; [reflexivity|apply tent_rate]. Qed.

Print Assumptions surface_hessian_is_second_derivative.
Print Assumptions surface_hessian_of_queries.
Print Assumptions surface_hessian_layout.
Print Assumptions surface_hessian_of_vertices_unsupported.
Print Assumptions surface_hessian_multipliers_refuted.
