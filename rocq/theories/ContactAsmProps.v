(** Contact matrices: theorems, each with an example. *)
From Coq Require Import Reals List Arith Lra Lia Bool Sorting.Sorted.
From Verif Require Import Vec3 Mat3 RList KernelModel FieldModel FieldProofs NeighborModel NeighborSpec NeighborProofs SurfJacModel SurfJacProps
  ContactMapModel ContactMapSpec ContactMapProofs ContactMapProps ContactModel ContactJacModel AssemblyModel AssemblyProofs ContactAsmModel ContactAsmSpec ContactAsmProofs.
Import ListNotations.
Local Open Scope R_scope.

Lemma matrices_range t qs L : well_formed (q_base t) -> indices_ok t -> length qs = length (trivial_neighborhood t) -> contact_matrices t qs = Some L ->
  contact_jacobian_matrix_indices t = Some (map fst L) /\ forall r c B, In (r, c, B) L -> (r < length qs)%nat /\ (c < length (sb_verts (q_base t)))%nat.
Proof.
  intros WF IOK LQ EL. destruct (contact_matrices_block_matrix t qs WF IOK LQ) as (L' & EL' & EI & _). rewrite EL in EL'. injection EL' as <-. split; [exact EI|]. intros r c B I.
  unfold contact_jacobian_matrix_indices in EI. apply rows_spec in EI. destruct EI as [_ EI]. assert (J : In (r, c) (map fst L)) by (apply in_map_iff; exists (r, c, B); auto). apply EI in J. destruct J as (pts & i & IR & II & D).
  apply nonempty_in in IR. destruct IR as [IR _]. split; [rewrite LQ; apply nth_error_Some; congruence|]. apply (depends_in_range (q_base t) i c WF); [|exact D]. destruct IOK as (_ & RG & _). apply (RG pts i); [left; eapply nth_error_In; exact IR|exact II].
Qed.
Lemma selection_form t qs active : well_formed (q_base t) -> indices_ok t -> length qs = length (trivial_neighborhood t) -> NoDup active -> (forall a, In a active -> (a < length qs)%nat) ->
  exists inv L, reverse_map (length qs) active = Some inv /\ (forall r k, nth r inv None = Some k <-> nth_error active k = Some r) /\ contact_matrices t qs = Some L /\
    from_selection t qs active = Some (flat_map (chosen inv (fun c => c)) L) /\
    forall e, In e (flat_map (chosen inv (fun c => c)) L) -> (fst (fst e) < length active)%nat /\ (snd (fst e) < length (sb_verts (q_base t)))%nat.
Proof.
  intros WF IOK LQ ND R. destruct (reverse_map_spec (length qs) active ND R) as (inv & EI & LI & IN). destruct (contact_matrices_block_matrix t qs WF IOK LQ) as (L & EL & _). destruct (matrices_range t qs L WF IOK LQ EL) as [_ RG].
  assert (RNG : forall e, In e (flat_map (chosen inv (fun c => c)) L) -> (fst (fst e) < length active)%nat /\ (snd (fst e) < length (sb_verts (q_base t)))%nat).
  { intros e I. apply in_flat_map in I. destruct I as ([[r c] B] & I & J). unfold chosen in J. destruct (nth r inv None) as [i|] eqn:E; [|destruct J]. destruct J as [<-|[]]. cbn [fst snd]. split; [apply nth_error_Some; apply IN in E; congruence|apply (RG r c B I)]. }
  exists inv, L. refine (conj EI (conj IN (conj EL (conj _ RNG)))). unfold from_selection. rewrite EI, EL.
  match goal with |- option_map _ (all_some (map ?f L)) = _ => assert (S := all_some_flat f (chosen inv (fun c => c)) L) end. destruct (all_some _) as [ls|]; cbn [option_map] in S |- *.
  - assert (S' : Some (concat ls) = Some (flat_map (chosen inv (fun c => c)) L)).
    { apply S. intros [[r c] B] I. rewrite (nth_error_nth' inv None) by (rewrite LI; apply (RG r c B I)). unfold chosen. destruct (nth r inv None); reflexivity. }
    injection S' as ->. f_equal. apply filter_all. intros e I. unfold within_size. destruct (RNG e I). apply andb_true_intro. split; apply Nat.ltb_lt; assumption.
  - exfalso. assert (S' : None = Some (flat_map (chosen inv (fun c => c)) L)); [|discriminate]. apply S. intros [[r c] B] I. rewrite (nth_error_nth' inv None) by (rewrite LI; apply (RG r c B I)). unfold chosen. destruct (nth r inv None); reflexivity.
Qed.

(** C143: selecting contacts makes row [k] of the Jacobian the row of the [k]-th selected point, with every index in range. *)
Theorem selection_rows : forall t qs active, well_formed (q_base t) -> indices_ok t -> length qs = length (trivial_neighborhood t) ->
  NoDup active -> (forall a, In a active -> (a < length qs)%nat) ->
  exists L S, contact_matrices t qs = Some L /\ from_selection t qs active = Some S /\
    (forall r c B, In (r, c, B) S -> (r < length active)%nat /\ (c < length (sb_verts (q_base t)))%nat) /\
    forall x k, (k < length active)%nat -> block_product S x k = block_product L x (nth k active 0%nat).
Proof.
  intros t qs active WF IOK LQ ND R. destruct (selection_form t qs active WF IOK LQ ND R) as (inv & L & _ & IN & EL & ES & RNG). exists L, (flat_map (chosen inv (fun c => c)) L). refine (conj EL (conj ES (conj _ _))).
  - intros r c B I. exact (RNG (r, c, B) I).
  - intros x k K. apply (chosen_product inv (fun c => c) x active IN k L K).
Qed.
Example selection_rows_ex : exists L S, contact_matrices two_points far_over = Some L /\ from_selection two_points far_over [1%nat] = Some S /\
  block_product S (fun i => nth i [V3 2 0 0; V3 0 4 0] v3_0) 0 = V3 1 2 0 /\ block_product L (fun i => nth i [V3 2 0 0; V3 0 4 0] v3_0) 0 = v3_0.
Proof.
  destruct two_ok as [WF IOK]. destruct (selection_rows two_points far_over [1%nat] WF IOK eq_refl) as (L & S & EL & ES & _ & P); [repeat constructor; intros []|intros a [<-|[]]; cbn; lia|].
  destruct (two_product [V3 2 0 0; V3 0 4 0] [] eq_refl) as (L' & _ & EL' & _ & _ & _ & _ & _ & Z & B & _). rewrite EL in EL'. injection EL' as <-. exists L, S. refine (conj EL (conj ES (conj _ Z))). rewrite P by (cbn; lia). change (nth 0 [1%nat] 0%nat) with 1%nat. rewrite B. apply v3_eq; cbv [nth v3_scale v3_add vx vy vz]; lra.
Qed.

Lemma active_filled t : indices_ok t -> nonempty_neighborhood_indices t = filled t.
Proof.
  intros (LE & _ & EQ). unfold nonempty_neighborhood_indices, nonempty, enumerate, filled.
  assert (G : forall (l : list (list nat)) s, map fst (filter (fun p : nat * list nat => negb (is_nil (snd p))) (combine (seq s (length l)) l)) = filter (fun r => match nth (r - s) l [] with [] => false | _ => true end) (seq s (length l))).
  { induction l as [|a l IH]; intros s; cbn [length seq combine filter snd map]; [reflexivity|]. rewrite Nat.sub_diag. change (nth 0 (a :: l) []) with a.
    assert (F : filter (fun r => match nth (r - s) (a :: l) [] with [] => false | _ => true end) (seq (S s) (length l)) = filter (fun r => match nth (r - S s) l [] with [] => false | _ => true end) (seq (S s) (length l))).
    { apply filter_ext_in. intros r I. apply in_seq in I. replace (r - s)%nat with (S (r - S s)) by lia. reflexivity. }
    destruct a as [|y a]; cbn [is_nil negb]; rewrite F, <- IH; reflexivity. }
  rewrite G. unfold by_type. destruct (sb_type (q_base t)).
  - rewrite LE. apply filter_ext. intros r. rewrite Nat.sub_0_r. specialize (EQ r). destruct (nth r (extended_neighborhood t) []) eqn:E1; destruct (nth r (trivial_neighborhood t) []) eqn:E2; try reflexivity; exfalso; [destruct EQ as [EQ _]; discriminate (EQ eq_refl)|destruct EQ as [_ EQ]; discriminate (EQ eq_refl)].
  - apply filter_ext. intros r. rewrite Nat.sub_0_r. reflexivity.
Qed.
(** C143: the active constraints are the points that see the surface; none is selected twice, and the rows left out are zero. *)
Theorem selection_loses_nothing : forall t qs L, well_formed (q_base t) -> indices_ok t -> length qs = length (trivial_neighborhood t) -> contact_matrices t qs = Some L ->
  NoDup (nonempty_neighborhood_indices t) /\ (forall a, In a (nonempty_neighborhood_indices t) -> (a < length qs)%nat) /\
  forall x r, ~ In r (nonempty_neighborhood_indices t) -> block_product L x r = v3_0.
Proof.
  intros t qs L WF IOK LQ EL. rewrite (active_filled t IOK). unfold filled. split; [apply NoDup_filter, seq_NoDup|]. split.
  - intros a I. apply filter_In in I. destruct I as [I _]. apply in_seq in I. lia.
  - intros x r NI. destruct (contact_matrices_block_matrix t qs WF IOK LQ) as (L' & EL' & _ & _ & BZ & _). rewrite EL in EL'. injection EL' as <-. apply BZ.
    destruct (Nat.lt_ge_cases r (length (trivial_neighborhood t))) as [LT|GE]; [|apply nth_overflow; exact GE]. destruct (nth r (trivial_neighborhood t) []) as [|a l] eqn:E; [reflexivity|]. exfalso. apply NI. apply filter_In. split; [apply in_seq; lia|]. rewrite E. reflexivity.
Qed.
Example selection_loses_nothing_ex : nonempty_neighborhood_indices two_points = [1%nat].
Proof. reflexivity. Qed.

Lemma full_form t qs active surface collider n : well_formed (q_base t) -> indices_ok t -> length qs = length (trivial_neighborhood t) -> NoDup active -> (forall a, In a active -> (a < length qs)%nat) ->
  length surface = length (sb_verts (q_base t)) -> length collider = length qs ->
  exists inv L, reverse_map (length qs) active = Some inv /\ (forall r k, nth r inv None = Some k <-> nth_error active k = Some r) /\ contact_matrices t qs = Some L /\
    from_selection_full t qs active inv surface collider n = Some (filter (within_size (length active) n)
      (flat_map (chosen inv (fun c => nth c surface 0%nat)) L ++ map (fun p => (fst p, nth (snd p) collider 0%nat, m3_scale (-1) m3_I)) (combine (seq 0 (length active)) active))).
Proof.
  intros WF IOK LQ ND R LS LC. destruct (reverse_map_spec (length qs) active ND R) as (inv & EI & LI & IN). destruct (contact_matrices_block_matrix t qs WF IOK LQ) as (L & EL & _). destruct (matrices_range t qs L WF IOK LQ EL) as [_ RG].
  exists inv, L. refine (conj EI (conj IN (conj EL _))). unfold from_selection_full. rewrite EL.
  match goal with |- match all_some (map ?f L) with _ => _ end = _ => assert (S := all_some_flat f (chosen inv (fun c => nth c surface 0%nat)) L) end.
  assert (S' := fun H => S H). clear S. match type of S' with ?P -> _ => assert (H : P) end.
  { intros [[r c] B] I. destruct (RG r c B I) as [R1 R2]. rewrite (nth_error_nth' inv None) by (rewrite LI; exact R1). rewrite (nth_error_nth' surface 0%nat) by (rewrite LS; exact R2). unfold chosen. destruct (nth r inv None); reflexivity. }
  specialize (S' H). clear H. destruct (all_some _) as [ls|]; [|discriminate]. cbn [option_map] in S'. injection S' as ->.
  unfold enumerate. rewrite (all_some_each _ (fun p => (fst p, nth (snd p) collider 0%nat, m3_scale (-1) m3_I))); [reflexivity|]. intros [i a] I. cbn [fst snd]. apply in_combine_r in I. rewrite (nth_error_nth' collider 0%nat) by (rewrite LC; apply R, I). reflexivity.
Qed.
Lemma full_product active inv f g n L x k : (forall r k, nth r inv None = Some k <-> nth_error active k = Some r) -> (k < length active)%nat -> (forall i, (n <= i)%nat -> x i = v3_0) ->
  block_product (filter (within_size (length active) n) (flat_map (chosen inv f) L ++ map (fun p => (fst p, g (snd p), m3_scale (-1) m3_I)) (combine (seq 0 (length active)) active))) x k
    = v3_sub (block_product L (fun c => x (f c)) (nth k active 0%nat)) (x (g (nth k active 0%nat))).
Proof.
  intros IN K XZ. rewrite product_filter.
  - rewrite block_app, (chosen_product inv f x active IN k L K), (collider_product x g k active 0) by lia. rewrite Nat.sub_0_r. match goal with |- v3_add ?a (v3_scale _ ?b) = _ => dv a; dv b end. apply v3_eq; cbv [v3_add v3_sub v3_scale vx vy vz]; ring.
  - intros [[r c] B] _ F. cbn [fst snd]. unfold within_size in F. cbn [fst snd] in F. destruct (Nat.ltb_spec r (length active)) as [LT|GE]; [|left; lia]. cbn in F. apply Nat.ltb_ge in F. right. apply XZ, F.
Qed.
(** C143: the full Jacobian takes velocities of all vertices to the velocity of the surface at the contact less that of the contact point; vertices that do not
    move are left out of it. *)
Theorem full_selection_rows : forall t qs active surface collider n, well_formed (q_base t) -> indices_ok t -> length qs = length (trivial_neighborhood t) ->
  NoDup active -> (forall a, In a active -> (a < length qs)%nat) -> length surface = length (sb_verts (q_base t)) -> length collider = length qs ->
  exists inv L S, reverse_map (length qs) active = Some inv /\ contact_matrices t qs = Some L /\ from_selection_full t qs active inv surface collider n = Some S /\
    (forall r c B, In (r, c, B) S -> (r < length active)%nat /\ (c < n)%nat) /\
    forall x k, (k < length active)%nat -> (forall i, (n <= i)%nat -> x i = v3_0) ->
      block_product S x k = v3_sub (block_product L (fun c => x (nth c surface 0%nat)) (nth k active 0%nat)) (x (nth (nth k active 0%nat) collider 0%nat)).
Proof.
  intros t qs active surface collider n WF IOK LQ ND R LS LC. destruct (full_form t qs active surface collider n WF IOK LQ ND R LS LC) as (inv & L & EI & IN & EL & EF). eexists inv, L, _. refine (conj EI (conj EL (conj EF (conj _ _)))).
  - intros r c B I. apply filter_In in I. destruct I as [_ I]. unfold within_size in I. cbn [fst snd] in I. apply andb_prop in I. destruct I as [I1 I2]. split; apply Nat.ltb_lt; assumption.
  - intros x k K XZ. apply (full_product active inv (fun c => nth c surface 0%nat) (fun a => nth a collider 0%nat) n L x k IN K XZ).
Qed.
Example full_selection_rows_ex : exists inv L S, reverse_map 2 [1%nat] = Some inv /\ contact_matrices two_points far_over = Some L /\ from_selection_full two_points far_over [1%nat] inv [0; 1]%nat [5; 2]%nat 3 = Some S /\
  block_product S (fun i => nth i [V3 2 0 0; V3 0 4 0; V3 0 0 7] v3_0) 0 = V3 1 2 (-7).
Proof.
  destruct two_ok as [WF IOK]. destruct (full_selection_rows two_points far_over [1%nat] [0; 1]%nat [5; 2]%nat 3 WF IOK eq_refl) as (inv & L & S & EI & EL & ES & _ & P); [repeat constructor; intros []|intros a [<-|[]]; cbn; lia|reflexivity|reflexivity|].
  destruct (two_product [V3 2 0 0; V3 0 4 0] [] eq_refl) as (L' & _ & EL' & _ & _ & _ & _ & _ & Z & B & _). rewrite EL in EL'. injection EL' as <-. exists inv, L, S. refine (conj EI (conj EL (conj ES _))). rewrite P; [|cbn; lia|intros i I; apply nth_overflow; exact I].
  assert (Q : block_product L (fun c => nth (nth c [0; 1]%nat 0%nat) [V3 2 0 0; V3 0 4 0; V3 0 0 7] v3_0) (nth 0 [1%nat] 0%nat) = block_product L (fun i => nth i [V3 2 0 0; V3 0 4 0] v3_0) 1).
  { change (nth 0 [1%nat] 0%nat) with 1%nat. unfold block_product. apply vsum_ext. intros [[r c] M] I. destruct (matrices_range two_points far_over L WF IOK eq_refl EL) as [_ RG]. destruct (RG r c M I) as [_ C]. cbn in C. destruct c as [|[|c]]; [reflexivity|reflexivity|lia]. }
  rewrite Q, B. apply v3_eq; cbv [nth v3_sub v3_scale v3_add vx vy vz]; lra.
Qed.

(** C144: the matrix built from blocks with places stores, in row-major order and once each, exactly the places wanted, with the sum of the blocks given for it;
    the place kept for a source block is its own. *)
Theorem assembled_matrix : forall A (add : A -> A -> A) zero keep (T : list (nat * nat * A)), comm_monoid add zero ->
  let m := from_triplets add zero keep T in
  in_order (mp_pattern m) /\ length (mp_blocks m) = length (mp_pattern m) /\
  (forall p, In p (mp_pattern m) <-> keep p = true /\ exists b, In (p, b) T) /\
  (forall p b, In (p, b) (stored m) -> b = at_place add zero T p) /\
  length (mp_mapping m) = length T /\
  (forall k p b, nth_error T k = Some (p, b) -> if keep p then exists d, nth_error (mp_mapping m) k = Some (Some d) /\ nth_error (mp_pattern m) d = Some p
                                                else nth_error (mp_mapping m) k = Some None).
Proof.
  intros A add zero keep T CM. cbv zeta. destruct (build_correct A add zero CM keep T) as (LM & SP & IP & MN & MS & LB & BV). set (m := from_triplets add zero keep T) in *. refine (conj SP (conj LB (conj _ (conj _ (conj LM _))))).
  - intros p. split.
    + intros I. apply IP in I. destruct I as [K I]. split; [exact K|]. apply in_map_iff in I. destruct I as ([p' b] & <- & I). exists b. exact I.
    + intros [K [b I]]. apply IP. split; [exact K|]. apply in_map_iff. exists (p, b). auto.
  - intros p b I. unfold stored in I. destruct (In_nth _ _ ((0, 0)%nat, zero) I) as (d & D & E). rewrite combine_length in D. rewrite combine_nth in E by (symmetry; exact LB). injection E as <- <-. apply BV. lia.
  - intros k p b E. assert (K : (k < length T)%nat) by (apply nth_error_Some; congruence). assert (KE : nth k (map fst T) (0, 0)%nat = p) by (apply nth_error_nth; rewrite nth_error_map, E; reflexivity). destruct (keep p) eqn:KP.
    + destruct (MS k K) as (d & D & M & P); [exact (eq_trans (f_equal keep KE) KP)|]. exists d. rewrite (nth_error_nth' _ None) by (rewrite LM; exact K). rewrite M. split; [reflexivity|]. rewrite (nth_error_nth' _ (0, 0)%nat) by exact D. f_equal. exact (eq_trans P KE).
    + rewrite (nth_error_nth' _ None) by (rewrite LM; exact K). f_equal. apply MN; [exact K|]. exact (eq_trans (f_equal keep KE) KP).
Qed.
Definition small : list (nat * nat * nat) := [(1, 0, 5); (0, 1, 2); (4, 0, 9); (1, 0, 3)]%nat.
Definition fits (p : nat * nat) : bool := Nat.ltb (fst p) 2.
Lemma nat_monoid : comm_monoid Nat.add 0%nat.
Proof. split; intros; lia. Qed.
Example assembled_matrix_ex : from_triplets Nat.add 0%nat fits small = Mapped [(0, 1); (1, 0)]%nat [2; 8]%nat [Some 1%nat; Some 0%nat; None; Some 1%nat].
Proof. reflexivity. Qed.
(** C144: refreshing the values of a matrix with blocks at the same places gives what building it anew would. *)
Theorem refreshed_matrix : forall A (add : A -> A -> A) zero keep (T T' : list (nat * nat * A)), comm_monoid add zero -> map fst T' = map fst T ->
  update_values add zero (from_triplets add zero keep T) (map snd T') = Some (from_triplets add zero keep T').
Proof. intros A add zero keep T T' CM E. apply refresh_is_rebuild; [exact CM|exact E]. Qed.
Example refreshed_matrix_ex : update_values Nat.add 0%nat (from_triplets Nat.add 0%nat fits small) [1; 2; 3; 4]%nat = Some (Mapped [(0, 1); (1, 0)]%nat [2; 5]%nat [Some 1%nat; Some 0%nat; None; Some 1%nat]).
Proof. reflexivity. Qed.
(** C144: with blocks at other places it neither fails nor follows them. *)
Theorem stale_refresh_refuted : exists (T T' : list (nat * nat * nat)) m, length T' = length T /\ update_values Nat.add 0%nat (from_triplets Nat.add 0%nat (fun _ => true) T) (map snd T') = Some m /\
  exists p, at_place Nat.add 0%nat (stored m) p <> at_place Nat.add 0%nat T' p.
Proof. exists [(0, 0, 1)%nat], [(0, 1, 1)%nat]. eexists. split; [reflexivity|]. split; [reflexivity|]. exists (0, 1)%nat. discriminate. Qed.
Example stale_refresh_ex : update_values Nat.add 0%nat (from_triplets Nat.add 0%nat (fun _ => true) [(0, 0, 1)%nat]) [1%nat] = Some (from_triplets Nat.add 0%nat (fun _ => true) [(0, 0, 1)%nat]).
Proof. reflexivity. Qed.

(** C145: the assembled contact Jacobian acts like the rows of the contact matrices that were selected. *)
Theorem contact_jacobian_built : forall t qs active, well_formed (q_base t) -> indices_ok t -> length qs = length (trivial_neighborhood t) ->
  NoDup active -> (forall a, In a active -> (a < length qs)%nat) ->
  exists L m, contact_matrices t qs = Some L /\ build_jacobian t qs active = Some m /\ in_order (mp_pattern m) /\
    (forall p, In p (mp_pattern m) -> (fst p < length active)%nat /\ (snd p < length (sb_verts (q_base t)))%nat) /\
    forall x k, (k < length active)%nat -> block_product (stored m) x k = block_product L x (nth k active 0%nat).
Proof.
  intros t qs active WF IOK LQ ND R. destruct (selection_rows t qs active WF IOK LQ ND R) as (L & S & EL & ES & RG & P). unfold build_jacobian. rewrite ES. eexists L, _. split; [exact EL|]. split; [reflexivity|]. unfold jacobian_triplets.
  assert (B := build_correct m3 m3_add m3_zero m3_monoid (fun _ => true) S). split; [apply B|]. split.
  - intros [r c] I. destruct B as (_ & _ & IP & _). apply IP in I. destruct I as [_ I]. apply in_map_iff in I. destruct I as ([[r' c'] M] & Q & I). injection Q as -> ->. exact (RG r c M I).
  - intros x k K. rewrite (product_built S) by exact B. apply P, K.
Qed.
Example contact_jacobian_built_ex : exists m, build_jacobian two_points far_over [1%nat] = Some m /\ block_product (stored m) (fun i => nth i [V3 2 0 0; V3 0 4 0] v3_0) 0 = V3 1 2 0.
Proof.
  destruct two_ok as [WF IOK]. destruct (contact_jacobian_built two_points far_over [1%nat] WF IOK eq_refl) as (L & m & EL & EM & _ & _ & P); [repeat constructor; intros []|intros a [<-|[]]; cbn; lia|].
  destruct (two_product [V3 2 0 0; V3 0 4 0] [] eq_refl) as (L' & _ & EL' & _ & _ & _ & _ & _ & _ & B & _). rewrite EL in EL'. injection EL' as <-. exists m. split; [exact EM|]. rewrite P by (cbn; lia). change (nth 0 [1%nat] 0%nat) with 1%nat. rewrite B. apply v3_eq; cbv [nth v3_scale v3_add vx vy vz]; lra.
Qed.

Lemma chosen_places inv f p : forall L L', map fst L' = map fst L -> (forall e e' : nat * nat * m3, fst e = fst e' -> p e = p e') ->
  map fst (filter p (flat_map (chosen inv f) L')) = map fst (filter p (flat_map (chosen inv f) L)).
Proof.
  induction L as [|[[r c] B] L IH]; intros [|[[r' c'] B'] L'] E PE; cbn [map fst] in E; try discriminate; [reflexivity|]. injection E as -> -> E. cbn [flat_map]. rewrite !filter_app, !map_app, (IH L' E PE). f_equal.
  unfold chosen. destruct (nth r inv None) as [i|]; [|reflexivity]. cbn [filter]. rewrite (PE (i, f c, B') (i, f c, B) eq_refl). destruct (p (i, f c, B)); reflexivity.
Qed.
Lemma same_places t t' qs qs' L L' : well_formed (q_base t) -> indices_ok t -> well_formed (q_base t') -> indices_ok t' -> length qs = length (trivial_neighborhood t) -> length qs' = length (trivial_neighborhood t') ->
  same_sparsity t t' -> contact_matrices t qs = Some L -> contact_matrices t' qs' = Some L' -> map fst L' = map fst L.
Proof.
  intros WF IOK WF' IOK' LQ LQ' (TY & TO & _ & TN) EL EL'. destruct (matrices_range t qs L WF IOK LQ EL) as [E _]. destruct (matrices_range t' qs' L' WF' IOK' LQ' EL') as [E' _].
  assert (Q : contact_jacobian_matrix_indices t' = contact_jacobian_matrix_indices t) by (unfold contact_jacobian_matrix_indices, rows_of, columns; rewrite TY, TO, TN; reflexivity). rewrite E, E' in Q. injection Q as Q. exact Q.
Qed.
Lemma within_places r c (e e' : nat * nat * m3) : fst e = fst e' -> within_size r c e = within_size r c e'.
Proof. unfold within_size. intros ->. reflexivity. Qed.
(** C145: when the surface and the points have moved but the points still see the same samples, refreshing the contact Jacobian gives what building it anew would. *)
Theorem contact_jacobian_refreshed : forall t t' qs qs' active, well_formed (q_base t) -> indices_ok t -> well_formed (q_base t') -> indices_ok t' ->
  length qs = length (trivial_neighborhood t) -> length qs' = length (trivial_neighborhood t') -> same_sparsity t t' ->
  NoDup active -> (forall a, In a active -> (a < length qs)%nat) ->
  exists m m', build_jacobian t qs active = Some m /\ build_jacobian t' qs' active = Some m' /\ update_jacobian m t' qs' active = Some m'.
Proof.
  intros t t' qs qs' active WF IOK WF' IOK' LQ LQ' SS ND R. assert (LL : length qs' = length qs) by (destruct SS as (_ & _ & _ & TN); rewrite LQ, LQ', TN; reflexivity).
  destruct (selection_form t qs active WF IOK LQ ND R) as (inv & L & EI & _ & EL & ES & _). destruct (selection_form t' qs' active WF' IOK' LQ' ND) as (inv' & L' & EI' & _ & EL' & ES' & _); [rewrite LL; exact R|]. rewrite LL, EI in EI'. injection EI' as <-.
  unfold build_jacobian, update_jacobian. rewrite ES, ES'. cbn [option_map]. do 2 eexists. split; [reflexivity|]. split; [reflexivity|]. apply refreshed_matrix; [exact m3_monoid|]. unfold jacobian_triplets.
  assert (E := chosen_places inv (fun c => c) (fun _ => true) L L' (same_places t t' qs qs' L L' WF IOK WF' IOK' LQ LQ' SS EL EL') (fun _ _ _ => eq_refl)). rewrite !filter_all in E by reflexivity. exact E.
Qed.
(** C145: and the same for the contact gradient. *)
Theorem contact_gradient_refreshed : forall t t' qs qs' active surface collider n inv, well_formed (q_base t) -> indices_ok t -> well_formed (q_base t') -> indices_ok t' ->
  length qs = length (trivial_neighborhood t) -> length qs' = length (trivial_neighborhood t') -> same_sparsity t t' ->
  NoDup active -> (forall a, In a active -> (a < length qs)%nat) -> length surface = length (sb_verts (q_base t)) -> length collider = length qs ->
  reverse_map (length qs) active = Some inv ->
  exists g g', build_gradient t qs active surface collider n = Some g /\ build_gradient t' qs' active surface collider n = Some g' /\
    update_gradient g t' qs' active inv surface collider n = Some g'.
Proof.
  intros t t' qs qs' active surface collider n inv0 WF IOK WF' IOK' LQ LQ' SS ND R LS LC EI0. assert (LL : length qs' = length qs) by (destruct SS as (_ & _ & _ & TN); rewrite LQ, LQ', TN; reflexivity). assert (LV : length (sb_verts (q_base t')) = length (sb_verts (q_base t))) by apply SS.
  destruct (full_form t qs active surface collider n WF IOK LQ ND R LS LC) as (inv & L & EI & _ & EL & ES). destruct (full_form t' qs' active surface collider n WF' IOK' LQ' ND) as (inv' & L' & EI' & _ & EL' & ES'); [rewrite LL; exact R|congruence|congruence|]. rewrite LL, EI in EI'. injection EI' as <-. rewrite EI in EI0. injection EI0 as <-.
  unfold build_gradient, update_gradient. rewrite LL, EI, ES, ES'. cbn [option_map]. do 2 eexists. split; [reflexivity|]. split; [reflexivity|]. apply refreshed_matrix; [exact m3_monoid|].
  assert (E := chosen_places inv (fun c => nth c surface 0%nat) (within_size (length active) n) L L' (same_places t t' qs qs' L L' WF IOK WF' IOK' LQ LQ' SS EL EL') (within_places _ _)).
  assert (G : forall X Y : list (nat * nat * m3), map fst X = map fst Y -> map fst (gradient_triplets X) = map fst (gradient_triplets Y)).
  { induction X as [|[[r c] B] X IH]; intros [|[[r' c'] B'] Y] Q; cbn [map fst] in Q; try discriminate; [reflexivity|]. injection Q as -> -> Q. cbn [gradient_triplets map fst]. f_equal. apply IH, Q. }
  apply G. rewrite !filter_app, !map_app, E. reflexivity.
Qed.
(** The same two points with the second one moved. *)
Definition far_over' : list v3 := [V3 8 9 9; V3 0 0 (1/10)].
Example contact_jacobian_refreshed_ex : exists m m', build_jacobian two_points far_over [1%nat] = Some m /\ build_jacobian two_points far_over' [1%nat] = Some m' /\ update_jacobian m two_points far_over' [1%nat] = Some m'.
Proof. destruct two_ok as [WF IOK]. apply contact_jacobian_refreshed; try assumption; try reflexivity; [repeat split; reflexivity|repeat constructor; intros []|intros a [<-|[]]; cbn; lia]. Qed.
Example contact_gradient_refreshed_ex : exists g g', build_gradient two_points far_over [1%nat] [0; 1]%nat [5; 2]%nat 3 = Some g /\ build_gradient two_points far_over' [1%nat] [0; 1]%nat [5; 2]%nat 3 = Some g' /\
  update_gradient g two_points far_over' [1%nat] [None; Some 0%nat] [0; 1]%nat [5; 2]%nat 3 = Some g'.
Proof. destruct two_ok as [WF IOK]. apply contact_gradient_refreshed; try assumption; try reflexivity; [repeat split; reflexivity|repeat constructor; intros []|intros a [<-|[]]; cbn; lia]. Qed.

(** C146: the relative velocities computed through the contact Jacobian are the products of the full Jacobian. *)
Theorem full_jacobian_is_relative_velocity : forall t qs active surface collider n m, well_formed (q_base t) -> indices_ok t -> length qs = length (trivial_neighborhood t) ->
  NoDup active -> (forall a, In a active -> (a < length qs)%nat) -> length surface = length (sb_verts (q_base t)) -> length collider = length qs ->
  (forall i, In i surface -> (i < n)%nat) -> (forall i, In i collider -> (i < n)%nat) -> build_jacobian t qs active = Some m ->
  exists inv S, reverse_map (length qs) active = Some inv /\ from_selection_full t qs active inv surface collider n = Some S /\
    forall v, length v = n -> contact_mul {| cm_matrix := stored m; cm_constrained := active; cm_surface := surface; cm_collider := collider |} v
      = map (block_product S (fun i => nth i v v3_0)) (seq 0 (length active)).
Proof.
  intros t qs active surface collider n m WF IOK LQ ND R LS LC IS IC EM. destruct (full_selection_rows t qs active surface collider n WF IOK LQ ND R LS LC) as (inv & L & S & EI & EL & ES & _ & P). exists inv, S. split; [exact EI|]. split; [exact ES|]. intros v LV.
  destruct (contact_jacobian_built t qs active WF IOK LQ ND R) as (L' & m' & EL' & EM' & _ & RG & PJ). rewrite EL in EL'. injection EL' as <-. rewrite EM in EM'. injection EM' as <-.
  unfold contact_mul. cbn [cm_matrix cm_constrained cm_surface cm_collider]. unfold sparse_mul. apply (nth_ext _ _ v3_0 v3_0).
  { rewrite !map_length, combine_length, !map_length, seq_length. apply Nat.min_id. }
  intros k K. rewrite map_length, combine_length, !map_length, seq_length, Nat.min_id in K. set (f := fun p : v3 * v3 => v3_sub (fst p) (snd p)). rewrite (nth_indep _ v3_0 (f (v3_0, v3_0))) by (rewrite map_length, combine_length, !map_length, seq_length, Nat.min_id; exact K).
  rewrite map_nth, combine_nth by (rewrite !map_length, seq_length; reflexivity). unfold f. cbn [fst snd].
  set (h := fun r => v3_sum (map (fun b : block => let (p, B) := b in let (i, j) := p in if (i =? r)%nat then m3_mulv B (at3 (map (at3 v) surface) j) else v3_0) (stored m))).
  rewrite (nth_indep _ v3_0 (h 0%nat)) by (rewrite map_length, seq_length; exact K). rewrite map_nth, seq_nth by exact K. cbn [Nat.add].
  rewrite (nth_indep (map (block_product S _) _) v3_0 (block_product S (fun i => nth i v v3_0) 0%nat)) by (rewrite map_length, seq_length; exact K). rewrite map_nth, seq_nth by exact K. cbn [Nat.add].
  rewrite P; [|exact K|intros i I; apply nth_overflow; lia]. rewrite <- PJ by exact K. unfold h, block_product. change v3_sum with vsum. f_equal.
  - apply vsum_ext. intros [[i j] B] I. assert (J : (j < length surface)%nat). { rewrite LS. apply (RG (i, j)). unfold stored in I. apply in_combine_l in I. exact I. }
    unfold at3. rewrite (nth_indep (map _ surface) v3_0 (nth 0%nat v v3_0)) by (rewrite map_length; exact J). rewrite (map_nth (fun i => nth i v v3_0)).
    reflexivity.
  - assert (A : (nth k active 0 < length collider)%nat) by (rewrite LC; apply R, nth_In, K). rewrite (nth_indep (map (at3 (map (at3 v) collider)) active) v3_0 (at3 (map (at3 v) collider) 0%nat)) by (rewrite map_length; exact K). rewrite (map_nth (at3 (map (at3 v) collider))).
    unfold at3. rewrite (nth_indep (map _ collider) v3_0 (nth 0%nat v v3_0)) by (rewrite map_length; exact A). rewrite (map_nth (fun i => nth i v v3_0)). reflexivity.
Qed.
(** C146: the contact gradient is the adjoint of the map from velocities to relative velocities at the contacts, also when a vertex is on both sides of a contact
    or carries several contacts: no force is lost between contacts and vertices. *)
Theorem contact_gradient_adjoint : forall t qs active surface collider n m, well_formed (q_base t) -> indices_ok t -> length qs = length (trivial_neighborhood t) ->
  NoDup active -> (forall a, In a active -> (a < length qs)%nat) -> length surface = length (sb_verts (q_base t)) -> length collider = length qs ->
  (forall i, In i surface -> (i < n)%nat) -> (forall i, In i collider -> (i < n)%nat) -> build_jacobian t qs active = Some m ->
  exists g, build_gradient t qs active surface collider n = Some g /\ in_order (mp_pattern g) /\
    forall v y, length v = n ->
      pairing (length active) y (fun k => nth k (contact_mul {| cm_matrix := stored m; cm_constrained := active; cm_surface := surface; cm_collider := collider |} v) v3_0)
        = pairing n (fun i => block_product (stored g) y i) (fun i => nth i v v3_0).
Proof.
  intros t qs active surface collider n m WF IOK LQ ND R LS LC IS IC EM. destruct (full_jacobian_is_relative_velocity t qs active surface collider n m WF IOK LQ ND R LS LC IS IC EM) as (inv & S & EI & ES & P).
  destruct (full_selection_rows t qs active surface collider n WF IOK LQ ND R LS LC) as (inv' & L & S' & EI' & _ & ES' & RG & _). rewrite EI in EI'. injection EI' as <-. rewrite ES in ES'. injection ES' as <-.
  unfold build_gradient. rewrite EI, ES. cbn [option_map]. eexists. split; [reflexivity|]. assert (B := build_correct m3 m3_add m3_zero m3_monoid (fun _ => true) (gradient_triplets S)). split; [apply B|].
  assert (RG' : forall e, In e S -> (fst (fst e) < length active)%nat /\ (snd (fst e) < n)%nat) by (intros [[r c] M] I; exact (RG r c M I)).
  intros v y LV. transitivity (pairing (length active) y (block_product S (fun i => nth i v v3_0))).
  - unfold pairing. apply rsum_ext. intros k I. apply in_seq in I. f_equal. rewrite P by exact LV. rewrite (nth_indep _ v3_0 (block_product S (fun i => nth i v v3_0) 0%nat)) by (rewrite map_length, seq_length; lia). rewrite map_nth, seq_nth by lia. reflexivity.
  - etransitivity; [exact (pairing_adjoint S (length active) n (fun i => nth i v v3_0) y RG')|]. unfold pairing. apply rsum_ext. intros i _. rewrite (product_built (gradient_triplets S)) by exact B. reflexivity.
Qed.
(** A contact point that is also a vertex of the surface. *)
Example full_jacobian_is_relative_velocity_ex : exists m, build_jacobian two_points far_over [1%nat] = Some m /\
  contact_mul {| cm_matrix := stored m; cm_constrained := [1%nat]; cm_surface := [0; 1]%nat; cm_collider := [2; 0]%nat |} [V3 2 0 0; V3 0 4 0; V3 0 0 7] = [V3 (-1) 2 0].
Proof.
  destruct two_ok as [WF IOK]. assert (ND : NoDup [1%nat]) by (repeat constructor; intros []). assert (R : forall a, In a [1%nat] -> (a < length far_over)%nat) by (intros a [<-|[]]; cbn; lia).
  destruct (contact_jacobian_built two_points far_over [1%nat] WF IOK eq_refl ND R) as (L & m & EL & EM & _). exists m. split; [exact EM|].
  destruct (full_selection_rows two_points far_over [1%nat] [0; 1]%nat [2; 0]%nat 3 WF IOK eq_refl ND R eq_refl eq_refl) as (inv & L' & S & EI & EL' & ES & _ & P). rewrite EL in EL'. injection EL' as <-.
  destruct (full_jacobian_is_relative_velocity two_points far_over [1%nat] [0; 1]%nat [2; 0]%nat 3 m WF IOK eq_refl ND R eq_refl eq_refl) as (inv' & S' & EI' & ES' & Q); [intros i [<-|[<-|[]]]; lia|intros i [<-|[<-|[]]]; lia|exact EM|].
  rewrite EI in EI'. injection EI' as <-. rewrite ES in ES'. injection ES' as <-. rewrite Q by reflexivity. cbn [length seq map]. f_equal. rewrite P; [|cbn; lia|intros i I; apply nth_overflow; exact I].
  destruct (two_product [V3 2 0 0; V3 0 4 0] [] eq_refl) as (L'' & _ & EL'' & _ & _ & _ & _ & _ & _ & B & _). rewrite EL in EL''. injection EL'' as <-.
  assert (T : block_product L (fun c => nth (nth c [0; 1]%nat 0%nat) [V3 2 0 0; V3 0 4 0; V3 0 0 7] v3_0) (nth 0 [1%nat] 0%nat) = block_product L (fun i => nth i [V3 2 0 0; V3 0 4 0] v3_0) 1).
  { change (nth 0 [1%nat] 0%nat) with 1%nat. unfold block_product. apply vsum_ext. intros [[r c] M] I. destruct (matrices_range two_points far_over L WF IOK eq_refl EL) as [_ RG]. destruct (RG r c M I) as [_ C]. cbn in C. destruct c as [|[|c]]; [reflexivity|reflexivity|lia]. }
  rewrite T, B. apply v3_eq; cbv [nth v3_sub v3_scale v3_add vx vy vz]; lra.
Qed.
Example contact_gradient_adjoint_ex : exists g, build_gradient two_points far_over [1%nat] [0; 1]%nat [2; 0]%nat 3 = Some g /\
  pairing 3 (fun i => block_product (stored g) (fun _ => V3 3 5 0) i) (fun i => nth i [V3 2 0 0; V3 0 4 0; V3 0 0 7] v3_0) = 7.
Proof.
  destruct full_jacobian_is_relative_velocity_ex as (m & EM & V). destruct two_ok as [WF IOK].
  destruct (contact_gradient_adjoint two_points far_over [1%nat] [0; 1]%nat [2; 0]%nat 3 m WF IOK eq_refl) as (g & EG & _ & A); [repeat constructor; intros []|intros a [<-|[]]; cbn; lia|reflexivity|reflexivity|intros i [<-|[<-|[]]]; lia|intros i [<-|[<-|[]]]; lia|exact EM|].
  exists g. split; [exact EG|]. rewrite <- A by reflexivity. rewrite V. unfold pairing. cbn [length seq map]. rewrite rsum_cons, rsum_nil. cbv [nth v3_dot vx vy vz]. lra.
Qed.

Lemma column_built J n nc a r : (r < n)%nat -> column_product (stored (build_distance_gradient J n nc)) a r =
  vsum (map (fun e => let '(row, col, b) := e in if Nat.eqb col r && Nat.ltb row nc then v3_scale (a row) b else v3_0) J).
Proof.
  intros RN. set (keep := fun p : pos => (Nat.ltb (fst p) n && Nat.ltb (snd p) nc)%bool). assert (B := build_correct v3 v3_add v3_0 v3_monoid keep (distance_triplets J)). pose (h := fun (p : pos) (b : v3) => if Nat.eqb (fst p) r then v3_scale (a (snd p)) b else v3_0).
  assert (F : forall L : list (pos * v3), column_product L a r = vsum (map (fun e => h (fst e) (snd e)) L)) by (intros L; unfold column_product, h; f_equal; apply map_ext; intros [[i j] b]; reflexivity).
  unfold build_distance_gradient. fold keep. rewrite F. rewrite (operator_built v3 v3_add v3_0 h) with (keep := keep) (T := distance_triplets J); [| | |exact B].
  - clear B F. induction J as [|[[row col] b] J IH]; [reflexivity|]. cbn [distance_triplets map filter fst]. change (map (fun e : nat * nat * v3 => let '(row, col, b) := e in (col, row, b)) J) with (distance_triplets J). rewrite vsum_cons, <- IH. unfold keep at 1. cbn [fst snd].
    destruct (Nat.ltb_spec col n) as [C|C]; destruct (Nat.ltb_spec row nc) as [D|D]; cbn [andb]; try (cbn [map]; rewrite vsum_cons; unfold h at 1; cbn [fst snd]; rewrite andb_true_r; reflexivity).
    + rewrite andb_false_r. symmetry. apply vadd_0.
    + destruct (Nat.eqb_spec col r) as [->|]; [lia|]. cbn [andb]. symmetry. apply vadd_0.
    + rewrite andb_false_r. symmetry. apply vadd_0.
  - intros p x y. unfold h. destruct (Nat.eqb (fst p) r); [|symmetry; apply vadd_0]. dv x. dv y. apply v3_eq; cbv [v3_scale v3_add vx vy vz]; ring.
  - intros p. unfold h. destruct (Nat.eqb (fst p) r); [|reflexivity]. apply v3_eq; cbv [v3_scale v3_0 vx vy vz]; ring.
Qed.
(** C146: the distance gradient times the multipliers is the force that the contact constraints take away; refreshing it is building it anew. *)
Theorem distance_gradient_is_force : forall lambda J f f', subtract_force lambda J f = Some f' -> forall r, (r < length f)%nat ->
  nth r f' v3_0 = v3_sub (nth r f v3_0) (column_product (stored (build_distance_gradient J (length f) (length lambda))) (fun k => nth k lambda 0) r).
Proof.
  intros lambda J f f' H r R. rewrite column_built by exact R. revert f f' H R. induction J as [|[[row col] b] J IH]; intros f f' H R; cbn [subtract_force] in H.
  - injection H as <-. cbn [map vsum fold_right]. dv (nth r f v3_0). apply v3_eq; cbv [v3_sub v3_0 vx vy vz]; ring.
  - destruct (nth_error lambda row) as [l|] eqn:EL; [|discriminate]. destruct (modify_at col _ f) as [f1|] eqn:EM; [|discriminate].
    assert (MA : forall (g : v3 -> v3) (f f1 : list v3) c, modify_at c g f = Some f1 -> length f1 = length f /\ forall i, nth i f1 v3_0 = if Nat.eqb c i then (if Nat.ltb i (length f) then g (nth i f v3_0) else v3_0) else nth i f v3_0).
    { clear. intros g. induction f as [|a f IH]; intros f1 [|c] H; cbn [modify_at] in H; try discriminate.
      - injection H as <-. split; [reflexivity|]. intros [|i]; reflexivity.
      - destruct (modify_at c g f) as [f2|] eqn:E; [|discriminate]. injection H as <-. destruct (IH f2 c E) as [L N]. split; [cbn; congruence|]. intros [|i]; [reflexivity|]. cbn [nth]. rewrite N. reflexivity. }
    destruct (MA _ _ _ _ EM) as [LM NM]. rewrite (IH f1 f' H) by (rewrite LM; exact R). cbn [map]. rewrite vsum_cons. rewrite NM. assert (RL : (row < length lambda)%nat) by (apply nth_error_Some; congruence). apply Nat.ltb_lt in RL. rewrite RL, andb_true_r. rewrite (nth_error_nth _ _ 0 EL). apply Nat.ltb_lt in R. rewrite R.
    match goal with |- context [vsum ?x] => generalize (vsum x) end. intros s. destruct (Nat.eqb col r); dv (nth r f v3_0); dv b; dv s; apply v3_eq; cbv [v3_sub v3_add v3_scale v3_0 vx vy vz]; ring.
Qed.
Definition two_blocks : list (nat * nat * v3) := [(0, 1, V3 1 0 0); (1, 0, V3 0 2 0); (0, 0, V3 0 0 3)]%nat.
Example distance_gradient_is_force_ex : exists f', subtract_force [2; 1] two_blocks [V3 1 1 1; V3 1 1 1] = Some f' /\ nth 0 f' v3_0 = V3 1 (-1) (-5).
Proof. eexists. split; [reflexivity|]. apply v3_eq; cbv [nth v3_sub v3_scale v3_0 vx vy vz]; lra. Qed.
Theorem distance_gradient_refreshed : forall J J' n nc, map fst J' = map fst J -> update_distance_gradient (build_distance_gradient J n nc) J' = Some (build_distance_gradient J' n nc).
Proof.
  intros J J' n nc E. unfold update_distance_gradient, build_distance_gradient. assert (Q : map snd J' = map snd (distance_triplets J')) by (unfold distance_triplets; rewrite map_map; apply map_ext; intros [[r c] b]; reflexivity). rewrite Q. apply refreshed_matrix; [exact v3_monoid|].
  clear Q. unfold distance_triplets. revert J E. induction J' as [|[[r' c'] b'] J' IH]; intros [|[[r c] b] J] E; cbn [map fst] in E; try discriminate; [reflexivity|]. injection E as -> -> E. cbn [map fst]. f_equal. apply IH, E.
Qed.
Example distance_gradient_refreshed_ex : mp_pattern (build_distance_gradient two_blocks 2 2) = [(0, 0); (0, 1); (1, 0)]%nat /\ mp_pattern (build_distance_gradient two_blocks 1 2) = [(0, 0); (0, 1)]%nat /\
  exists m, update_distance_gradient (build_distance_gradient two_blocks 1 2) (map (fun e => (fst e, v3_scale 2 (snd e))) two_blocks) = Some m.
Proof. split; [reflexivity|]. split; [reflexivity|]. eexists. apply distance_gradient_refreshed. reflexivity. Qed.

Print Assumptions selection_rows.
Print Assumptions selection_loses_nothing.
Print Assumptions full_selection_rows.
Print Assumptions assembled_matrix.
Print Assumptions refreshed_matrix.
Print Assumptions stale_refresh_refuted.
Print Assumptions contact_jacobian_built.
Print Assumptions contact_jacobian_refreshed.
Print Assumptions contact_gradient_refreshed.
Print Assumptions full_jacobian_is_relative_velocity.
Print Assumptions contact_gradient_adjoint.
Print Assumptions distance_gradient_is_force.
Print Assumptions distance_gradient_refreshed.
