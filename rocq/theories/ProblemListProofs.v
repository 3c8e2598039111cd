(** Stacked coordinates, filled slices, and matrices given by entries. *)
From Coq Require Import Reals List Arith Bool Lra Lia.
From Verif Require Import Vec3 Mat3 RList ElasticModel ElasticSpec ElasticProofs ElasticMeshProofs ElasticHessProofs MassModel MassProofs AngleModel ShellModel ShellSpec ShellHessProofs
  VolumeModel VolumeSpec ProblemModel.
From Verif Require ContactHessSpec SurfJacSpec SurfHessSpec VolumeProofs NeighborModel.
Import ListNotations.
Local Open Scope R_scope.
Local Notation matrix_entry := ContactHessSpec.matrix_entry.
Local Notation matrix_form := ContactHessSpec.matrix_form.
Local Notation mesh_line := SurfJacSpec.mesh_line.
Local Notation lower_form := ElasticSpec.lower_form.

(** * Stacked coordinates *)
Lemma coordinate_coords U k : SurfHessSpec.coordinate U k = coords U k.
Proof. unfold SurfHessSpec.coordinate, coords, v3_get. destruct (k mod 3) as [|[|r]]; reflexivity. Qed.
Lemma stack_length l : length (stack l) = (3 * length l)%nat.
Proof. induction l as [|a l IH]; [reflexivity|]. change (stack (a :: l)) with (vx a :: vy a :: vz a :: stack l). cbn [length]. rewrite IH. lia. Qed.
Lemma unstack_stack l : unstack (stack l) = l.
Proof. induction l as [|[a b c] l IH]; [reflexivity|]. change (stack (V3 a b c :: l)) with (a :: b :: c :: stack l). cbn [unstack]. rewrite IH. reflexivity. Qed.
Lemma stack_unstack : forall n f, length f = (3 * n)%nat -> stack (unstack f) = f /\ length (unstack f) = n.
Proof.
  induction n as [|n IH]; intros f L; [destruct f; [split; reflexivity|discriminate]|].
  destruct f as [|a [|b [|c f]]]; cbn [length] in L; try lia. destruct (IH f ltac:(lia)) as [E1 E2]. cbn [unstack]. split; [|cbn [length]; congruence].
  change (stack (V3 a b c :: unstack f)) with (a :: b :: c :: stack (unstack f)). rewrite E1. reflexivity.
Qed.
Lemma coords_at U i j : (j < 3)%nat -> coords U (3 * i + j) = v3_get (U i) j.
Proof. intros J. unfold coords. replace (3 * i + j)%nat with (j + i * 3)%nat by lia. rewrite Nat.div_add, Nat.mod_add by lia. rewrite Nat.div_small, Nat.mod_small by lia. reflexivity. Qed.
Lemma coords_shift U k : coords U (3 + k) = coords (fun i => U (S i)) k.
Proof. unfold coords. replace (3 + k)%nat with (k + 1 * 3)%nat by lia. rewrite Nat.div_add, Nat.mod_add by lia. rewrite Nat.add_1_r. reflexivity. Qed.
Lemma nth_stack : forall l k, nth k (stack l) 0 = coords (at_ l) k.
Proof.
  induction l as [|a l IH]; intros k; [unfold coords, at_, v3_get; destruct (k / 3)%nat; cbn [nth v3_0 vx vy vz]; destruct (k mod 3) as [|[|r]]; destruct k; reflexivity|].
  change (stack (a :: l)) with (vx a :: vy a :: vz a :: stack l). destruct k as [|[|[|k]]]; [reflexivity|reflexivity|reflexivity|]. cbn [nth]. rewrite IH. symmetry. apply (coords_shift (at_ (a :: l)) k).
Qed.
(** Inner product of stacked coordinates with a motion. *)
Definition rdot (f : list R) (u : nat -> R) : R := rsum (map (fun k => nth k f 0 * u k) (seq 0 (length f))).
Lemma rdot_cons a f u : rdot (a :: f) u = a * u 0%nat + rdot f (fun k => u (S k)).
Proof. unfold rdot. cbn [length seq map]. rewrite rsum_cons, <- seq_shift, map_map. reflexivity. Qed.
Lemma rdot_ext f u u' : (forall k, (k < length f)%nat -> u k = u' k) -> rdot f u = rdot f u'.
Proof. intros H. apply rsum_ext. intros k Hk. apply in_seq in Hk. rewrite H by lia. reflexivity. Qed.
Lemma lsum_shift (L : nat -> v3 -> R) : forall l k, lsum L (S k) l = lsum (fun i => L (S i)) k l.
Proof. induction l as [|b l IH]; intros k; [reflexivity|]. cbn [lsum]. rewrite IH. reflexivity. Qed.
Lemma rdot_stack l w : rdot (stack l) (coords w) = power l w.
Proof.
  rewrite power_lsum. revert w. induction l as [|a l IH]; intros w; [reflexivity|]. change (stack (a :: l)) with (vx a :: vy a :: vz a :: stack l). rewrite !rdot_cons. cbn [lsum].
  rewrite (rdot_ext _ _ (coords (fun i => w (S i)))) by (intros k _; apply (coords_shift w k)). rewrite IH, lsum_shift.
  unfold coords. cbn [Nat.div Nat.modulo Nat.divmod fst snd Nat.sub v3_get]. unfold v3_dot. ring.
Qed.
Lemma rdot_scale c : forall f u, rdot (map (fun x => x * c) f) u = c * rdot f u.
Proof. induction f as [|a f IH]; intros u; [unfold rdot; cbn [map length seq]; rewrite rsum_nil; ring|]. cbn [map]. rewrite !rdot_cons, IH. ring. Qed.
Lemma rdot_firstn : forall n f u, (forall k, (n <= k)%nat -> u k = 0) -> rdot (firstn n f) u = rdot f u.
Proof.
  induction n as [|n IH]; intros f u H.
  - unfold rdot. cbn [firstn length seq map]. rewrite rsum_nil. symmetry. apply rsum_zero. intros k _. rewrite H by lia. ring.
  - destruct f as [|a f]; [reflexivity|]. cbn [firstn]. rewrite !rdot_cons, IH; [reflexivity|]. intros k K. apply H. lia.
Qed.
Lemma rdot_add : forall (f g r : list R) u, length g = length f -> length r = length f -> (forall k, (k < length f)%nat -> nth k r 0 = nth k f 0 + nth k g 0) -> rdot r u = rdot f u + rdot g u.
Proof.
  intros f g r u L1 L2 H. unfold rdot. rewrite L1, L2, <- rsum_plus. apply rsum_ext. intros k Hk. apply in_seq in Hk. rewrite H by lia. ring.
Qed.
Lemma combine_dot : forall f g, length g = length f -> rsum (map (fun rv => fst rv * snd rv) (combine f g)) = rdot f (fun k => nth k g 0).
Proof.
  induction f as [|a f IH]; intros [|b g] L; try discriminate; [reflexivity|]. cbn [combine map]. rewrite rsum_cons, rdot_cons, IH by (cbn in L; lia). reflexivity.
Qed.
(** * Lines of vertices *)
Lemma at_line V U s i : at_ (mesh_line V U s) i = if Nat.ltb i (length V) then v3_line (at_ V i) (U i) s else v3_0.
Proof.
  unfold at_, mesh_line. destruct (Nat.ltb_spec i (length V)) as [L|L].
  - rewrite (nth_indep _ v3_0 (v3_line (snd (0%nat, v3_0)) (U (fst (0%nat, v3_0))) s)) by (rewrite map_length, combine_length, seq_length; lia). rewrite (map_nth (fun p => v3_line (snd p) (U (fst p)) s)), combine_nth by apply seq_length. cbn [fst snd]. rewrite seq_nth by exact L. reflexivity.
  - apply nth_overflow. rewrite map_length, combine_length, seq_length. lia.
Qed.
Lemma line_length V U s : length (mesh_line V U s) = length V.
Proof. unfold mesh_line. rewrite map_length, combine_length, seq_length. lia. Qed.
Lemma v3_line_0 s : v3_line v3_0 v3_0 s = v3_0.
Proof. unfold v3_line, v3_add, v3_scale, v3_0. cbn [vx vy vz]. f_equal; ring. Qed.
Lemma at_line_move V U s : (forall i, (length V <= i)%nat -> U i = v3_0) -> at_ (mesh_line V U s) = move (at_ V) U s.
Proof.
  intros Z. apply FunctionalExtensionality.functional_extensionality. intros i. rewrite at_line. unfold move. destruct (Nat.ltb_spec i (length V)) as [L|L]; [reflexivity|]. rewrite (Z i L). unfold at_. rewrite nth_overflow by exact L. symmetry. apply v3_line_0.
Qed.
Lemma list_at (l l' : list v3) : length l = length l' -> (forall i, (i < length l)%nat -> at_ l i = at_ l' i) -> l = l'.
Proof. intros L H. apply (nth_ext l l' v3_0 v3_0 L). exact H. Qed.
Lemma coords_line x d s k : coords (move x d s) k = coords x k + s * coords d k.
Proof. unfold coords, move, v3_get. destruct (k mod 3) as [|[|r]]; unfold v3_line, v3_add, v3_scale; cbn [vx vy vz]; ring. Qed.
Lemma coords_scale c d k : coords (fun i => v3_scale c (d i)) k = c * coords d k.
Proof. unfold coords, v3_get. destruct (k mod 3) as [|[|r]]; reflexivity. Qed.
Lemma by_coordinate_coords f i j : (j < 3)%nat -> v3_get (by_coordinate f i) j = f (3 * i + j)%nat.
Proof. intros J. unfold by_coordinate. destruct j as [|[|[|j]]]; cbn [v3_get vx vy vz]; [rewrite Nat.add_0_r; reflexivity|reflexivity|reflexivity|lia]. Qed.

(** * Filled slices *)
Lemma fill_enough {A} room (done l : list A) : (length done + length l <= room)%nat -> fill room done l = Some (done ++ l).
Proof. intros L. unfold fill. destruct (Nat.leb_spec (length done + length l) room); [reflexivity|lia]. Qed.
Lemma fill_all_enough {A} room : forall (ls : list (list A)) done, (length done + length (concat ls) <= room)%nat -> fill_all room done ls = Some (done ++ concat ls).
Proof.
  induction ls as [|l ls IH]; intros done L; cbn [fill_all concat] in *; [rewrite app_nil_r; reflexivity|]. rewrite app_length in L. rewrite fill_enough by lia. cbn [bind]. rewrite IH by (rewrite app_length; lia). rewrite app_assoc. reflexivity.
Qed.
Lemma zip_enough {A} room (done l : list A) : (length done + length l <= room)%nat -> zip_fill room done l = done ++ l.
Proof. intros L. unfold zip_fill. rewrite firstn_all2 by lia. reflexivity. Qed.
Lemma zip_all_enough {A} room : forall (ls : list (list A)) done, (length done + length (concat ls) <= room)%nat -> zip_fill_all room done ls = done ++ concat ls.
Proof.
  unfold zip_fill_all. induction ls as [|l ls IH]; intros done L; cbn [fold_left concat] in *; [rewrite app_nil_r; reflexivity|]. rewrite app_length in L. rewrite zip_enough by lia. rewrite IH by (rewrite app_length; lia). rewrite app_assoc. reflexivity.
Qed.
Lemma all_some_ok {A B} (f : A -> option B) (g : A -> B) l : (forall a, In a l -> f a = Some (g a)) -> NeighborModel.all_some (map f l) = Some (map g l).
Proof. induction l as [|a l IH]; intros H; [reflexivity|]. cbn [map NeighborModel.all_some]. rewrite (H a (or_introl eq_refl)), IH by (intros b Hb; apply H; right; exact Hb). reflexivity. Qed.

(** * Matrices given by entries *)
Lemma entry_app L M i j : matrix_entry (L ++ M) i j = matrix_entry L i j + matrix_entry M i j.
Proof. unfold ContactHessSpec.matrix_entry. rewrite filter_app, map_app, rsum_app. reflexivity. Qed.
Lemma entry_cons e L i j : matrix_entry (e :: L) i j = (if andb (Nat.eqb (fst (fst e)) i) (Nat.eqb (snd (fst e)) j) then snd e else 0) + matrix_entry L i j.
Proof. unfold ContactHessSpec.matrix_entry. cbn [filter]. destruct (andb _ _); [cbn [map]; rewrite rsum_cons; reflexivity|ring]. Qed.
Lemma entry_nil i j : matrix_entry [] i j = 0. Proof. apply rsum_nil. Qed.
Definition unit_at (i k : nat) : R := if Nat.eqb k i then 1 else 0.
Lemma entry_form L i j : matrix_entry L i j = sparse_form L (unit_at i) (unit_at j).
Proof.
  induction L as [|[[r c] a] L IH]; [reflexivity|]. rewrite entry_cons, IH. unfold sparse_form. cbn [map fst snd]. rewrite rsum_cons. f_equal. unfold unit_at. destruct (Nat.eqb r i), (Nat.eqb c j); cbn [andb]; ring.
Qed.
Lemma unit_coords i : exists U, forall k, unit_at i k = coords U k.
Proof.
  exists (fun v => by_coordinate (unit_at i) v). intros k. unfold coords. assert (M : (k mod 3 < 3)%nat) by (apply Nat.mod_upper_bound; lia). rewrite by_coordinate_coords by exact M. f_equal. apply Nat.div_mod. lia.
Qed.
Lemma sparse_ext L u w u' w' : (forall k, u k = u' k) -> (forall k, w k = w' k) -> sparse_form L u w = sparse_form L u' w'.
Proof. intros H1 H2. apply rsum_ext. intros [[r c] a] _. rewrite H1, H2. reflexivity. Qed.
Lemma matrix_form_sparse n x : (forall k, (n <= k)%nat -> x k = 0) -> forall L, matrix_form n L x = sparse_form L x x.
Proof.
  intros Z. induction L as [|[[r c] a] L IH].
  - unfold ContactHessSpec.matrix_form. apply rsum_zero. intros i _. apply rsum_zero. intros j _. rewrite entry_nil. ring.
  - unfold sparse_form. cbn [map]. rewrite rsum_cons. fold (sparse_form L x x). rewrite <- IH. unfold ContactHessSpec.matrix_form.
    rewrite (rsum_ext (fun i => rsum (map (fun j => matrix_entry ((r, c, a) :: L) i j * x i * x j) (seq 0 n)))
      (fun i => (if Nat.eqb i r then a * x r * x c else 0) + rsum (map (fun j => matrix_entry L i j * x i * x j) (seq 0 n)))).
    2: { intros i _. destruct (Nat.eqb_spec i r) as [->|N].
      - rewrite (rsum_ext _ (fun j => (if Nat.eqb j c then a * x r * x c else 0) + matrix_entry L r j * x r * x j)).
        2: { intros j _. rewrite entry_cons. cbn [fst snd]. rewrite Nat.eqb_refl. cbn [andb]. rewrite (Nat.eqb_sym c j). destruct (Nat.eqb_spec j c) as [->|]; ring. }
        rewrite rsum_plus. f_equal. destruct (Nat.ltb_spec c n) as [C|C].
        + rewrite (rsum_ext _ (fun j => if Nat.eqb j c then a * x r * x j else 0)) by (intros j _; destruct (Nat.eqb_spec j c) as [->|]; reflexivity). exact (rsum_seq_single (fun j => a * x r * x j) n c C).
        + rewrite (Z c C), rsum_zero; [ring|]. intros j Hj. apply in_seq in Hj. destruct (Nat.eqb_spec j c); [lia|reflexivity].
      - rewrite Rplus_0_l. apply rsum_ext. intros j _. rewrite entry_cons. cbn [fst snd]. destruct (Nat.eqb_spec r i); [congruence|]. cbn [andb]. ring. }
    rewrite rsum_plus. f_equal. destruct (Nat.ltb_spec r n) as [C|C].
    + rewrite (rsum_ext _ (fun i => if Nat.eqb i r then a * x i * x c else 0)) by (intros i _; destruct (Nat.eqb_spec i r) as [->|]; reflexivity). exact (rsum_seq_single (fun i => a * x i * x c) n r C).
    + rewrite (Z r C), rsum_zero; [ring|]. intros i Hi. apply in_seq in Hi. destruct (Nat.eqb_spec i r); [lia|reflexivity].
Qed.
(** A lower triangle with its mirror image. *)
Definition mirror (e : nat * nat * R) : nat * nat * R := (snd (fst e), fst (fst e), snd e).
Definition off_entries (L : list (nat * nat * R)) : list (nat * nat * R) := map mirror (filter (fun e => off_diagonal (fst e)) L).
Lemma mirrored_form L x : sparse_form (L ++ off_entries L) x x = lower_form L x x.
Proof.
  rewrite VolumeProofs.sparse_form_app. unfold off_entries, sparse_form, ElasticSpec.lower_form. induction L as [|[[r c] a] L IH]; [cbn [filter map]; rewrite rsum_nil; ring|].
  cbn [filter map fst snd]. unfold off_diagonal at 1. cbn [fst snd]. destruct (Nat.eqb_spec r c) as [->|N]; cbn [negb map mirror fst snd]; rewrite !rsum_cons, <- IH; ring.
Qed.
Lemma mirrored_entries L i j : matrix_entry (L ++ off_entries L) i j = matrix_entry (L ++ off_entries L) j i.
Proof.
  assert (O : forall i j, matrix_entry (off_entries L) i j = if Nat.eqb i j then 0 else matrix_entry L j i).
  { clear. intros i j. unfold off_entries. induction L as [|[[r c] a] L IH]; [cbn [filter map]; rewrite !entry_nil; destruct (Nat.eqb i j); reflexivity|].
    cbn [filter fst snd]. unfold off_diagonal at 1. cbn [fst snd]. rewrite entry_cons. cbn [fst snd]. destruct (Nat.eqb_spec r c) as [->|N]; cbn [negb map].
    - rewrite IH. destruct (Nat.eqb_spec i j) as [|NE]; [reflexivity|]. destruct (Nat.eqb_spec c j), (Nat.eqb_spec c i); cbn [andb]; try ring; subst; congruence.
    - rewrite entry_cons, IH. cbn [mirror fst snd]. destruct (Nat.eqb_spec i j) as [->|NE]; [destruct (Nat.eqb_spec c j), (Nat.eqb_spec r j); cbn [andb]; try ring; subst; congruence|].
      rewrite (andb_comm (Nat.eqb c i)). reflexivity. }
  rewrite !entry_app, !O. rewrite (Nat.eqb_sym j i). destruct (Nat.eqb_spec i j) as [->|N]; ring.
Qed.
Lemma entry_scale c L i j : matrix_entry (map (fun e => (fst e, c * snd e)) L) i j = c * matrix_entry L i j.
Proof. induction L as [|e L IH]; cbn [map]; [rewrite !entry_nil; ring|]. rewrite !entry_cons, IH. cbn [fst snd]. destruct (andb _ _); ring. Qed.
Lemma sparse_scale c L u w : sparse_form (map (fun e => (fst e, c * snd e)) L) u w = c * sparse_form L u w.
Proof. unfold sparse_form. rewrite map_map, <- rsum_scale. apply rsum_ext. intros [[r k] a] _. cbn [fst snd]. ring. Qed.
Lemma combine_fst_snd {A B} (f : B -> B) (L : list (A * B)) : combine (map fst L) (map (fun e => f (snd e)) L) = map (fun e => (fst e, f (snd e))) L.
Proof. induction L as [|e L IH]; [reflexivity|]. cbn [map combine]. rewrite IH. reflexivity. Qed.
Lemma combine_app_eq {A B} : forall (a : list A) (b : list B) a' b', length a = length b -> combine (a ++ a') (b ++ b') = combine a b ++ combine a' b'.
Proof. induction a as [|x a IH]; intros [|y b] a' b' L; try discriminate; [reflexivity|]. cbn [app combine]. rewrite IH by (cbn in L; lia). reflexivity. Qed.
Lemma combine_prefix {A B} : forall (a : list A) (b : list B) a', length a = length b -> combine (a ++ a') b = combine a b.
Proof. induction a as [|x a IH]; intros [|y b] a' L; try discriminate; [destruct a'; reflexivity|]. cbn [app combine]. rewrite IH by (cbn in L; lia). reflexivity. Qed.
Lemma combine_off : forall (ij : list (nat * nat)) (vals : list R), length ij = length vals ->
  combine (map (fun q => (snd q, fst q)) (filter off_diagonal ij)) (map snd (filter (fun e => off_diagonal (fst e)) (combine ij vals))) = off_entries (combine ij vals) /\
  length (filter off_diagonal ij) = length (filter (fun e => off_diagonal (fst e)) (combine ij vals)).
Proof.
  unfold off_entries. induction ij as [|[r c] ij IH]; intros [|a vals] L; try discriminate; [split; reflexivity|]. destruct (IH vals ltac:(cbn in L; lia)) as [E1 E2].
  cbn [combine filter fst]. destruct (off_diagonal (r, c)); cbn [map combine length]; rewrite ?E1, ?E2; split; reflexivity.
Qed.
(** Off-diagonal entries are at most those announced. *)
Lemma filter_map_le {A B} (P : B -> bool) (Q : A -> bool) (f : A -> B) l : (forall t, Q t = false -> P (f t) = false) -> (length (filter P (map f l)) <= length (filter Q l))%nat.
Proof. intros H. induction l as [|a l IH]; [apply le_n|]. cbn [map filter]. destruct (Q a) eqn:E; [|rewrite (H a E); exact IH]. destruct (P (f a)); cbn [length]; lia. Qed.
Lemma filter_flat_le {A B} (P : B -> bool) (f : A -> list B) k l : (forall a, (length (filter P (f a)) <= k)%nat) -> (length (filter P (flat_map f l)) <= k * length l)%nat.
Proof. intros H. induction l as [|a l IH]; [cbn; lia|]. cbn [flat_map length]. rewrite filter_app, app_length. specialize (H a). lia. Qed.
Lemma tets_off ss : (length (filter off_diagonal (hessian_indices ss 0 0)) <= 66 * length ss)%nat.
Proof.
  apply filter_flat_le. intros s. set (Q := fun t : nat * nat * nat * nat => let '(n, k, row, col) := t in negb (Nat.eqb n k && Nat.eqb row col)).
  apply Nat.le_trans with (length (filter Q hessian_entries)); [|vm_compute; lia]. apply filter_map_le. intros [[[n k] row] col] E. unfold Q in E. apply negb_false_iff, andb_prop in E. destruct E as [E1 E2]. apply Nat.eqb_eq in E1, E2. subst.
  unfold hessian_index. rewrite Nat.ltb_irrefl. unfold off_diagonal. cbn [fst snd]. rewrite Nat.eqb_refl. reflexivity.
Qed.
Lemma inertia_diagonal es : filter off_diagonal (inertia_indices es 0 0) = [].
Proof.
  unfold inertia_indices. induction es as [|e es IH]; [reflexivity|]. cbn [flat_map]. rewrite filter_app, IH, app_nil_r. induction (cell_coords (cell e)) as [|k l IHl]; [reflexivity|]. cbn [map filter]. unfold off_diagonal at 1. cbn [fst snd]. rewrite Nat.eqb_refl. cbn [negb]. exact IHl.
Qed.
Lemma shell_off S : (length (filter off_diagonal (shell_hessian_indices S 0 0)) <= 36 * length (sh_tris S) + 66 * length (sh_dihedrals S))%nat.
Proof.
  unfold shell_hessian_indices. rewrite filter_app, app_length. apply Nat.add_le_mono; apply filter_flat_le.
  - intros t. set (Q := fun p : nat * nat * nat * nat => let '(n, k, row, col) := p in negb (Nat.eqb n k && Nat.eqb row col)).
    apply Nat.le_trans with (length (filter Q tri_entries)); [|vm_compute; lia]. apply filter_map_le. intros [[[n k] row] col] E. unfold Q in E. apply negb_false_iff, andb_prop in E. destruct E as [E1 E2]. apply Nat.eqb_eq in E1, E2. subst.
    unfold tri_index, swapped_index. rewrite Nat.ltb_irrefl. unfold off_diagonal. cbn [fst snd]. rewrite Nat.eqb_refl. reflexivity.
  - intros d. unfold edge_indices. rewrite filter_app, app_length.
    set (Q := fun p : nat * nat * nat * nat => let '(_, row, col, _) := p in negb (Nat.eqb row col)).
    assert (A : (length (filter off_diagonal (map (fun p => let '(vtx, row, col, _) := p in let c := edge_vert (di_edge d) (sh_faces S) vtx in ((3 * c + row + 0)%nat, (3 * c + col + 0)%nat)) edge_diag_entries)) <= length (filter Q edge_diag_entries))%nat).
    { apply filter_map_le. intros [[[v row] col] i] E. unfold Q in E. apply negb_false_iff, Nat.eqb_eq in E. subst. unfold off_diagonal. cbn [fst snd]. rewrite Nat.eqb_refl. reflexivity. }
    assert (B : forall (P : nat * nat -> bool) l, (length (filter P l) <= length l)%nat) by (clear; intros P l; induction l as [|a l IH]; cbn [filter length]; [lia|destruct (P a); cbn [length]; lia]).
    assert (C := B off_diagonal (map (fun p => let '(rv, cv, _, (row, col)) := p in swapped_index (edge_vert (di_edge d) (sh_faces S) rv) (edge_vert (di_edge d) (sh_faces S) cv) row col 0 0) edge_lower_entries)). rewrite map_length in C.
    assert (D : (length (filter Q edge_diag_entries) + length edge_lower_entries <= 66)%nat) by (vm_compute; lia). exact (Nat.le_trans _ _ _ (Nat.add_le_mono _ _ _ _ A C) D).
Qed.
