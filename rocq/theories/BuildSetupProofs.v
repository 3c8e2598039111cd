(** Lemmas about attributes, mesh sizes, contacts and force scales. *)
From Coq Require Import Reals ZArith List Arith Bool Lra Lia Permutation Sorted.
From Verif Require Import Vec3 Mat3 ElasticModel AngleModel ShellModel StateModel UtilModel TopoModel TopoSpec TopoProofs TopoElemProofs TopoRestProofs BuildModel BuildSpec BuildProofs.
Import ListNotations.
Local Open Scope R_scope.

(** * Ids *)
Lemma normalize_range k z : (0 < k)%nat -> (0 <= normalize_material k z < Z.of_nat k)%Z.
Proof. intros K. unfold normalize_material. destruct (Z.leb_spec (Z.of_nat k) z); lia. Qed.
Lemma normalize_id k z : (0 <= z < Z.of_nat k)%Z -> normalize_material k z = z.
Proof. intros B. unfold normalize_material. destruct (Z.leb_spec (Z.of_nat k) z); lia. Qed.
Lemma init_ids normalize n m s s' l : init_id_attribute normalize n m s = Done s' -> read_ids s' = Done l ->
  (exists l0, on_cells s = Some (I32 l0) /\ l = map normalize l0) \/ (l = repeat 0%Z n /\ forall l0, on_cells s <> Some (I32 l0) /\ on_cells s <> Some (U8 l0) /\ on_cells s <> Some (U32 l0)).
Proof.
  unfold init_id_attribute, insert_on_vertices. intros E R. destruct (on_cells s) as [[]|] eqn:Es;
    try (injection E as <-; cbn in R; injection R as <-; right; split; [reflexivity | intros l0'; repeat split; discriminate]).
  - injection E as <-. cbn in R. injection R as <-. left. exists l0. auto.
  - destruct (on_vertices _) in E; [discriminate|]. destruct (Nat.eqb _ _) in E; [|discriminate]. injection E as <-. discriminate.
  - destruct (on_vertices _) in E; [discriminate|]. destruct (Nat.eqb _ _) in E; [|discriminate]. injection E as <-. discriminate.
Qed.
Lemma unsigned_ids normalize n m l v a : a = U8 l \/ a = U32 l -> rbind (init_id_attribute normalize n m (Slot (Some a) v)) read_ids = Err AttribError.
Proof.
  intros [-> | ->]; unfold init_id_attribute, insert_on_vertices; cbn [on_cells on_vertices]; (destruct v; [reflexivity|]); destruct (Nat.eqb _ _); reflexivity.
Qed.

(** * Sizes *)
Definition is_min (o : option R) (P : R -> Prop) : Prop :=
  match o with None => forall x, ~ P x | Some x => P x /\ forall y, P y -> x <= y end.
Lemma is_min_ext o (P Q : R -> Prop) : (forall x, P x <-> Q x) -> is_min o P -> is_min o Q.
Proof. intros E. destruct o as [x|]; cbn; [intros [A B]; split; [apply E, A | intros y H; apply B, E, H] | intros A x H; apply (A x), E, H]. Qed.
Lemma size_min_spec s o P : is_min o P -> is_min (size_min s o) (fun x => P x \/ x = s).
Proof.
  destruct o as [x|]; cbn.
  - intros [A B]. split; [unfold Rmin; destruct (Rle_dec x s); auto|]. intros y [H| ->]; [apply Rle_trans with x; [apply Rmin_l | apply B, H] | apply Rmin_r].
  - intros A. split; [auto|]. intros y [H| ->]; [exfalso; exact (A y H) | lra].
Qed.
Lemma modify_spec {A} (f : A -> A) l i d : (i < length l)%nat -> exists l', modify f l i = Some l' /\ length l' = length l /\ forall v, nth v l' d = if Nat.eqb v i then f (nth v l d) else nth v l d.
Proof.
  revert i. induction l as [|a l IH]; intros i L; cbn [length] in L; [lia|]. destruct i as [|i].
  - exists (f a :: l). cbn. split; [reflexivity | split; [reflexivity|]]. intros [|v]; reflexivity.
  - destruct (IH i ltac:(lia)) as (l' & E & Ln & N). exists (a :: l'). cbn. rewrite E. split; [reflexivity | split; [cbn; lia|]]. intros [|v]; [reflexivity | apply N].
Qed.
Lemma lower_all_spec s vs : forall l (P : nat -> R -> Prop), (forall v, In v vs -> (v < length l)%nat) -> (forall v, (v < length l)%nat -> is_min (nth v l None) (P v)) ->
  exists l', lower_all s vs l = Done l' /\ length l' = length l /\ forall v, (v < length l)%nat -> is_min (nth v l' None) (fun x => P v x \/ (In v vs /\ x = s)).
Proof.
  induction vs as [|w vs IH]; intros l P B M; cbn [lower_all].
  - exists l. split; [reflexivity | split; [reflexivity|]]. intros v L. apply (is_min_ext _ (P v)); [|apply M, L]. intros x. cbn. tauto.
  - destruct (modify_spec (size_min s) l w None (B w (or_introl eq_refl))) as (l1 & E & L1 & N). rewrite E.
    destruct (IH l1 (fun v x => P v x \/ (v = w /\ x = s))) as (l' & E' & L' & M').
    + intros v I. rewrite L1. apply B. right. exact I.
    + intros v L. rewrite L1 in L. rewrite N. destruct (Nat.eqb_spec v w) as [->|D].
      * apply (is_min_ext _ (fun x => P w x \/ x = s)); [intros x; tauto | apply size_min_spec, M, L].
      * apply (is_min_ext _ (P v)); [intros x; tauto | apply M, L].
    + exists l'. rewrite L1 in L', M'. split; [exact E' | split; [exact L'|]]. intros v L. refine (is_min_ext _ _ _ _ (M' v L)). intros x. cbn [In]. split; [intros [[H|[-> H]]|[H H']]; auto | intros [H|[[<-|H] H']]; auto].
Qed.
Lemma cube_unique s t : 0 <= s -> 0 <= t -> s * s * s = t * t * t -> s = t.
Proof.
  intros S T E. assert (Z : (s - t) * (s * s + s * t + t * t) = 0) by (ring_simplify; lra). apply Rmult_integral in Z. destruct Z as [Z|Z]; [lra|].
  pose proof (Rmult_le_pos s s S S). pose proof (Rmult_le_pos s t S T). pose proof (Rmult_le_pos t t T T). assert (SS : s * s = 0) by lra. assert (TT : t * t = 0) by lra.
  apply Rmult_integral in SS. apply Rmult_integral in TT. destruct SS, TT; lra.
Qed.
Lemma cbrt_spec x : 0 <= x -> 0 <= cbrt x /\ cbrt x * cbrt x * cbrt x = x.
Proof.
  intros X. unfold cbrt. destruct (Rlt_dec 0 x) as [P|P]; [|split; [lra|]; assert (x = 0) by lra; subst; ring].
  split; [left; apply exp_pos|]. rewrite <- !Rpower_plus. replace (1 / 3 + 1 / 3 + 1 / 3) with 1 by lra. apply Rpower_1, P.
Qed.
Lemma cell_size_spec n cells ref_pos f c s : well_formed n cells -> nth_error cells f = Some c -> cell_size ref_pos f c = Done s <-> has_size cells ref_pos f s.
Proof.
  intros W N. destruct (W f c N) as [L _]. unfold cell_size, has_size. destruct (is_tri c) eqn:T.
  - rewrite L. cbn [Nat.leb]. pose proof (tri_area_nonneg (ref_tri3 ref_pos f)) as A. split.
    + intros E. injection E as <-. split; [apply sqrt_pos|]. exists c. rewrite T. split; [exact N | apply sqrt_sqrt, A].
    + intros [P (c' & N' & E)]. rewrite N in N'. injection N' as <-. rewrite T in E. f_equal. rewrite <- E. apply sqrt_square, P.
  - rewrite L. cbn [Nat.leb]. destruct (cbrt_spec (Rabs (tet_volume (ref_tet4 ref_pos f))) (Rabs_pos _)) as [A B]. split.
    + intros E. injection E as <-. split; [exact A|]. exists c. rewrite T. split; [exact N | exact B].
    + intros [P (c' & N' & E)]. rewrite N in N'. injection N' as <-. rewrite T in E. f_equal. apply cube_unique; [exact A | exact P | rewrite B, E; reflexivity].
Qed.
Lemma cell_size_done n cells ref_pos f c : well_formed n cells -> nth_error cells f = Some c -> exists s, cell_size ref_pos f c = Done s.
Proof. intros W N. destruct (W f c N) as [L _]. unfold cell_size. destruct (is_tri c); rewrite L; cbn [Nat.leb]; eauto. Qed.
Lemma lower_cells_spec n cells ref_pos cs : well_formed n cells -> (forall f c, In (f, c) cs -> nth_error cells f = Some c) -> forall l (P : nat -> R -> Prop), length l = n ->
  (forall v, (v < n)%nat -> is_min (nth v l None) (P v)) ->
  exists l', lower_cells ref_pos cs l = Done l' /\ length l' = n /\
    forall v, (v < n)%nat -> is_min (nth v l' None) (fun x => P v x \/ exists f c, In (f, c) cs /\ In v (m_verts c) /\ has_size cells ref_pos f x).
Proof.
  intros W. induction cs as [|[f c] cs IH]; intros H l P L M; cbn [lower_cells].
  - exists l. split; [reflexivity | split; [exact L|]]. intros v Lv. refine (is_min_ext _ _ _ _ (M v Lv)). intros x. split; [auto|]. intros [Q|(f & c & [] & _)]. exact Q.
  - pose proof (H f c (or_introl eq_refl)) as N. destruct (cell_size_done n cells ref_pos f c W N) as (s & Es). rewrite Es. cbn [rbind].
    destruct (lower_all_spec s (m_verts c) l P) as (l1 & E1 & L1 & M1); [intros v I; rewrite L; apply (W f c N), I | rewrite L; exact M|]. rewrite E1. cbn [rbind].
    rewrite L in L1, M1. destruct (IH (fun f' c' I => H f' c' (or_intror I)) l1 _ L1 M1) as (l' & E' & L' & M'). exists l'. split; [exact E' | split; [exact L'|]]. intros v Lv. refine (is_min_ext _ _ _ _ (M' v Lv)).
    intros x. pose proof (cell_size_spec n cells ref_pos f c x W N) as CS. split.
    + intros [[Q|[I ->]]|(f' & c' & I & J & S)]; [auto | right; exists f, c; split; [left; reflexivity | split; [exact I | apply (cell_size_spec n cells ref_pos f c s W N), Es]] | right; exists f', c'; split; [right; exact I | auto]].
    + intros [Q|(f' & c' & [E|I] & J & S)]; [auto | injection E as <- <-; left; right; split; [exact J | apply CS in S; congruence] | right; exists f', c'; auto].
Qed.
Lemma infinite_spec l v : In v (infinite l) <-> (v < length l)%nat /\ nth v l None = None.
Proof.
  unfold infinite. rewrite in_map_iff. split.
  - intros ([i o] & <- & I). apply filter_In in I. destruct I as [I E]. cbn [fst snd] in *. apply combine_seq_in in I. rewrite Nat.sub_0_r in I. destruct I as [_ N]. destruct o; [discriminate|].
    split; [apply nth_error_Some; congruence | apply nth_error_nth, N].
  - intros [L E]. exists (v, None). split; [reflexivity|]. apply filter_In. split; [|reflexivity]. apply combine_seq_in. rewrite Nat.sub_0_r. split; [lia|]. rewrite <- E. apply nth_error_nth', L.
Qed.
Lemma infinite_sorted l : StronglySorted lt (infinite l).
Proof.
  unfold infinite. apply (sorted_filter fst). assert (X : forall n, map fst (combine (seq n (length l)) l) = seq n (length l)).
  { induction l as [|a l IH]; intros n; cbn; [reflexivity | f_equal; apply IH]. }
  rewrite X. clear X. generalize 0%nat. induction (length l) as [|k IH]; intros n; cbn [seq]; constructor; [apply IH|]. apply Forall_forall. intros x I. apply in_seq in I. lia.
Qed.
Lemma rel_mesh_size_spec ref_pos cells n : well_formed n cells ->
  match rel_mesh_size ref_pos cells n with
  | Done sizes => length sizes = n /\ forall v, (v < n)%nat ->
      (exists f, touches cells f v /\ has_size cells ref_pos f (nth v sizes 0)) /\ forall f s, touches cells f v -> has_size cells ref_pos f s -> nth v sizes 0 <= s
  | Err e => exists orphaned, e = OrphanedVertices orphaned /\ orphaned <> [] /\ StronglySorted lt orphaned /\ forall v, In v orphaned <-> (v < n)%nat /\ forall f, ~ touches cells f v
  | Panic => False
  end.
Proof.
  intros W. unfold rel_mesh_size.
  destruct (lower_cells_spec n cells ref_pos (indexed_cells cells) W (fun f c I => proj1 (in_indexed cells f c) I) (repeat None n) (fun _ _ => False)) as (l & E & L & M).
  - apply repeat_length.
  - intros v Lv. assert (X : nth v (repeat None n) None = @None R) by (clear; revert v; induction n; intros [|v]; cbn; auto). rewrite X. cbn. auto.
  - rewrite E. cbn [rbind].
    assert (M' : forall v, (v < n)%nat -> is_min (nth v l None) (fun x => exists f, touches cells f v /\ has_size cells ref_pos f x)).
    { intros v Lv. refine (is_min_ext _ _ _ _ (M v Lv)). intros x. split.
      - intros [[]|(f & c & I & J & S)]. exists f. split; [exists c; split; [apply in_indexed, I | exact J] | exact S].
      - intros (f & (c & N & J) & S). right. exists f, c. split; [apply in_indexed, N | auto]. }
    clear M. destruct (infinite l) as [|o os] eqn:EI.
    + split; [rewrite map_length; exact L|]. intros v Lv. specialize (M' v Lv). destruct (nth v l None) as [x|] eqn:Ev.
      * assert (Ex : nth v (map (fun o => match o with Some x => x | None => 0 end) l) 0 = x). { change 0 with ((fun o => match o with Some x => x | None => 0 end) None) at 2. rewrite map_nth, Ev. reflexivity. }
        rewrite Ex. destruct M' as [A B]. split; [exact A|]. intros f s T S. apply B. exists f. auto.
      * exfalso. assert (I : In v (infinite l)) by (apply infinite_spec; split; [lia | exact Ev]). rewrite EI in I. exact I.
    + exists (o :: os). split; [reflexivity | split; [discriminate | split; [rewrite <- EI; apply infinite_sorted|]]]. intros v. rewrite <- EI, infinite_spec, L. split; intros [Lv H]; (split; [exact Lv|]).
      * specialize (M' v Lv). rewrite H in M'. intros f T. destruct T as (c & N & J). destruct (cell_size_done n cells ref_pos f c W N) as (s & Es). apply (M' s). exists f. split; [exists c; auto | apply (cell_size_spec n cells ref_pos f c s W N), Es].
      * specialize (M' v Lv). destruct (nth v l None) as [x|]; [|reflexivity]. exfalso. destruct M' as [(f & T & _) _]. exact (H f T).
Qed.

(** * Contacts *)
Lemma contact_surface_spec ids surface vt id : (forall face v, In face (surface id) -> In v face -> (v < length vt)%nat) ->
  match contact_surface ids surface vt id with
  | Done fixed => (exists z, In z ids /\ Z.to_nat z = id) /\ (fixed = true <-> forall face v, In face (surface id) -> In v face -> nth_error vt v = Some Fixed)
  | Err e => e = ContactObjectIdError id /\ forall z, In z ids -> Z.to_nat z <> id
  | Panic => False
  end.
Proof.
  intros B. unfold contact_surface. destruct (existsb _ ids) eqn:E.
  - rewrite (collect_map _ (movable vt)); [cbn [rbind]|intros face I; apply any_not_fixed_spec; intros v J; exact (B face v I J)]. split.
    + apply existsb_exists in E. destruct E as (z & I & H). apply Nat.eqb_eq in H. eauto.
    + rewrite forallb_forall. split.
      * intros H face v I J. specialize (H (movable vt face) (in_map _ _ _ I)). apply negb_true_iff in H. pose proof (B face v I J) as L. destruct (nth_error vt v) as [k|] eqn:N; [|apply nth_error_None in N; lia].
        destruct k; try reflexivity; exfalso; (assert (M : movable vt face = true); [apply movable_spec; eexists v, _; split; [exact J | split; [exact N | discriminate]] | congruence]).
      * intros H b I. apply in_map_iff in I. destruct I as (face & <- & I). apply negb_true_iff. destruct (movable vt face) eqn:M; [|reflexivity]. apply movable_spec in M. destruct M as (v & k & J & N & K). exfalso. rewrite (H face v I J) in N. congruence.
  - split; [reflexivity|]. intros z I Z. assert (existsb (fun z => Nat.eqb (Z.to_nat z) id) ids = true) by (apply existsb_exists; exists z; split; [exact I | apply Nat.eqb_eq, Z]). congruence.
Qed.

(** * Scales *)
Lemma inertia_pos dt : 0 < dt -> 0 < 1 * 1 / (dt * dt).
Proof. intros P. apply Rdiv_lt_0_compat; [lra | apply Rmult_lt_0_compat; exact P]. Qed.
Lemma scales_spec dt g : 0 <= g -> 1 <= max_force_scale dt g /\ exists s, min_force_scale dt g = Some s /\ 0 < s <= 1.
Proof.
  intros G. split.
  - unfold max_force_scale. cbv zeta. match goal with |- context [Rmax ?a (1 / 1)] => pose proof (Rmax_r a (1 / 1)) as H end. destruct (Req_EM_T _ 0); [lra|]. lra.
  - unfold min_force_scale, ignore_zero, min_opt, option_map. destruct (Req_EM_T 1 0); [lra|]. pose proof (inertia_pos dt) as P.
    assert (M : forall a b, 0 < a -> 0 < b -> 0 < Rmin a b) by (intros; apply Rmin_glb_lt; assumption).
    destruct (Rlt_dec 0 dt) as [D|D]; destruct (Req_EM_T (1 * g) 0) as [Z|Z]; eexists; (split; [reflexivity|]); (split; [repeat apply M; try lra; auto | eapply Rle_trans; [apply Rmin_r | lra]]).
Qed.
