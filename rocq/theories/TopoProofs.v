(** Lemmas about the edge table and interior edges. *)
From Coq Require Import Reals List Arith Bool Lia Permutation Sorted.
From Verif Require Import Vec3 AngleModel AngleSpec StateModel TopoModel TopoSpec.
Import ListNotations.
Local Open Scope nat_scope.

(** * Edge table *)
Notation half := (nat * (nat * nat))%type.
Definition hkey (h : half) : nat * nat := edge_key (fst (snd h)) (snd (snd h)).
Definition reg (table : list edge_data) (h : half) : list edge_data := register (fst h) (fst (snd h)) (snd (snd h)) table.
Definition halves (p : nat * corners3) : list half := let '(f, (a, b, c)) := p in [(f, (a, b)); (f, (b, c)); (f, (c, a))].
Definition table_of (hs : list half) : list edge_data := fold_left reg hs [].
Definition topo_ok (t : edge_topo) (l : list nat) : Prop :=
  match t with Boundary f => l = [f] | Manifold f g => l = [f; g] | NonManifold fs => l = fs /\ 3 <= length fs end.
Definition with_key (k : nat * nat) (hs : list half) : list half := filter (fun h => key_eqb (hkey h) k) hs.

Lemma key_eqb_eq a b : key_eqb a b = true <-> a = b.
Proof. destruct a as [a1 a2], b as [b1 b2]. unfold key_eqb. cbn [fst snd]. rewrite andb_true_iff, !Nat.eqb_eq. split; [intros [-> ->]; reflexivity | intros E; inversion E; auto]. Qed.
Lemma key_eqb_neq a b : a <> b -> key_eqb a b = false.
Proof. intros N. destruct (key_eqb a b) eqn:E; [apply key_eqb_eq in E; contradiction | reflexivity]. Qed.

Lemma edge_table_halves cells : edge_table cells = table_of (flat_map halves (indexed_triangles cells)).
Proof.
  unfold edge_table, table_of. generalize (@nil edge_data) as T. generalize (indexed_triangles cells) as ts.
  induction ts as [|[f [[a b] c]] ts IH]; intros T; [reflexivity|]. cbn [fold_left flat_map halves app]. rewrite IH. reflexivity.
Qed.

(** What one registration does. *)
Definition bumped (h : half) (d : edge_data) : edge_data := EdgeData (e_key d) (e_verts d) (add_to_topo (e_topo d) (fst h)).
Definition fresh (h : half) : edge_data := EdgeData (hkey h) (snd h) (Boundary (fst h)).
Lemma reg_absent h T : ~ In (hkey h) (map e_key T) -> reg T h = T ++ [fresh h].
Proof.
  unfold reg, fresh, hkey. destruct h as [f [v0 v1]]. cbn [fst snd]. induction T as [|d T IH]; intros N; [reflexivity|].
  cbn [register app]. cbn [map] in N. rewrite (key_eqb_neq (e_key d)) by (intros E; apply N; left; exact E). f_equal. apply IH. intros I. apply N. right. exact I.
Qed.
Lemma reg_present h T : NoDup (map e_key T) -> In (hkey h) (map e_key T) ->
  reg T h = map (fun d => if key_eqb (e_key d) (hkey h) then bumped h d else d) T.
Proof.
  unfold reg, bumped, hkey. destruct h as [f [v0 v1]]. cbn [fst snd]. induction T as [|d T IH]; intros ND I; [contradiction|].
  cbn [register map]. cbn [map] in ND, I. inversion ND; subst. destruct (key_eqb (e_key d) (edge_key v0 v1)) eqn:E.
  - f_equal. apply key_eqb_eq in E. rewrite <- (map_id T) at 1. apply map_ext_in. intros x Ix. rewrite key_eqb_neq; [reflexivity|].
    intros E'. apply H1. rewrite E, <- E'. apply in_map. exact Ix.
  - f_equal. apply IH; [assumption|]. destruct I as [I|I]; [|exact I]. exfalso. rewrite I in E. assert (key_eqb (edge_key v0 v1) (edge_key v0 v1) = true) by (apply key_eqb_eq; reflexivity). congruence.
Qed.

Lemma with_key_app k a b : with_key k (a ++ b) = with_key k a ++ with_key k b.
Proof. apply filter_app. Qed.
Lemma topo_add t l f : topo_ok t l -> topo_ok (add_to_topo t f) (l ++ [f]).
Proof. destruct t; cbn [topo_ok add_to_topo]; [intros ->; reflexivity | intros ->; cbn; split; [reflexivity | cbn; lia] | intros [-> L]; split; [reflexivity | rewrite app_length; cbn; lia]]. Qed.

Lemma table_spec hs : NoDup (map e_key (table_of hs)) /\
  (forall d, In d (table_of hs) -> exists h hs', with_key (e_key d) hs = h :: hs' /\ e_verts d = snd h /\ topo_ok (e_topo d) (map fst (h :: hs'))) /\
  (forall h, In h hs -> In (hkey h) (map e_key (table_of hs))).
Proof.
  induction hs as [|h hs IH] using rev_ind.
  - cbn. split; [constructor | split; contradiction].
  - destruct IH as (ND & SP & ALL). assert (R : table_of (hs ++ [h]) = reg (table_of hs) h) by (unfold table_of; rewrite fold_left_app; reflexivity).
    rewrite R. clear R. destruct (in_dec (fun a b : nat * nat => ltac:(decide equality; apply Nat.eq_dec)) (hkey h) (map e_key (table_of hs))) as [I|N].
    + rewrite (reg_present h _ ND I). set (g := fun d => if key_eqb (e_key d) (hkey h) then bumped h d else d).
      assert (K : map e_key (map g (table_of hs)) = map e_key (table_of hs)).
      { rewrite map_map. apply map_ext. intros d. unfold g. destruct (key_eqb _ _); reflexivity. }
      rewrite K. split; [exact ND | split].
      * intros d Id. apply in_map_iff in Id. destruct Id as (d0 & <- & I0). destruct (SP d0 I0) as (h0 & hs' & W & V & T).
        unfold g. destruct (key_eqb (e_key d0) (hkey h)) eqn:E; cbn [bumped e_key e_verts e_topo].
        -- exists h0, (hs' ++ [h]). rewrite with_key_app, W. cbn [with_key filter]. apply key_eqb_eq in E. rewrite E. unfold with_key. cbn [filter].
           replace (key_eqb (hkey h) (hkey h)) with true by (symmetry; apply key_eqb_eq; reflexivity). cbn [app]. split; [reflexivity | split; [exact V|]].
           cbn [map]. rewrite map_app. cbn [map]. change (fst h0 :: map fst hs' ++ [fst h]) with ((fst h0 :: map fst hs') ++ [fst h]). apply topo_add. exact T.
        -- exists h0, hs'. rewrite with_key_app, W. unfold with_key. cbn [filter]. rewrite key_eqb_neq; [cbn [app]; rewrite app_nil_r; auto|].
           intros E'. rewrite E' in E. assert (key_eqb (e_key d0) (e_key d0) = true) by (apply key_eqb_eq; reflexivity). congruence.
      * intros h' I'. apply in_app_or in I'. destruct I' as [I'|[<-|[]]]; [apply ALL; exact I' | exact I].
    + rewrite (reg_absent h _ N). rewrite map_app. cbn [map fresh e_key]. split; [|split].
      * apply (Permutation_NoDup (l := hkey h :: map e_key (table_of hs))); [apply Permutation_cons_append | constructor; assumption].
      * intros d Id. apply in_app_or in Id. destruct Id as [Id|[<-|[]]].
        -- destruct (SP d Id) as (h0 & hs' & W & V & T). exists h0, hs'. rewrite with_key_app, W. unfold with_key. cbn [filter]. rewrite key_eqb_neq; [cbn [app]; rewrite app_nil_r; auto|].
           intros E'. apply N. rewrite E'. apply in_map. exact Id.
        -- exists h, []. cbn [fresh e_key e_verts e_topo]. rewrite with_key_app.
           assert (W : with_key (hkey h) hs = []).
           { destruct (with_key (hkey h) hs) as [|h0 r] eqn:W; [reflexivity|]. exfalso. assert (I0 : In h0 (with_key (hkey h) hs)) by (rewrite W; left; reflexivity).
             apply filter_In in I0. destruct I0 as [I0 E]. apply key_eqb_eq in E. apply N. rewrite <- E. apply ALL. exact I0. }
           rewrite W. unfold with_key. cbn [filter app]. replace (key_eqb (hkey h) (hkey h)) with true by (symmetry; apply key_eqb_eq; reflexivity). cbn. auto.
      * intros h' I'. apply in_app_or in I'. apply in_or_app. destruct I' as [I'|[<-|[]]]; [left; apply ALL; exact I' | right; left; reflexivity].
Qed.

(** * Triangles of a mesh *)
Lemma in_triangles_from n cells f t : In (f, t) (triangles_from n cells) <-> n <= f /\ exists c, nth_error cells (f - n) = Some c /\ tri_of c = Some t.
Proof.
  revert n. induction cells as [|c cells IH]; intros n; unfold triangles_from; cbn [length seq combine flat_map].
  - split; [contradiction | intros (_ & c & E & _); destruct (f - n); discriminate].
  - fold (triangles_from (S n) cells). rewrite in_app_iff, IH. cbn [fst snd]. split.
    + intros [I|(L & c' & E & T)].
      * destruct (tri_of c) eqn:T; cbn in I; [destruct I as [I|[]] | contradiction]. inversion I; subst. split; [lia|]. exists c. rewrite Nat.sub_diag. auto.
      * split; [lia|]. exists c'. replace (f - n) with (S (f - S n)) by lia. auto.
    + intros (L & c' & E & T). destruct (Nat.eq_dec f n) as [->|N].
      * left. rewrite Nat.sub_diag in E. cbn in E. inversion E; subst. rewrite T. left. reflexivity.
      * right. split; [lia|]. exists c'. replace (f - n) with (S (f - S n)) in E by lia. auto.
Qed.
Lemma in_triangles cells f t : In (f, t) (indexed_triangles cells) <-> triangle_at cells f t.
Proof. unfold indexed_triangles, triangle_at. rewrite in_triangles_from, Nat.sub_0_r. split; [intros [_ H]; exact H | intros H; split; [lia | exact H]]. Qed.
Lemma triangles_sorted n cells : StronglySorted lt (map fst (triangles_from n cells)).
Proof.
  revert n. induction cells as [|c cells IH]; intros n; unfold triangles_from; cbn [length seq combine flat_map]; [constructor|].
  fold (triangles_from (S n) cells). cbn [fst snd]. destruct (tri_of c) eqn:T; cbn [app map fst]; [|apply IH].
  constructor; [apply IH|]. apply Forall_forall. intros f I. apply in_map_iff in I. destruct I as ([f' t'] & <- & I). apply in_triangles_from in I. cbn. lia.
Qed.
Lemma cell_vertex cells f a b c : triangle_at cells f (a, b, c) -> cell_to_vertex cells f 0 = a /\ cell_to_vertex cells f 1 = b /\ cell_to_vertex cells f 2 = c.
Proof.
  intros (m & E & T). unfold cell_to_vertex. rewrite (nth_error_nth cells f (MCell false []) E). unfold tri_of in T. destruct (is_tri m); [|discriminate].
  destruct (m_verts m) as [|x [|y [|z [|? ?]]]]; try discriminate. inversion T; subst. cbn. auto.
Qed.

(** * Half edges of simple triangles *)
Definition both (k : nat * nat) (t : corners3) : bool :=
  let '(a, b, c) := t in (Nat.eqb (fst k) a || Nat.eqb (fst k) b || Nat.eqb (fst k) c) && (Nat.eqb (snd k) a || Nat.eqb (snd k) b || Nat.eqb (snd k) c).
Lemma both_spec k t : both k t = true <-> corner_of (fst k) t /\ corner_of (snd k) t.
Proof. destruct t as [[a b] c]. unfold both, corner_of. rewrite andb_true_iff, !orb_true_iff, !Nat.eqb_eq. tauto. Qed.
Lemma edge_key_minmax a b : edge_key a b = (Nat.min a b, Nat.max a b).
Proof. unfold edge_key. destruct (Nat.ltb_spec a b); f_equal; lia. Qed.
Lemma edge_key_ends a b p q : a < b -> edge_key p q = (a, b) <-> (p = a /\ q = b) \/ (p = b /\ q = a).
Proof. intros L. unfold edge_key. destruct (Nat.ltb_spec p q); (split; [intros E; inversion E; subst; auto | intros [[-> ->]|[-> ->]]; try reflexivity; lia]). Qed.
Lemma halves_with_key k f a b c : fst k < snd k -> a <> b -> b <> c -> a <> c ->
  map fst (with_key k (halves (f, (a, b, c)))) = if both k (a, b, c) then [f] else [].
Proof.
  intros L N1 N2 N3. destruct k as [p q]. cbn [fst snd] in L. unfold with_key, halves, hkey, both, edge_key, key_eqb. cbn [filter fst snd].
  repeat (match goal with |- context [Nat.ltb ?x ?y] => destruct (Nat.ltb_spec x y) end; cbn [fst snd]; try lia);
  repeat (match goal with |- context [Nat.eqb ?x ?y] => destruct (Nat.eqb_spec x y); subst; try lia end; cbn [andb orb map fst]); reflexivity.
Qed.
Lemma faces_with_key cells k : simple cells -> fst k < snd k -> forall ts, (forall p, In p ts -> triangle_at cells (fst p) (snd p)) ->
  map fst (with_key k (flat_map halves ts)) = map fst (filter (fun p => both k (snd p)) ts).
Proof.
  intros S L. induction ts as [|[f [[a b] c]] ts IH]; intros H; [reflexivity|].
  cbn [flat_map]. rewrite with_key_app, map_app, IH by (intros p I; apply H; right; exact I).
  assert (T := H (f, (a, b, c)) (or_introl eq_refl)). cbn [fst snd] in T. destruct (S _ _ _ _ T) as (N1 & N2 & N3).
  rewrite halves_with_key by assumption. cbn [filter snd]. destruct (both k (a, b, c)); reflexivity.
Qed.
Lemma in_halves cells h : simple cells -> In h (flat_map halves (indexed_triangles cells)) ->
  exists t, triangle_at cells (fst h) t /\ corner_of (fst (snd h)) t /\ corner_of (snd (snd h)) t /\ fst (snd h) <> snd (snd h).
Proof.
  intros S I. apply in_flat_map in I. destruct I as ([f [[a b] c]] & It & I). apply in_triangles in It. destruct (S _ _ _ _ It) as (N1 & N2 & N3).
  exists (a, b, c). cbn in I. destruct I as [<-|[<-|[<-|[]]]]; cbn [fst snd corner_of]; auto 10.
Qed.
Lemma corner_half t a b f : corner_of a t -> corner_of b t -> a < b -> exists h, In h (halves (f, t)) /\ hkey h = (a, b).
Proof.
  destruct t as [[x y] z]. cbn [corner_of]. intros A B L. unfold hkey.
  assert (K : forall p q, (p = a /\ q = b) \/ (p = b /\ q = a) -> edge_key p q = (a, b)) by (intros; apply edge_key_ends; auto).
  destruct A as [->|[->| ->]], B as [->|[->| ->]]; try lia;
    first [ exists (f, (x, y)); split; [cbn; auto | apply K; cbn; auto; fail] | exists (f, (y, z)); split; [cbn; auto | apply K; cbn; auto; fail] | exists (f, (z, x)); split; [cbn; auto | apply K; cbn; auto; fail] ].
Qed.

(** The entries of the table of a simple mesh. *)
Lemma entry_spec cells d : simple cells -> In d (edge_table cells) ->
  let k := e_key d in fst k < snd k /\ edge_key (fst (e_verts d)) (snd (e_verts d)) = k /\
  topo_ok (e_topo d) (map fst (filter (fun p => both k (snd p)) (indexed_triangles cells))).
Proof.
  intros S I k. rewrite edge_table_halves in I. destruct (table_spec (flat_map halves (indexed_triangles cells))) as (_ & SP & _).
  destruct (SP d I) as (h & hs' & W & V & T). assert (Ih : In h (with_key k (flat_map halves (indexed_triangles cells)))) by (unfold k; rewrite W; left; reflexivity).
  unfold with_key in Ih. apply filter_In in Ih. destruct Ih as [Ih E]. apply key_eqb_eq in E. destruct (in_halves _ _ S Ih) as (t & _ & _ & _ & N).
  assert (L : fst k < snd k) by (rewrite <- E; unfold hkey, edge_key; destruct (Nat.ltb_spec (fst (snd h)) (snd (snd h))); cbn; lia).
  split; [exact L | split].
  - rewrite V. exact E.
  - rewrite <- W in T. fold k in T. rewrite (faces_with_key cells k S L) in T; [exact T|]. intros [f t'] It. apply in_triangles in It. exact It.
Qed.
Lemma entry_exists cells a b f : a < b -> adjacent cells f a b -> exists d, In d (edge_table cells) /\ e_key d = (a, b).
Proof.
  intros L (t & T & A & B). destruct (corner_half t a b f A B L) as (h & Ih & E).
  destruct (table_spec (flat_map halves (indexed_triangles cells))) as (_ & _ & ALL).
  assert (I : In h (flat_map halves (indexed_triangles cells))) by (apply in_flat_map; exists (f, t); split; [apply in_triangles; exact T | exact Ih]).
  apply ALL in I. rewrite E, <- edge_table_halves in I. apply in_map_iff in I. destruct I as (d & Ed & Id). exists d. auto.
Qed.
Lemma table_keys_once cells : NoDup (map e_key (edge_table cells)).
Proof. rewrite edge_table_halves. apply table_spec. Qed.
(** Faces around a pair of vertices. *)
Definition around (cells : list mcell) (a b : nat) : list nat := map fst (filter (fun p => both (a, b) (snd p)) (indexed_triangles cells)).
Lemma around_spec cells a b f : In f (around cells a b) <-> adjacent cells f a b.
Proof.
  unfold around. rewrite in_map_iff. split.
  - intros ([f' t] & <- & I). apply filter_In in I. destruct I as [I B]. apply in_triangles in I. apply both_spec in B. cbn [fst snd] in *. exists t. tauto.
  - intros (t & T & A & B). exists (f, t). split; [reflexivity|]. apply filter_In. split; [apply in_triangles; exact T | apply both_spec; auto].
Qed.
Lemma sorted_filter {A} (g : A -> nat) (p : A -> bool) l : StronglySorted lt (map g l) -> StronglySorted lt (map g (filter p l)).
Proof.
  induction l as [|x l IH]; intros S; [constructor|]. cbn [map filter] in *. inversion S; subst. destruct (p x); [|auto]. cbn [map]. constructor; [auto|].
  rewrite Forall_forall in *. intros y Iy. apply in_map_iff in Iy. destruct Iy as (z & <- & Iz). apply filter_In in Iz. apply H2, in_map, Iz.
Qed.
Lemma around_sorted cells a b : StronglySorted lt (around cells a b).
Proof. apply sorted_filter, triangles_sorted. Qed.
Lemma around_pair cells a b f g : around cells a b = [f; g] <-> f < g /\ forall h, adjacent cells h a b <-> h = f \/ h = g.
Proof.
  split.
  - intros E. assert (S := around_sorted cells a b). rewrite E in S. inversion S as [|? ? S' F]; subst. inversion F; subst. split; [assumption|].
    intros h. rewrite <- around_spec, E. cbn. intuition congruence.
  - intros [L H]. assert (S := around_sorted cells a b). assert (M : forall h, In h (around cells a b) <-> h = f \/ h = g) by (intros h; rewrite around_spec; apply H).
    revert S M. generalize (around cells a b) as l. intros l S M. destruct l as [|x l]; [destruct (proj2 (M f)); auto; contradiction|].
    inversion S as [|? ? S1 F1]; subst. rewrite Forall_forall in F1.
    assert (x = f). { destruct (proj1 (M x) (or_introl eq_refl)) as [->| ->]; [reflexivity|]. destruct (proj2 (M f) (or_introl eq_refl)) as [<-|I]; [reflexivity | specialize (F1 _ I); lia]. }
    subst x. destruct l as [|y l]; [destruct (proj2 (M g) (or_intror eq_refl)) as [E|[]]; lia|].
    assert (y = g). { destruct (proj1 (M y) (or_intror (or_introl eq_refl))) as [->|]; [|assumption]. specialize (F1 f (or_introl eq_refl)). lia. }
    subst y. destruct l as [|z l]; [reflexivity|]. exfalso. inversion S1 as [|? ? S2 F2]; subst. rewrite Forall_forall in F2. specialize (F2 z (or_introl eq_refl)).
    destruct (proj1 (M z)) as [->| ->]; [right; right; left; reflexivity | lia | lia].
Qed.

(** * Start of an edge in a face *)
Lemma find_start a b v0 v1 v2 : a <> b -> v0 <> v1 -> v1 <> v2 -> v0 <> v2 -> corner_of a (v0, v1, v2) -> corner_of b (v0, v1, v2) ->
  exists s, find_triangle_edge_start (a, b) v0 v1 v2 = Some s /\ s < 3 /\
    let get i := corner (v0, v1, v2) i in ((get s = a /\ get ((s + 1) mod 3) = b) \/ (get s = b /\ get ((s + 1) mod 3) = a)).
Proof.
  intros N N1 N2 N3 A B. cbn [corner_of] in A, B. unfold find_triangle_edge_start.
  destruct A as [->|[->| ->]], B as [->|[->| ->]]; try congruence;
    repeat (match goal with |- context [Nat.eqb ?x ?y] => destruct (Nat.eqb_spec x y); try congruence end); (eexists; split; [reflexivity | split; [lia | cbn; auto]]).
Qed.

Lemma any_not_fixed_spec vt vs : (forall v, In v vs -> v < length vt) ->
  any_not_fixed vt vs = Done (existsb (fun v => negb (vtype_eqb (nth v vt Fixed) Fixed)) vs).
Proof.
  induction vs as [|v vs IH]; intros H; [reflexivity|]. cbn [any_not_fixed existsb].
  destruct (nth_error vt v) as [t|] eqn:E; [|apply nth_error_None in E; specialize (H v (or_introl eq_refl)); lia].
  rewrite (nth_error_nth vt v Fixed E). destruct (vtype_eqb t Fixed); cbn [negb orb]; [apply IH; intros; apply H; right; assumption | reflexivity].
Qed.
Lemma vtype_eqb_eq a b : vtype_eqb a b = true <-> a = b.
Proof. destruct a, b; cbn; split; intros; try reflexivity; try discriminate. Qed.

Lemma collect_map {A B} (f : A -> res B) (g : A -> B) l : (forall x, In x l -> f x = Done (g x)) -> collect f l = Done (map g l).
Proof. induction l as [|x l IH]; intros H; [reflexivity|]. cbn [collect map]. rewrite H by (left; reflexivity). cbn [rbind]. rewrite IH by (intros; apply H; right; assumption). reflexivity. Qed.

(** * One entry *)
Definition manifold_edge (cells : list mcell) (d : edge_data) (f g : nat) : interior_edge :=
  match start_in cells (e_verts d) f, start_in cells (e_verts d) g with Done s0, Done s1 => IEdge f g s0 s1 | _, _ => IEdge f g 0 0 end.
Definition movable (vt : list vtype) (vs : list nat) : bool := existsb (fun v => negb (vtype_eqb (nth v vt Fixed) Fixed)) vs.
Definition quad (cells : list mcell) (e : interior_edge) : list nat := map (edge_vert e (cell_to_vertex cells)) [0; 1; 2; 3].
Definition entry_edges (cells : list mcell) (vt : list vtype) (d : edge_data) : list interior_edge :=
  match e_topo d with Manifold f g => let e := manifold_edge cells d f g in if movable vt (quad cells e) then [e] else [] | _ => [] end.

Lemma corner_vertex cells f t i : triangle_at cells f t -> i < 3 -> cell_to_vertex cells f i = corner t i /\ corner_of (cell_to_vertex cells f i) t.
Proof.
  destruct t as [[a b] c]. intros T L. destruct (cell_vertex _ _ _ _ _ T) as (E0 & E1 & E2).
  destruct i as [|[|[|]]]; [rewrite E0 | rewrite E1 | rewrite E2 | lia]; cbn; auto.
Qed.
Lemma start_spec cells f p q : simple cells -> p <> q -> adjacent cells f p q -> exists s, start_in cells (p, q) f = Done s /\ s < 3 /\
  let get i := cell_to_vertex cells f (i mod 3) in (get s = p /\ get (s + 1) = q) \/ (get s = q /\ get (s + 1) = p).
Proof.
  intros S N (t & T & A & B). destruct t as [[a b] c]. destruct (S _ _ _ _ T) as (N1 & N2 & N3). destruct (cell_vertex _ _ _ _ _ T) as (E0 & E1 & E2).
  destruct (find_start p q a b c N N1 N2 N3 A B) as (s & F & L & G). exists s. unfold start_in. rewrite E0, E1, E2, F. split; [reflexivity | split; [exact L|]].
  cbn zeta in *. rewrite (Nat.mod_small s 3) by exact L. assert (M : (s + 1) mod 3 < 3) by (apply Nat.mod_upper_bound; lia).
  rewrite (proj1 (corner_vertex _ _ _ s T L)), (proj1 (corner_vertex _ _ _ _ T M)). exact G.
Qed.
Lemma three_corners cells f t v s : triangle_at cells f t -> s < 3 -> corner_of v t <-> exists i, i < 3 /\ cell_to_vertex cells f ((s + i) mod 3) = v.
Proof.
  intros T L. split.
  - destruct t as [[a b] c]. destruct (cell_vertex _ _ _ _ _ T) as (E0 & E1 & E2). intros C.
    assert (X : exists j, j < 3 /\ cell_to_vertex cells f j = v) by (destruct C as [->|[->| ->]]; [exists 0 | exists 1 | exists 2]; auto). destruct X as (j & Lj & E).
    exists ((j + 3 - s) mod 3). split; [apply Nat.mod_upper_bound; lia|]. rewrite <- E. f_equal.
    destruct s as [|[|[|]]], j as [|[|[|]]]; try lia; reflexivity.
  - intros (i & Li & <-). apply (corner_vertex cells f t); [exact T | apply Nat.mod_upper_bound; lia].
Qed.

Lemma entry_edge cells vt d f g : simple cells -> corners_below (length vt) cells -> In d (edge_table cells) -> e_topo d = Manifold f g ->
  let e := manifold_edge cells d f g in
  interior_edge_of cells vt d = Done (if movable vt (quad cells e) then [e] else []) /\ face_0 e = f /\ face_1 e = g /\
  valid_edge e (cell_to_vertex cells) /\ ends cells e = e_key d /\ around cells (fst (e_key d)) (snd (e_key d)) = [f; g] /\
  (movable vt (quad cells e) = true <-> has_movable_corner cells vt f \/ has_movable_corner cells vt g).
Proof.
  intros S R I T e. destruct (entry_spec cells d S I) as (L & K & TO). rewrite T in TO. cbn [topo_ok] in TO.
  assert (AR : around cells (fst (e_key d)) (snd (e_key d)) = [f; g]) by (unfold around; rewrite <- surjective_pairing; exact TO). clear TO.
  destruct (proj1 (around_pair _ _ _ _ _) AR) as [Lfg ADJ]. destruct (e_verts d) as [p q] eqn:V. cbn [fst snd] in K.
  destruct (e_key d) as [a b] eqn:Ek. cbn [fst snd] in *.
  assert (PQ : p <> q) by (apply (edge_key_ends a b p q L) in K; lia).
  assert (ADJ' : forall h, adjacent cells h p q <-> h = f \/ h = g).
  { intros h. rewrite <- ADJ. apply (edge_key_ends a b p q L) in K. destruct K as [[-> ->]|[-> ->]]; [reflexivity|]. unfold adjacent. split; intros (t & ? & ? & ?); exists t; auto. }
  destruct (start_spec cells f p q S PQ) as (s0 & E0 & L0 & G0); [apply ADJ'; auto|].
  destruct (start_spec cells g p q S PQ) as (s1 & E1 & L1 & G1); [apply ADJ'; auto|].
  assert (Ee : e = IEdge f g s0 s1) by (unfold e, manifold_edge; rewrite V, E0, E1; reflexivity). clearbody e. subst e.
  destruct (proj2 (ADJ f) (or_introl eq_refl)) as (tf & Tf & _). destruct (proj2 (ADJ g) (or_intror eq_refl)) as (tg & Tg & _).
  assert (IN : forall v, In v (quad cells (IEdge f g s0 s1)) -> v < length vt).
  { intros v Iv. unfold quad, edge_vert, face_vert0, face_vert1 in Iv. cbn [map face_0 face_1 start_0 start_1 In] in Iv.
    assert (X : forall i, (s0 + i) mod 3 < 3 /\ (s1 + i) mod 3 < 3) by (intros; split; apply Nat.mod_upper_bound; lia).
    destruct Iv as [<-|[<-|[<-|[<-|[]]]]]; [apply (R f tf) | apply (R f tf) | apply (R f tf) | apply (R g tg)]; try assumption; apply corner_vertex; auto; apply X. }
  cbn zeta. cbn [face_0 face_1]. cbn beta zeta in G0, G1. rewrite (Nat.mod_small s0 3 L0) in G0. rewrite (Nat.mod_small s1 3 L1) in G1.
  assert (V0 : face_vert0 (IEdge f g s0 s1) (cell_to_vertex cells) 0 = cell_to_vertex cells f s0) by (unfold face_vert0; cbn [face_0 start_0]; rewrite Nat.add_0_r, Nat.mod_small by assumption; reflexivity).
  assert (V1 : face_vert1 (IEdge f g s0 s1) (cell_to_vertex cells) 0 = cell_to_vertex cells g s1) by (unfold face_vert1; cbn [face_1 start_1]; rewrite Nat.add_0_r, Nat.mod_small by assumption; reflexivity).
  split; [|split; [reflexivity | split; [reflexivity | split; [|split; [|split; [exact AR|]]]]]].
  - unfold interior_edge_of. rewrite T, V, E0, E1. cbn [rbind]. fold (quad cells (IEdge f g s0 s1)). rewrite any_not_fixed_spec by exact IN. reflexivity.
  - unfold valid_edge, shares_edge. rewrite V0, V1. unfold face_vert0, face_vert1. cbn [face_0 face_1 start_0 start_1].
    split; [assumption | split; [assumption | split; destruct G0 as [[A0 B0]|[A0 B0]], G1 as [[A1 B1]|[A1 B1]]; rewrite ?A0, ?B0, ?A1, ?B1; auto]].
  - unfold ends. cbn [edge_vert]. rewrite V0. unfold face_vert0. cbn [face_0 start_0]. rewrite <- K, edge_key_minmax.
    destruct G0 as [[-> ->]|[-> ->]]; f_equal; lia.
  - unfold movable. rewrite existsb_exists. unfold has_movable_corner.
    assert (MV : forall v, (v < length vt /\ negb (vtype_eqb (nth v vt Fixed) Fixed) = true) <-> exists k, nth_error vt v = Some k /\ k <> Fixed).
    { intros v. split.
      - intros [Lv Nv]. destruct (nth_error vt v) as [k|] eqn:E; [|apply nth_error_None in E; lia]. exists k. split; [reflexivity|].
        rewrite (nth_error_nth vt v Fixed E) in Nv. intros ->. discriminate.
      - intros (k & E & Nk). split; [apply nth_error_Some; congruence|]. rewrite (nth_error_nth vt v Fixed E). destruct (vtype_eqb k Fixed) eqn:X; [apply vtype_eqb_eq in X; contradiction | reflexivity]. }
    assert (Q : forall v, In v (quad cells (IEdge f g s0 s1)) <-> (corner_of v tf \/ corner_of v tg)).
    { intros v. rewrite (three_corners cells f tf v s0 Tf L0), (three_corners cells g tg v s1 Tg L1). unfold quad, edge_vert, face_vert0, face_vert1. cbn [map face_0 face_1 start_0 start_1 In].
      split.
      - intros [E|[E|[E|[E|[]]]]]; [left; exists 0 | left; exists 1 | left; exists 2 | right; exists 2]; auto.
      - intros [(i & Li & E)|(i & Li & E)].
        + destruct i as [|[|[|]]]; [left | right; left | right; right; left | lia]; exact E.
        + assert (M0 : cell_to_vertex cells f ((s0 + 0) mod 3) = cell_to_vertex cells f s0) by (rewrite Nat.add_0_r, Nat.mod_small by assumption; reflexivity).
          assert (M1 : cell_to_vertex cells g ((s1 + 0) mod 3) = cell_to_vertex cells g s1) by (rewrite Nat.add_0_r, Nat.mod_small by assumption; reflexivity).
          rewrite M0. destruct i as [|[|[|]]]; [rewrite M1 in E | | right; right; right; left; exact E | lia];
            destruct G0 as [[A0 B0]|[A0 B0]], G1 as [[A1 B1]|[A1 B1]]; rewrite ?A0, ?B0; rewrite ?A1, ?B1 in E; auto. }
    split.
    + intros (v & Iv & Nv). destruct (proj1 (MV v)) as (k & Ek' & Nk); [split; [apply IN; exact Iv | exact Nv]|]. apply Q in Iv.
      destruct Iv as [C|C]; [left; exists tf, v, k | right; exists tg, v, k]; auto.
    + assert (U : forall h t t', triangle_at cells h t -> triangle_at cells h t' -> t = t') by (intros h t t' (c & ? & ?) (c' & ? & ?); congruence).
      intros [(t & v & k & Tt & C & E & Nk)|(t & v & k & Tt & C & E & Nk)]; exists v.
      * rewrite (U _ _ _ Tt Tf) in C. split; [apply Q; auto | apply MV; eauto].
      * rewrite (U _ _ _ Tt Tg) in C. split; [apply Q; auto | apply MV; eauto].
Qed.

(** * All of them *)
Lemma interior_edges_eq cells vt order : simple cells -> corners_below (length vt) cells -> Permutation order (edge_table cells) ->
  interior_edges cells vt order = Done (concat (map (entry_edges cells vt) order)).
Proof.
  intros S R P. unfold interior_edges. rewrite (collect_map _ (entry_edges cells vt)); [reflexivity|].
  intros d I. apply (Permutation_in _ P) in I. unfold entry_edges. destruct (e_topo d) as [|f g|] eqn:T; [unfold interior_edge_of; rewrite T; reflexivity | | unfold interior_edge_of; rewrite T; reflexivity].
  apply (entry_edge cells vt d f g S R I T).
Qed.
Lemma in_entry_edges cells vt d e : simple cells -> corners_below (length vt) cells -> In d (edge_table cells) -> In e (entry_edges cells vt d) ->
  ends cells e = e_key d /\ valid_edge e (cell_to_vertex cells) /\ around cells (fst (e_key d)) (snd (e_key d)) = [face_0 e; face_1 e] /\
  (has_movable_corner cells vt (face_0 e) \/ has_movable_corner cells vt (face_1 e)).
Proof.
  intros S R I Ie. unfold entry_edges in Ie. destruct (e_topo d) as [|f g|] eqn:T; try contradiction.
  destruct (entry_edge cells vt d f g S R I T) as (_ & F0 & F1 & VE & EN & AR & MV). cbn zeta in Ie. destruct (movable vt _) eqn:M; [|contradiction].
  destruct Ie as [<-|[]]. rewrite F0, F1. split; [exact EN | split; [exact VE | split; [exact AR | apply MV; reflexivity]]].
Qed.
Lemma interior_edges_lemma cells vt order : simple cells -> corners_below (length vt) cells -> Permutation order (edge_table cells) ->
  exists es, interior_edges cells vt order = Done es /\ NoDup (map (ends cells) es) /\ (forall e, In e es -> valid_edge e (cell_to_vertex cells)) /\
    forall a b f g, (exists e, In e es /\ ends cells e = (a, b) /\ face_0 e = f /\ face_1 e = g) <->
      a < b /\ f < g /\ (forall h, adjacent cells h a b <-> h = f \/ h = g) /\ (has_movable_corner cells vt f \/ has_movable_corner cells vt g).
Proof.
  intros S R P. eexists. split; [apply interior_edges_eq; assumption|]. split; [|split].
  - assert (ND : NoDup (map e_key order)) by (apply (Permutation_NoDup (l := map e_key (edge_table cells))); [apply Permutation_map, Permutation_sym, P | apply table_keys_once]).
    assert (IN : forall d, In d order -> In d (edge_table cells)) by (intros d; apply Permutation_in, P). clear P.
    induction order as [|d order IH]; [constructor|]. cbn [map concat]. inversion ND; subst. rewrite map_app.
    specialize (IH H2 (fun x Ix => IN x (or_intror Ix))).
    assert (Id := IN d (or_introl eq_refl)). assert (SP := fun e => in_entry_edges cells vt d e S R Id).
    assert (OUT : forall e, In e (concat (map (entry_edges cells vt) order)) -> ends cells e <> e_key d).
    { intros e Ie E. apply in_concat in Ie. destruct Ie as (l & Il & Ie). apply in_map_iff in Il. destruct Il as (d' & <- & Id').
      destruct (in_entry_edges cells vt d' e S R (IN d' (or_intror Id')) Ie) as (E' & _). apply H1. rewrite <- E, E'. apply in_map. exact Id'. }
    unfold entry_edges at 1. destruct (e_topo d) as [|f g|] eqn:T; cbn [map app]; try exact IH.
    destruct (movable vt _) eqn:M; cbn [map app]; [|exact IH]. constructor; [|exact IH].
    destruct (entry_edge cells vt d f g S R Id T) as (_ & _ & _ & _ & EN & _). rewrite EN. intros I. apply in_map_iff in I. destruct I as (e & E & Ie). exact (OUT e Ie E).
  - intros e Ie. apply in_concat in Ie. destruct Ie as (l & Il & Ie). apply in_map_iff in Il. destruct Il as (d & <- & Id).
    apply (in_entry_edges cells vt d e S R); [apply (Permutation_in _ P); exact Id | exact Ie].
  - intros a b f g. split.
    + intros (e & Ie & EN & <- & <-). apply in_concat in Ie. destruct Ie as (l & Il & Ie). apply in_map_iff in Il. destruct Il as (d & <- & Id). apply (Permutation_in _ P) in Id.
      destruct (in_entry_edges cells vt d e S R Id Ie) as (E & _ & AR & MV). destruct (entry_spec cells d S Id) as (L & _). cbn zeta in L. rewrite <- E, EN in *. cbn [fst snd] in *.
      apply around_pair in AR. tauto.
    + intros (L & Lfg & ADJ & MV). destruct (entry_exists cells a b f L) as (d & Id & Ek); [apply ADJ; auto|].
      assert (AR : around cells a b = [f; g]) by (apply around_pair; auto). destruct (entry_spec cells d S Id) as (_ & _ & TO). cbn zeta in TO. rewrite Ek in TO.
      unfold around in AR. rewrite AR in TO. destruct (e_topo d) as [|f' g'|fs] eqn:T; cbn [topo_ok] in TO; [discriminate | | destruct TO as [<- X]; cbn in X; lia].
      inversion TO; subst f' g'. destruct (entry_edge cells vt d f g S R Id T) as (_ & F0 & F1 & _ & EN & _ & M). exists (manifold_edge cells d f g).
      split; [|rewrite <- Ek; auto]. apply in_concat. exists (entry_edges cells vt d). split; [apply in_map; apply (Permutation_in _ (Permutation_sym P)); exact Id|].
      unfold entry_edges. rewrite T. rewrite (proj2 M MV). left. reflexivity.
Qed.
