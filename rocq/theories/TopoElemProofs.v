(** Lemmas about the construction of shell elements. *)
From Coq Require Import Reals ZArith List Arith Bool Lra Lia Permutation Sorted.
From Verif Require Import Vec3 Mat3 ElasticModel ElasticSpec AngleModel AngleSpec AngleProofs AngleRefProofs ShellModel ShellSpec ShellProofs ShellMeshProofs StateModel UtilModel TopoModel TopoSpec TopoProofs.
Import ListNotations.
Local Open Scope R_scope.

(** * Dropping the edges without stiffness *)
Definition stiff_edge (stiffness : nat -> R) (e : interior_edge) : bool := if Req_EM_T (edge_stiffness stiffness e) 0 then false else true.
Lemma retain_map {A} st (F : interior_edge -> A) es : retain (map (edge_stiffness st) es) (map F es) = map F (filter (stiff_edge st) es).
Proof.
  induction es as [|e es IH]; [reflexivity|]. cbn [map retain filter]. unfold stiff_edge at 1. destruct (Req_EM_T (edge_stiffness st e) 0); [exact IH|]. cbn [map]. f_equal. exact IH.
Qed.
Lemma retain_id st es : retain (map (edge_stiffness st) es) es = filter (stiff_edge st) es.
Proof. rewrite <- (map_id es) at 2. rewrite retain_map. apply map_id. Qed.
Lemma filter_stiffness st es : filter (fun b => if Req_EM_T b 0 then false else true) (map (edge_stiffness st) es) = map (edge_stiffness st) (filter (stiff_edge st) es).
Proof. induction es as [|e es IH]; [reflexivity|]. cbn [map filter]. unfold stiff_edge at 1. destruct (Req_EM_T (edge_stiffness st e) 0); cbn [map]; [exact IH | f_equal; exact IH]. Qed.

(** * Renumbering *)
Definition rn_ok (s : renumbering) : Prop := NoDup (rn_cells s) /\ forall f i, rn_map s f = Some i <-> nth_error (rn_cells s) i = Some f.
Lemma renumber_face_spec s f i s' : rn_ok s -> renumber_face s f = (i, s') ->
  rn_ok s' /\ nth_error (rn_cells s') i = Some f /\ exists ext, rn_cells s' = rn_cells s ++ ext /\ forall g, In g ext -> g = f.
Proof.
  intros [ND OK] E. unfold renumber_face in E. destruct (rn_map s f) as [j|] eqn:M; injection E as <- <-.
  - split; [split; assumption | split; [apply OK, M | exists []; rewrite app_nil_r; split; [reflexivity | contradiction]]].
  - assert (NI : ~ In f (rn_cells s)). { intros I. apply In_nth_error in I. destruct I as [j I]. apply OK in I. congruence. }
    cbn [rn_cells rn_map]. assert (L : nth_error (rn_cells s ++ [f]) (length (rn_cells s)) = Some f) by (rewrite nth_error_app2 by lia; rewrite Nat.sub_diag; reflexivity).
    split; [|split; [exact L | exists [f]; split; [reflexivity | intros g [<-|[]]; reflexivity]]].
    assert (ND' : NoDup (rn_cells s ++ [f])) by (apply (Permutation_NoDup (l := f :: rn_cells s)); [apply Permutation_cons_append | constructor; assumption]).
    split; [exact ND'|]. cbn [rn_cells rn_map]. intros g i. destruct (Nat.eqb_spec g f) as [->|N].
    + split; [intros E; injection E as <-; exact L|]. intros E. f_equal. apply (proj1 (NoDup_nth_error _) ND'); [rewrite app_length; cbn; lia | rewrite L, E; reflexivity].
    + rewrite OK. split; intros E.
      * rewrite nth_error_app1; [exact E | apply nth_error_Some; congruence].
      * destruct (Nat.lt_ge_cases i (length (rn_cells s))) as [C|C]; [rewrite nth_error_app1 in E by exact C; exact E|].
        rewrite nth_error_app2 in E by exact C. destruct (i - length (rn_cells s))%nat as [|[|k]]; cbn in E; congruence.
Qed.
Lemma renamed_grow cells ext e e' : renamed cells e e' -> renamed (cells ++ ext) e e'.
Proof. intros (A & B & C & D). unfold renamed. rewrite !nth_error_app1; [auto | apply nth_error_Some; congruence | apply nth_error_Some; congruence]. Qed.
Lemma renumber_spec es : forall s es' s', rn_ok s -> renumber s es = (es', s') ->
  rn_ok s' /\ Forall2 (renamed (rn_cells s')) es es' /\ exists ext, rn_cells s' = rn_cells s ++ ext /\ forall f, In f ext -> exists e, In e es /\ (f = face_0 e \/ f = face_1 e).
Proof.
  induction es as [|e es IH]; intros s es' s' OK E.
  - injection E as <- <-. split; [exact OK | split; [constructor | exists []; rewrite app_nil_r; split; [reflexivity | contradiction]]].
  - cbn [renumber] in E. destruct (renumber_face s (face_0 e)) as [f s1] eqn:E1. destruct (renumber_face s1 (face_1 e)) as [g s2] eqn:E2. destruct (renumber s2 es) as [r s3] eqn:E3. injection E as <- <-.
    destruct (renumber_face_spec _ _ _ _ OK E1) as (O1 & N1 & x1 & X1 & I1). destruct (renumber_face_spec _ _ _ _ O1 E2) as (O2 & N2 & x2 & X2 & I2).
    destruct (IH _ _ _ O2 E3) as (O3 & F3 & x3 & X3 & I3). split; [exact O3 | split].
    + constructor; [|exact F3]. rewrite X3. apply renamed_grow. unfold renamed. cbn [face_0 face_1 start_0 start_1]. split; [|split; [exact N2 | split; reflexivity]].
      rewrite X2, nth_error_app1; [exact N1 | apply nth_error_Some; congruence].
    + exists (x1 ++ x2 ++ x3). split; [rewrite X3, X2, X1, !app_assoc; reflexivity|]. intros h I. apply in_app_or in I. destruct I as [I|I]; [exists e; split; [left; reflexivity | left; apply I1, I]|].
      apply in_app_or in I. destruct I as [I|I]; [exists e; split; [left; reflexivity | right; apply I2, I]|]. destruct (I3 h I) as (e' & Ie & He). exists e'. split; [right; exact Ie | exact He].
Qed.

(** * Edges seen through another numbering of faces *)
Section Congruence.
  Variables (e e' : interior_edge) (F F' : topology).
  Hypothesis S0 : start_0 e' = start_0 e.
  Hypothesis S1 : start_1 e' = start_1 e.
  Hypothesis C0 : forall i, (i < 3)%nat -> F' (face_0 e') i = F (face_0 e) i.
  Hypothesis C1 : forall i, (i < 3)%nat -> F' (face_1 e') i = F (face_1 e) i.
  Lemma congr_vert0 k : face_vert0 e' F' k = face_vert0 e F k.
  Proof. unfold face_vert0. rewrite S0. apply C0, Nat.mod_upper_bound. lia. Qed.
  Lemma congr_vert1 k : face_vert1 e' F' k = face_vert1 e F k.
  Proof. unfold face_vert1. rewrite S1. apply C1, Nat.mod_upper_bound. lia. Qed.
  Lemma congr_vert i : edge_vert e' F' i = edge_vert e F i.
  Proof. unfold edge_vert. destruct i as [|[|[|]]]; [apply congr_vert0 | apply congr_vert0 | apply congr_vert0 | apply congr_vert1]. Qed.
  Lemma congr_valid : valid_edge e F -> valid_edge e' F'.
  Proof. unfold valid_edge, shares_edge. rewrite S0, S1, !congr_vert0, !congr_vert1. auto. Qed.
  Lemma congr_corners x : corners e' x F' = corners e x F.
  Proof. unfold corners. rewrite !congr_vert. reflexivity. Qed.
  Lemma congr_angle x : edge_angle e' x F' = edge_angle e x F.
  Proof.
    unfold edge_angle, area_normal0, area_normal1, is_oriented, edge_vector, face1_tangent. rewrite !congr_vert0, !congr_vert1.
    rewrite !C0 by lia. destruct (negb _); rewrite !C1 by lia; reflexivity.
  Qed.
End Congruence.

Lemma Forall2_in_l {A B} (P : A -> B -> Prop) l r a : Forall2 P l r -> In a l -> exists b, In b r /\ P a b.
Proof. induction 1; intros I; [contradiction|]. destruct I as [<-|I]; [exists y; split; [left; reflexivity | assumption]|]. destruct (IHForall2 I) as (b & Ib & Hb). exists b. split; [right; exact Ib | exact Hb]. Qed.
Lemma Forall2_in_r {A B} (P : A -> B -> Prop) l r b : Forall2 P l r -> In b r -> exists a, In a l /\ P a b.
Proof. induction 1; intros I; [contradiction|]. destruct I as [<-|I]; [exists x; split; [left; reflexivity | assumption]|]. destruct (IHForall2 I) as (a & Ia & Ha). exists a. split; [right; exact Ia | exact Ha]. Qed.
Lemma Forall2_strengthen {A B} (P Q : A -> B -> Prop) l r : Forall2 P l r -> (forall a b, In a l -> P a b -> Q a b) -> Forall2 Q l r.
Proof. induction 1; intros H1; constructor; [apply H1; [left; reflexivity | assumption] | apply IHForall2; intros; apply H1; [right|]; assumption]. Qed.
Lemma Forall2_map_eq {A B C} (P : A -> B -> Prop) (f : A -> C) (g : B -> C) l r : Forall2 P l r -> (forall a b, In a l -> P a b -> f a = g b) -> map f l = map g r.
Proof. induction 1; intros E; [reflexivity|]. cbn [map]. f_equal; [apply E; [left; reflexivity | assumption] | apply IHForall2; intros; apply E; [right|]; assumption]. Qed.

Lemma face_corners cells F f g i : nth_error F f = Some g -> (i < 3)%nat ->
  corner (nth f (map (cell_corners cells) F) (0, 0, 0)%nat) i = cell_to_vertex cells g i.
Proof.
  intros E L. rewrite (nth_error_nth (map (cell_corners cells) F) f (0, 0, 0)%nat (map_nth_error (cell_corners cells) f F E)). unfold cell_corners.
  destruct i as [|[|[|]]]; [reflexivity | reflexivity | reflexivity | lia].
Qed.

Lemma build_dihedrals_spec m st es :
  let D := build_dihedrals m st es in let kept := filter (stiff_edge st) es in
  NoDup (de_cells D) /\ (forall f, In f (de_cells D) <-> exists e, In e kept /\ (f = face_0 e \/ f = face_1 e)) /\
  de_triangles D = map (cell_corners (in_cells m)) (de_cells D) /\
  Forall2 (fun e e' => renamed (de_cells D) e e' /\ forall i, edge_vert e' (faces_of D) i = edge_vert e (cell_to_vertex (in_cells m)) i) kept (de_edges D) /\
  de_angles D = map (fun e' => edge_angle e' (in_pos m) (faces_of D)) (de_edges D) /\
  de_ref_angles D = map (edge_ref_angle m) kept /\ de_ref_length D = map (edge_ref_length m) kept /\ de_stiffness D = map (edge_stiffness st) kept.
Proof.
  intros D kept. assert (ED : D = build_dihedrals m st es) by reflexivity. clearbody D. unfold build_dihedrals in ED. cbv zeta in ED.
  rewrite retain_id, !retain_map, filter_stiffness in ED. fold kept in ED.
  destruct (renumber (Renum (fun _ => None) []) kept) as [edges s] eqn:E. subst D. cbn [de_cells de_triangles de_edges de_angles de_ref_angles de_ref_length de_stiffness].
  assert (O : rn_ok (Renum (fun _ => None) [])). { split; [constructor|]. intros f i. cbn. destruct i; cbn; split; discriminate. }
  destruct (renumber_spec _ _ _ _ O E) as ([ND OK] & R & ext & X & I). cbn [rn_cells app] in X.
  split; [exact ND | split; [|split; [reflexivity | split; [|split; [|auto]]]]].
  - intros f. split; [rewrite X; apply I|]. intros (e & Ie & He). destruct (Forall2_in_l _ _ _ _ R Ie) as (e' & _ & A0 & A1 & _).
    destruct He as [->| ->]; [exact (nth_error_In _ _ A0) | exact (nth_error_In _ _ A1)].
  - apply (Forall2_strengthen _ _ _ _ R). intros e e' Ie (A0 & A1 & T0 & T1). split; [split; [exact A0 | split; [exact A1 | split; assumption]]|].
    intros i. apply congr_vert; [exact T0 | exact T1 | |]; intros j L; unfold faces_of; cbn [de_triangles]; apply face_corners; assumption.
  - apply (Forall2_map_eq _ _ _ _ _ R). intros e e' Ie (A0 & A1 & T0 & T1). symmetry. apply congr_angle; [exact T0 | exact T1 | |].
    + intros i L. unfold faces_of. cbn [de_triangles]. apply face_corners; assumption.
    + intros i L. unfold faces_of. cbn [de_triangles]. apply face_corners; assumption.
Qed.

(** * Collecting results *)
Lemma collect_done {A B} (f : A -> res B) l : forall r, collect f l = Done r -> Forall2 (fun x y => f x = Done y) l r.
Proof.
  induction l as [|x l IH]; intros r E; cbn [collect] in E; [injection E as <-; constructor|].
  destruct (f x) as [y| |] eqn:Ex; cbn [rbind] in E; try discriminate. destruct (collect f l) as [ys| |]; cbn [rbind] in E; try discriminate. injection E as <-. constructor; [exact Ex | apply IH; reflexivity].
Qed.
Lemma collect_no_panic {A B} (f : A -> res B) l : (forall x, In x l -> f x <> Panic) -> collect f l <> Panic.
Proof.
  induction l as [|x l IH]; intros H; cbn [collect]; [discriminate|]. destruct (f x) eqn:E; cbn [rbind]; [|discriminate | exfalso; apply (H x (or_introl eq_refl)), E].
  destruct (collect f l) eqn:El; cbn [rbind]; [discriminate | discriminate | apply IH; intros; apply H; right; assumption].
Qed.
Lemma collect_err {A B} (f : A -> res B) l e : collect f l = Err e -> exists x, In x l /\ f x = Err e.
Proof.
  induction l as [|x l IH]; cbn [collect]; intros E; [discriminate|]. destruct (f x) eqn:Ex; cbn [rbind] in E; [|injection E as <-; exists x; split; [left; reflexivity | exact Ex] | discriminate].
  destruct (collect f l) eqn:El; cbn [rbind] in E; try discriminate. destruct (IH E) as (y & Iy & Ey). exists y. split; [right; exact Iy | exact Ey].
Qed.
Lemma Forall2_nth {A B} (P : A -> B -> Prop) l r k a : Forall2 P l r -> nth_error l k = Some a -> exists b, nth_error r k = Some b /\ P a b.
Proof. intros F. revert k. induction F; intros k E; [destruct k; discriminate|]. destruct k; [injection E as <-; exists y; auto | apply IHF, E]. Qed.

(** * Triangles that are kept *)
Definition kept_tri (vt : list vtype) (p : nat * corners3) : bool := let '(a, b, c) := snd p in movable vt [a; b; c].
Lemma triangle_cells_spec cells vt : corners_below (length vt) cells -> triangle_cells cells vt = Done (filter (kept_tri vt) (indexed_triangles cells)).
Proof.
  intros B. unfold triangle_cells. rewrite (collect_map _ (fun p => if kept_tri vt p then [p] else [])).
  - cbn [rbind]. f_equal. induction (indexed_triangles cells) as [|p l IH]; [reflexivity|]. cbn [map concat filter]. rewrite IH. destruct (kept_tri vt p); reflexivity.
  - intros [f [[a b] c]] I. apply in_triangles in I. unfold keep_cell. rewrite any_not_fixed_spec; [reflexivity|]. intros v Iv. apply (B f (a, b, c) v I). cbn in Iv |- *. intuition.
Qed.
Lemma movable_spec vt vs : movable vt vs = true <-> exists v k, In v vs /\ nth_error vt v = Some k /\ k <> Fixed.
Proof.
  unfold movable. rewrite existsb_exists. split.
  - intros (v & I & E). apply negb_true_iff in E. destruct (nth_error vt v) as [k|] eqn:N.
    + exists v, k. split; [exact I | split; [exact N|]]. intros ->. rewrite (nth_error_nth vt v Fixed N) in E. discriminate.
    + rewrite nth_overflow in E by (apply nth_error_None; exact N). discriminate.
  - intros (v & k & I & N & K). exists v. split; [exact I|]. rewrite (nth_error_nth vt v Fixed N). destruct k; try reflexivity. congruence.
Qed.
Lemma triangle_unique cells f t t' : triangle_at cells f t -> triangle_at cells f t' -> t = t'.
Proof. intros (c & A & B) (c' & A' & B'). congruence. Qed.
Lemma kept_spec cells vt f t : In (f, t) (filter (kept_tri vt) (indexed_triangles cells)) <-> triangle_at cells f t /\ has_movable_corner cells vt f.
Proof.
  rewrite filter_In, in_triangles. unfold kept_tri. cbn [snd]. destruct t as [[a b] c]. rewrite movable_spec. split; intros [T M]; (split; [exact T|]).
  - destruct M as (v & k & I & N & K). exists (a, b, c), v, k. split; [exact T | split; [cbn in I |- *; intuition | auto]].
  - destruct M as (t & v & k & T' & I & N & K). rewrite (triangle_unique _ _ _ _ T' T) in I. exists v, k. split; [cbn in I |- *; intuition | auto].
Qed.
Lemma triangles_from_sorted n cells : StronglySorted lt (map fst (triangles_from n cells)) /\ Forall (fun i => (n <= i)%nat) (map fst (triangles_from n cells)).
Proof.
  revert n. induction cells as [|c cells IH]; intros n; [split; constructor|]. unfold triangles_from. cbn [length seq combine flat_map fst snd].
  change (flat_map _ (combine (seq (S n) (length cells)) cells)) with (triangles_from (S n) cells). destruct (IH (S n)) as [A B].
  assert (B' : Forall (fun i => (n <= i)%nat) (map fst (triangles_from (S n) cells))) by (revert B; apply Forall_impl; intros; lia).
  destruct (tri_of c); cbn [app map fst]; [|split; assumption]. split; [constructor; [exact A | revert B; apply Forall_impl; intros; lia] | constructor; [lia | exact B']].
Qed.
Lemma kept_sorted cells vt : StronglySorted lt (map fst (filter (kept_tri vt) (indexed_triangles cells))).
Proof. apply sorted_filter. apply (triangles_from_sorted 0 cells). Qed.

(** * Areas and rest shapes *)
Lemma tri_area_pos x : 0 < tri_area x <-> flat_normal x <> v3_0.
Proof.
  assert (E : area_normal (q0 x) (q1 x) (q2 x) = flat_normal x) by (unfold area_normal, flat_normal; destruct (q0 x), (q1 x), (q2 x); unfold v3_cross, v3_sub; cbn; f_equal; ring).
  unfold tri_area. rewrite E. unfold v3_norm. split.
  - intros P Z. rewrite Z in P. replace (v3_dot v3_0 v3_0) with 0 in P by (unfold v3_dot, v3_0; cbn; ring). rewrite sqrt_0 in P. lra.
  - intros N. assert (0 < v3_dot (flat_normal x) (flat_normal x)). { pose proof (v3_dot_nonneg (flat_normal x)) as [P|P]; [exact P|]. exfalso. apply N, v3_dot_zero. lra. }
    pose proof (sqrt_lt_R0 _ H). lra.
Qed.
Lemma tri_area_nonneg x : 0 <= tri_area x.
Proof. unfold tri_area, v3_norm. pose proof (sqrt_pos (v3_dot (area_normal (q0 x) (q1 x) (q2 x)) (area_normal (q0 x) (q1 x) (q2 x)))). lra. Qed.
Lemma rest_shape_regular x : flat_normal x <> v3_0 -> 0 < m2_det (isotropic_shape (tri_shape x)).
Proof. intros N. apply (isotropic_metric (tri_shape x)). exact N. Qed.
Lemma m2_inv_left A : m2_det A <> 0 -> m2_mul (m2_inv A) A = M2 1 0 0 1 /\ m2_mul A (m2_inv A) = M2 1 0 0 1 /\ m2_det (m2_inv A) <> 0.
Proof.
  destruct A as [a b c d]. unfold m2_inv, m2_mul, m2_scale, m2_det. cbn. intros N. split; [f_equal; field; exact N | split; [f_equal; field; exact N|]].
  replace (/ (a * d - b * c) * d * (/ (a * d - b * c) * a) - / (a * d - b * c) * - b * (/ (a * d - b * c) * - c)) with (/ (a * d - b * c)) by (field; exact N). apply Rinv_neq_0_compat, N.
Qed.
Lemma combine_seq_in {A} (l : list A) : forall n k x, In (k, x) (combine (seq n (length l)) l) <-> (n <= k)%nat /\ nth_error l (k - n) = Some x.
Proof.
  induction l as [|a l IH]; intros n k x; cbn [length seq combine].
  - split; [contradiction|]. intros [_ E]. destruct (k - n)%nat; discriminate.
  - cbn [In]. rewrite IH. split.
    + intros [E|[L E]]; [injection E as <- <-; rewrite Nat.sub_diag; split; [lia | reflexivity]|]. split; [lia|]. replace (k - n)%nat with (S (k - S n)) by lia. exact E.
    + intros [L E]. destruct (Nat.eq_dec k n) as [->|N]; [left; rewrite Nat.sub_diag in E; injection E as <-; reflexivity|]. right. split; [lia|]. replace (k - n)%nat with (S (k - S n)) in E by lia. exact E.
Qed.
Lemma non_positive_spec l k : In k (non_positive l) <-> exists a, nth_error l k = Some a /\ a <= 0.
Proof.
  unfold non_positive. rewrite in_map_iff. split.
  - intros ([i a] & <- & I). apply filter_In in I. destruct I as [I C]. cbn [fst snd] in *. apply combine_seq_in in I. rewrite Nat.sub_0_r in I. exists a. split; [apply I|]. destruct (Rle_dec a 0); [assumption | discriminate].
  - intros (a & E & C). exists (k, a). split; [reflexivity|]. apply filter_In. cbn [snd]. split; [apply combine_seq_in; rewrite Nat.sub_0_r; split; [lia | exact E] | destruct (Rle_dec a 0); [reflexivity | contradiction]].
Qed.
Lemma ref_tri_areas_done ref_pos is r : ref_tri_areas ref_pos is = Done r <->
  r = map (fun f => tri_area (ref_tri3 ref_pos f)) is /\ forall f, In f is -> 0 < tri_area (ref_tri3 ref_pos f).
Proof.
  unfold ref_tri_areas. set (areas := map _ is). destruct (non_positive areas) as [|d ds] eqn:E.
  - split.
    + intros H. injection H as <-. split; [reflexivity|]. intros f I. apply In_nth_error in I. destruct I as [k I]. destruct (Rle_dec (tri_area (ref_tri3 ref_pos f)) 0) as [C|C]; [|lra].
      exfalso. assert (X : In k (non_positive areas)). { apply non_positive_spec. exists (tri_area (ref_tri3 ref_pos f)). split; [exact (map_nth_error (fun f => tri_area (ref_tri3 ref_pos f)) k is I) | exact C]. } rewrite E in X. exact X.
    + intros [-> _]. reflexivity.
  - split; [discriminate|]. intros [_ P]. exfalso. assert (X : In d (non_positive areas)) by (rewrite E; left; reflexivity). apply non_positive_spec in X. destruct X as (a & N & C).
    apply nth_error_In, in_map_iff in N. destruct N as (f & <- & I). specialize (P f I). lra.
Qed.
Lemma ref_tri_inverses_done ref_pos is : (forall f, In f is -> 0 < tri_area (ref_tri3 ref_pos f)) ->
  ref_tri_inverses ref_pos is = Done (map (fun f => m2_inv (isotropic_shape (tri_shape (ref_tri3 ref_pos f)))) is).
Proof.
  intros P. unfold ref_tri_inverses. apply collect_map. intros f I. cbv zeta. pose proof (rest_shape_regular _ (proj1 (tri_area_pos _) (P f I))). destruct (Req_EM_T _ 0); [lra | reflexivity].
Qed.

(** * Parameters *)
Definition param {M} (attrib : option (nat -> R)) (mtl : nat -> res M) (get : M -> res R) (f : nat) (x : R) : Prop :=
  match attrib with Some g => x = g f | None => rbind (mtl f) get = Done x end.
Lemma per_cell_done {M} attrib (mtl : nat -> res M) get is r : per_cell attrib mtl get is = Done r -> Forall2 (param attrib mtl get) is r.
Proof.
  unfold per_cell, param. destruct attrib as [g|].
  - intros E. injection E as <-. induction is; cbn [map]; constructor; [reflexivity | assumption].
  - apply collect_done.
Qed.
Lemma build_triangles_done cells ref_pos materials a vt T : corners_below (length vt) cells -> build_triangles cells ref_pos materials a vt = Done T ->
  let ts := filter (kept_tri vt) (indexed_triangles cells) in let is := map fst ts in let mtl := shell_mtl materials a in
  te_cells T = is /\ te_triangles T = map snd ts /\ te_area T = map (fun f => tri_area (ref_tri3 ref_pos f)) is /\ (forall f, In f is -> 0 < tri_area (ref_tri3 ref_pos f)) /\
  te_inv T = map (fun f => m2_inv (isotropic_shape (tri_shape (ref_tri3 ref_pos f)))) is /\
  Forall2 (param (at_density a) mtl get_density) is (te_density T) /\ Forall2 (param (at_lambda a) mtl get_lambda) is (te_lambda T) /\
  Forall2 (param (at_mu a) mtl get_mu) is (te_mu T) /\ Forall2 (param (at_damping a) mtl get_damping) is (te_damping T).
Proof.
  intros B E ts is mtl. unfold build_triangles in E. rewrite (triangle_cells_spec cells vt B) in E. fold ts in E. cbn [rbind] in E. cbv zeta in E. fold is mtl in E.
  destruct (per_cell (at_density a) mtl get_density is) as [den| |] eqn:E1; cbn [rbind] in E; try discriminate.
  destruct (ref_tri_areas ref_pos is) as [ar| |] eqn:E2; cbn [rbind] in E; try discriminate. apply ref_tri_areas_done in E2. destruct E2 as [-> P].
  rewrite (ref_tri_inverses_done _ _ P) in E. cbn [rbind] in E.
  destruct (per_cell (at_lambda a) mtl get_lambda is) as [la| |] eqn:E3; cbn [rbind] in E; try discriminate.
  destruct (per_cell (at_mu a) mtl get_mu is) as [mu| |] eqn:E4; cbn [rbind] in E; try discriminate.
  destruct (per_cell (at_damping a) mtl get_damping is) as [da| |] eqn:E5; cbn [rbind] in E; try discriminate. injection E as <-. cbn.
  repeat (split; [reflexivity || assumption || (apply per_cell_done; assumption)|]). apply per_cell_done. assumption.
Qed.

(** * Failures *)
Lemma material_in_range materials id : (0 <= id < Z.of_nat (length materials))%Z -> exists m, material_of materials id = Done m /\ nth_error materials (Z.to_nat id) = Some m.
Proof.
  intros B. unfold material_of. destruct (Z.ltb_spec id 0); [lia|]. destruct (nth_error materials (Z.to_nat id)) as [m|] eqn:E; [exists m; auto|]. apply nth_error_None in E. lia.
Qed.
Lemma shell_mtl_cases materials a c : ids_below (length materials) a -> exists m, nth_error materials (Z.to_nat (at_mtl_id a c)) = Some m /\
  shell_mtl materials a c = match m with SoftShell d _ => Done d | _ => Err ObjectMaterialMismatch end.
Proof. intros B. destruct (material_in_range materials (at_mtl_id a c) (B c)) as (m & E & N). exists m. split; [exact N|]. unfold shell_mtl. rewrite E. reflexivity. Qed.
Definition plain (get : deformable -> res R) : Prop := forall d, get d <> Panic.
Lemma plain_getters : plain get_density /\ plain get_lambda /\ plain get_mu /\ plain get_damping.
Proof.
  unfold plain, get_density, get_lambda, get_mu, get_damping, from_option. repeat split; intros d; try discriminate; [destruct (m_density d) | destruct (option_map lambda_of _) | destruct (option_map mu_of _)]; discriminate.
Qed.
Lemma per_cell_no_panic attrib materials a get is : ids_below (length materials) a -> plain get -> per_cell attrib (shell_mtl materials a) get is <> Panic.
Proof.
  intros B P. unfold per_cell. destruct attrib; [discriminate|]. apply collect_no_panic. intros c _. destruct (shell_mtl_cases materials a c B) as (m & _ & ->). destruct m; cbn [rbind]; try discriminate. apply P.
Qed.
Lemma per_cell_err attrib materials a get is e : ids_below (length materials) a -> per_cell attrib (shell_mtl materials a) get is = Err e ->
  attrib = None /\ exists c m, In c is /\ nth_error materials (Z.to_nat (at_mtl_id a c)) = Some m /\ match m with SoftShell d _ => get d = Err e | _ => e = ObjectMaterialMismatch end.
Proof.
  intros B. unfold per_cell. destruct attrib; [discriminate|]. intros E. split; [reflexivity|]. apply collect_err in E. destruct E as (c & I & E).
  destruct (shell_mtl_cases materials a c B) as (m & N & R). exists c, m. split; [exact I | split; [exact N|]]. rewrite R in E. destruct m; cbn [rbind] in E; [exact E | congruence | congruence | congruence].
Qed.
Lemma build_triangles_no_panic cells ref_pos materials a vt : corners_below (length vt) cells -> ids_below (length materials) a ->
  build_triangles cells ref_pos materials a vt <> Panic.
Proof.
  intros B I. destruct plain_getters as (P1 & P2 & P3 & P4). unfold build_triangles. rewrite (triangle_cells_spec cells vt B). cbn [rbind]. cbv zeta. set (is := map fst _).
  pose proof (per_cell_no_panic (at_density a) materials a get_density is I P1). destruct (per_cell (at_density a) _ _ is); cbn [rbind]; try congruence.
  destruct (ref_tri_areas ref_pos is) eqn:E2; cbn [rbind]; try congruence.
  - apply ref_tri_areas_done in E2. destruct E2 as [-> P]. rewrite (ref_tri_inverses_done _ _ P). cbn [rbind].
    pose proof (per_cell_no_panic (at_lambda a) materials a get_lambda is I P2). destruct (per_cell (at_lambda a) _ _ is); cbn [rbind]; try congruence.
    pose proof (per_cell_no_panic (at_mu a) materials a get_mu is I P3). destruct (per_cell (at_mu a) _ _ is); cbn [rbind]; try congruence.
    pose proof (per_cell_no_panic (at_damping a) materials a get_damping is I P4). destruct (per_cell (at_damping a) _ _ is); cbn [rbind]; congruence.
  - unfold ref_tri_areas in E2. destruct (non_positive _); discriminate.
Qed.
Lemma build_triangles_err cells ref_pos materials a vt e : corners_below (length vt) cells -> ids_below (length materials) a ->
  build_triangles cells ref_pos materials a vt = Err e -> let is := map fst (filter (kept_tri vt) (indexed_triangles cells)) in
  (exists ds, e = DegenerateReferenceElement ds /\ ds <> [] /\ forall k, In k ds <-> exists f, nth_error is k = Some f /\ tri_area (ref_tri3 ref_pos f) = 0) \/
  exists c m, In c is /\ nth_error materials (Z.to_nat (at_mtl_id a c)) = Some m /\
    match m with
    | SoftShell d _ => (e = MissingDensity /\ m_density d = None /\ at_density a = None) \/ (e = MissingElasticityParams /\ m_elasticity d = None /\ (at_lambda a = None \/ at_mu a = None))
    | _ => e = ObjectMaterialMismatch
    end.
Proof.
  intros B I E is. unfold build_triangles in E. rewrite (triangle_cells_spec cells vt B) in E. cbn [rbind] in E. cbv zeta in E. fold is in E.
  destruct (per_cell (at_density a) _ _ is) eqn:E1; cbn [rbind] in E; try discriminate.
  - destruct (ref_tri_areas ref_pos is) eqn:E2; cbn [rbind] in E; try discriminate.
    + apply ref_tri_areas_done in E2. destruct E2 as [-> P]. rewrite (ref_tri_inverses_done _ _ P) in E. cbn [rbind] in E.
      assert (EL : forall (attrib : option (nat -> R)) (get : deformable -> res R) c m, In c is -> nth_error materials (Z.to_nat (at_mtl_id a c)) = Some m -> (forall d, get d = Err e -> e = MissingElasticityParams /\ m_elasticity d = None) ->
        (attrib = None -> at_lambda a = None \/ at_mu a = None) -> attrib = None -> match m with SoftShell d _ => get d = Err e | _ => e = ObjectMaterialMismatch end ->
        exists c m, In c is /\ nth_error materials (Z.to_nat (at_mtl_id a c)) = Some m /\ match m with SoftShell d _ => (e = MissingDensity /\ m_density d = None /\ at_density a = None) \/ (e = MissingElasticityParams /\ m_elasticity d = None /\ (at_lambda a = None \/ at_mu a = None)) | _ => e = ObjectMaterialMismatch end).
      { intros attrib get c m Ic N G HA A M. exists c, m. split; [exact Ic | split; [exact N|]]. destruct m; try exact M. right. destruct (G d M) as [G1 G2]. split; [exact G1 | split; [exact G2 | apply HA, A]]. }
      destruct (per_cell (at_lambda a) _ _ is) eqn:E3; cbn [rbind] in E; try discriminate.
      * destruct (per_cell (at_mu a) _ _ is) eqn:E4; cbn [rbind] in E; try discriminate.
        -- destruct (per_cell (at_damping a) _ _ is) eqn:E5; cbn [rbind] in E; try discriminate. injection E as ->. destruct (per_cell_err _ _ _ _ _ _ I E5) as (A & c & m & Ic & N & M).
           right. exists c, m. split; [exact Ic | split; [exact N|]]. destruct m; try exact M. discriminate.
        -- injection E as ->. destruct (per_cell_err _ _ _ _ _ _ I E4) as (A & c & m & Ic & N & M). right. apply (EL (at_mu a) get_mu c m Ic N); auto.
           intros d G. unfold get_mu, from_option in G. destruct (m_elasticity d); cbn in G; [discriminate|]. injection G as <-. auto.
      * injection E as ->. destruct (per_cell_err _ _ _ _ _ _ I E3) as (A & c & m & Ic & N & M). right. apply (EL (at_lambda a) get_lambda c m Ic N); auto.
        intros d G. unfold get_lambda, from_option in G. destruct (m_elasticity d); cbn in G; [discriminate|]. injection G as <-. auto.
    + injection E as ->. left. unfold ref_tri_areas in E2. set (areas := map _ is) in E2. destruct (non_positive areas) as [|d ds] eqn:NP; [discriminate|]. injection E2 as <-. exists (d :: ds). split; [reflexivity | split; [discriminate|]].
      intros k. rewrite <- NP, non_positive_spec. split.
      * intros (x & Nx & C). unfold areas in Nx. rewrite nth_error_map in Nx. destruct (nth_error is k) as [f|] eqn:Ek; [|discriminate]. injection Nx as <-. exists f. split; [reflexivity|]. pose proof (tri_area_nonneg (ref_tri3 ref_pos f)). lra.
      * intros (f & Nf & Z). exists (tri_area (ref_tri3 ref_pos f)). split; [exact (map_nth_error (fun f => tri_area (ref_tri3 ref_pos f)) k is Nf) | lra].
  - injection E as ->. destruct (per_cell_err _ _ _ _ _ _ I E1) as (A & c & m & Ic & N & M). right. exists c, m. split; [exact Ic | split; [exact N|]].
    destruct m; try exact M. left. unfold get_density, from_option in M. destruct (m_density d) eqn:Ed; [discriminate|]. injection M as <-. auto.
Qed.
Lemma Forall2_len {A B} (P : A -> B -> Prop) l r : Forall2 P l r -> length l = length r.
Proof. induction 1; cbn; congruence. Qed.
