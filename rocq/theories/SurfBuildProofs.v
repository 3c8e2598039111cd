From Coq Require Import String Reals List Bool Lra Lia Psatz.
From Verif Require Import Vec3 RList KernelModel FieldModel FieldSpec FieldProofs NeighborModel NeighborSpec NeighborProofs UpdateProps SurfJacSpec SurfBuildModel SurfBuildSpec.
Import ListNotations.
Local Open Scope R_scope.

(** ** Triangles around vertices *)
Lemma push_at_some : forall l i x, (i < length l)%nat -> exists l', push_at l i x = Some l' /\ length l' = length l /\
  forall j, nth j l' [] = nth j l [] ++ (if Nat.eqb j i then [x] else []).
Proof.
  induction l as [|a l IH]; intros i x L; cbn in L; [lia|]. destruct i as [|i]; cbn [push_at].
  - eexists. split; [reflexivity|]. split; [reflexivity|]. intros [|j]; cbn; [reflexivity|]. rewrite app_nil_r. reflexivity.
  - destruct (IH i x ltac:(lia)) as (l' & -> & LL & N). cbn. eexists. split; [reflexivity|]. split; [cbn; lia|]. intros [|j]; cbn; [rewrite app_nil_r; reflexivity|apply N].
Qed.
Lemma push_at_none : forall l i x, (length l <= i)%nat -> push_at l i x = None.
Proof. induction l as [|a l IH]; intros i x L; [reflexivity|]. destruct i as [|i]; cbn in L; [lia|]. cbn. rewrite IH by lia. reflexivity. Qed.
Definition times (x : nat) (l : list nat) (j : nat) : list nat := repeat x (count_occ Nat.eq_dec l j).
Lemma push_all_some : forall vs l x, (forall v, In v vs -> (v < length l)%nat) -> exists l', push_all l vs x = Some l' /\ length l' = length l /\
  forall j, nth j l' [] = nth j l [] ++ times x vs j.
Proof.
  induction vs as [|v vs IH]; intros l x L; cbn [push_all].
  - exists l. split; [reflexivity|]. split; [reflexivity|]. intros j. unfold times. cbn. rewrite app_nil_r. reflexivity.
  - destruct (push_at_some l v x (L v (or_introl eq_refl))) as (l1 & -> & L1 & N1). destruct (IH l1 x) as (l2 & E & L2 & N2); [intros w W; rewrite L1; apply L; right; exact W|].
    exists l2. split; [exact E|]. split; [lia|]. intros j. rewrite N2, N1, <- app_assoc. f_equal. unfold times. cbn [count_occ]. destruct (Nat.eq_dec v j) as [->|N]; [rewrite Nat.eqb_refl; reflexivity|].
    destruct (Nat.eqb_spec j v); [congruence|reflexivity].
Qed.
Lemma push_all_none : forall vs l x v, In v vs -> (length l <= v)%nat -> push_all l vs x = None.
Proof.
  induction vs as [|w vs IH]; intros l x v I L; [destruct I|]. cbn. destruct (Nat.lt_ge_cases w (length l)) as [W|W]; [|rewrite push_at_none by exact W; reflexivity].
  destruct (push_at_some l w x W) as (l1 & -> & L1 & _). destruct I as [->|I]; [lia|]. apply (IH l1 x v I). lia.
Qed.
Definition rings_from (k : nat) (ts : list triangle) (j : nat) : list nat := flat_map (fun p => times (fst p) (tri_verts (snd p)) j) (combine (seq k (length ts)) ts).
Lemma push_triangles_some : forall ts k l, (forall t v, In t ts -> In v (tri_verts t) -> (v < length l)%nat) -> exists l', push_triangles l k ts = Some l' /\ length l' = length l /\
  forall j, nth j l' [] = nth j l [] ++ rings_from k ts j.
Proof.
  induction ts as [|t ts IH]; intros k l L; cbn [push_triangles].
  - exists l. split; [reflexivity|]. split; [reflexivity|]. intros j. cbn. rewrite app_nil_r. reflexivity.
  - destruct (push_all_some (tri_verts t) l k (fun v => L t v (or_introl eq_refl))) as (l1 & -> & L1 & N1). destruct (IH (S k) l1) as (l2 & E & L2 & N2); [intros t' v T V; rewrite L1; apply (L t'); [right; exact T|exact V]|].
    exists l2. split; [exact E|]. split; [lia|]. intros j. rewrite N2, N1, <- app_assoc. reflexivity.
Qed.
Lemma push_triangles_none : forall ts k l t v, In t ts -> In v (tri_verts t) -> (length l <= v)%nat -> push_triangles l k ts = None.
Proof.
  induction ts as [|t0 ts IH]; intros k l t v I V L; [destruct I|]. cbn.
  destruct (forallb (fun w => Nat.ltb w (length l)) (tri_verts t0)) eqn:F.
  - rewrite forallb_forall in F. assert (F' : forall w, In w (tri_verts t0) -> (w < length l)%nat) by (intros w W; apply Nat.ltb_lt, F, W).
    destruct (push_all_some (tri_verts t0) l k F') as (l1 & -> & L1 & _). destruct I as [->|I]; [specialize (F' v V); lia|]. apply (IH (S k) l1 t v I V). lia.
  - assert (X : exists w, In w (tri_verts t0) /\ (length l <= w)%nat).
    { clear -F. induction (tri_verts t0) as [|w r IH]; cbn [forallb] in F; [discriminate|]. destruct (Nat.ltb_spec w (length l)); [destruct (IH F) as (x & A & B); exists x; cbn; auto|exists w; cbn; auto]. }
    destruct X as (w & W & LW). rewrite (push_all_none _ _ _ w W LW). reflexivity.
Qed.
Lemma in_times x l j y : In y (times x l j) <-> y = x /\ In j l.
Proof.
  unfold times. rewrite (count_occ_In Nat.eq_dec l j). generalize (count_occ Nat.eq_dec l j). intros n. split.
  - intros I. split; [exact (repeat_spec _ _ _ I)|]. destruct n; [destruct I|lia].
  - intros [-> P]. destruct n; [lia|]. left. reflexivity.
Qed.
Lemma in_rings k ts j y : In y (rings_from k ts j) <-> (k <= y < k + length ts)%nat /\ In j (tri_verts (nth (y - k) ts (0, 0, 0)%nat)).
Proof.
  unfold rings_from. revert k. induction ts as [|t ts IH]; intros k; cbn [length seq combine flat_map fst snd]; [split; [intros []|cbn; lia]|].
  rewrite in_app_iff, in_times, IH. split.
  - intros [[-> I]|[R I]]; [rewrite Nat.sub_diag; split; [cbn; lia|exact I]|]. split; [cbn [length]; lia|]. replace (y - k)%nat with (S (y - S k)) by lia. exact I.
  - intros [R I]. destruct (Nat.eq_dec y k) as [->|N]; [left; rewrite Nat.sub_diag in I; auto|]. right. split; [cbn [length] in R; lia|]. replace (y - k)%nat with (S (y - S k)) in I by lia. exact I.
Qed.
Lemma nodup_rings k ts j : (forall t, In t ts -> NoDup (tri_verts t)) -> NoDup (rings_from k ts j).
Proof.
  unfold rings_from. revert k. induction ts as [|t ts IH]; intros k D; cbn [length seq combine flat_map fst snd]; [constructor|].
  assert (C : (count_occ Nat.eq_dec (tri_verts t) j <= 1)%nat) by (apply (proj1 (NoDup_count_occ Nat.eq_dec (tri_verts t))), D; left; reflexivity).
  assert (R : NoDup (rings_from (S k) ts j)) by (apply IH; intros t' T; apply D; right; exact T). fold (rings_from (S k) ts j).
  unfold times. destruct (count_occ Nat.eq_dec (tri_verts t) j) as [|[|n]]; [exact R| |lia]. cbn. constructor; [|exact R]. rewrite in_rings. lia.
Qed.

(** ** The radius *)
Lemma corners_exist_spec n ts : corners_exist n ts = true <-> forall t v, In t ts -> In v (tri_verts t) -> (v < n)%nat.
Proof.
  unfold corners_exist. rewrite forallb_forall. split.
  - intros H t v T V. specialize (H t T). rewrite forallb_forall in H. apply Nat.ltb_lt, H, V.
  - intros H t T. apply forallb_forall. intros v V. apply Nat.ltb_lt. apply (H t v T V).
Qed.
Lemma corners_exist_false n ts : corners_exist n ts = false <-> exists t v, In t ts /\ In v (tri_verts t) /\ (n <= v)%nat.
Proof.
  split.
  - intros F. induction ts as [|t ts IH]; [discriminate|]. cbn [corners_exist forallb] in F. apply andb_false_iff in F. destruct F as [F|F].
    + clear IH. assert (X : exists v, In v (tri_verts t) /\ (n <= v)%nat).
      { induction (tri_verts t) as [|v r IH]; [discriminate|]. cbn [forallb] in F. destruct (Nat.ltb_spec v n); [destruct (IH F) as (x & A & B); exists x; cbn; auto|exists v; cbn; auto]. }
      destruct X as (v & A & B). exists t, v. cbn. auto.
    + destruct (IH F) as (t' & v & A & B). exists t', v. cbn. auto.
  - intros (t & v & T & V & L). destruct (corners_exist n ts) eqn:E; [|reflexivity]. rewrite corners_exist_spec in E. specialize (E t v T V). lia.
Qed.
Lemma fold_max : forall l x, (forall y, In y (x :: l) -> y <= fold_left Rmax l x) /\ In (fold_left Rmax l x) (x :: l).
Proof.
  induction l as [|a l IH]; intros x; cbn [fold_left].
  - split; [intros y [->|[]]; lra|left; reflexivity].
  - destruct (IH (Rmax x a)) as [U I]. split.
    + intros y Y. assert (M : Rmax x a <= fold_left Rmax l (Rmax x a)) by (apply U; left; reflexivity).
      destruct Y as [<-|[<-|Y]]; [pose proof (Rmax_l x a); lra|pose proof (Rmax_r x a); lra|apply U; right; exact Y].
    + destruct I as [I|I]; [|right; right; exact I]. rewrite <- I. unfold Rmax. destruct (Rle_dec x a); [right; left; reflexivity|left; reflexivity].
Qed.
Lemma norm2_nonneg x : 0 <= norm2 x.
Proof. unfold norm2, v3_dot. nra. Qed.
Lemma norm_le x r : 0 <= r -> norm2 x <= r * r -> v3_norm x <= r.
Proof. intros R L. unfold v3_norm. change (sqrt (norm2 x) <= r). rewrite <- (sqrt_square r R). apply sqrt_le_1_alt. exact L. Qed.
Lemma norm_le_inv x r : 0 <= r -> v3_norm x <= r -> norm2 x <= r * r.
Proof.
  intros R L. unfold v3_norm in L. change (sqrt (norm2 x) <= r) in L. rewrite <- (sqrt_square r R) in L. apply sqrt_le_0 in L; [exact L|apply norm2_nonneg|nra].
Qed.
Lemma farthest_spec V t : (forall v, In v (tri_verts t) -> norm2 (v3_sub (pt V v) (tri_centroid V t)) <= farthest V t) /\
  exists v, In v (tri_verts t) /\ farthest V t = norm2 (v3_sub (pt V v) (tri_centroid V t)).
Proof.
  destruct t as [[a b] c]. unfold farthest. set (o := tri_centroid V (a, b, c)). set (x := norm2 (v3_sub (pt V a) o)). set (y := norm2 (v3_sub (pt V b) o)). set (z := norm2 (v3_sub (pt V c) o)).
  pose proof (Rmax_l x y). pose proof (Rmax_r x y). pose proof (Rmax_l (Rmax x y) z). pose proof (Rmax_r (Rmax x y) z). split.
  - intros v [<-|[<-|[<-|[]]]]; fold x y z; lra.
  - unfold Rmax. destruct (Rle_dec x y); [destruct (Rle_dec y z); [exists c|exists b]|destruct (Rle_dec x z); [exists c|exists a]]; cbn; auto.
Qed.
Lemma base_radius_spec m : valid_mesh m -> me_faces m <> [] -> exists r, compute_base_radius m = Some r /\ 0 <= r /\
  (forall t v, In t (me_faces m) -> In v (tri_verts t) -> v3_norm (v3_sub (pt (me_verts m) v) (tri_centroid (me_verts m) t)) <= r) /\
  exists t v, In t (me_faces m) /\ In v (tri_verts t) /\ v3_norm (v3_sub (pt (me_verts m) v) (tri_centroid (me_verts m) t)) = r.
Proof.
  intros VM NE. unfold compute_base_radius. rewrite (proj2 (corners_exist_spec _ _) VM). set (V := me_verts m). destruct (me_faces m) as [|t0 ts] eqn:F; [congruence|]. cbn [map].
  destruct (fold_max (map (farthest V) ts) (farthest V t0)) as [U I]. set (M := fold_left Rmax (map (farthest V) ts) (farthest V t0)) in *.
  change (farthest V t0 :: map (farthest V) ts) with (map (farthest V) (t0 :: ts)) in U, I.
  assert (A : exists t v, In t (t0 :: ts) /\ In v (tri_verts t) /\ norm2 (v3_sub (pt V v) (tri_centroid V t)) = M).
  { apply in_map_iff in I. destruct I as (t & E & T). destruct (farthest_spec V t) as [_ (v & HV & EV)]. exists t, v. split; [exact T|]. split; [exact HV|]. congruence. }
  exists (sqrt M). split; [reflexivity|]. split; [apply sqrt_pos|]. split.
  - intros t v T HV. unfold v3_norm. apply sqrt_le_1_alt. change (norm2 (v3_sub (pt V v) (tri_centroid V t)) <= M). destruct (farthest_spec V t) as [B _]. specialize (B v HV). specialize (U (farthest V t) (in_map _ _ _ T)). lra.
  - destruct A as (t & v & T & HV & E). exists t, v. split; [exact T|]. split; [exact HV|]. unfold v3_norm. rewrite <- E. reflexivity.
Qed.

(** ** Points of the surface are near samples *)
Lemma weighted_identity (x y z : R) (a b c o : v3) : x + y + z = 1 -> let p := v3_add (v3_add (v3_scale x a) (v3_scale y b)) (v3_scale z c) in
  x * norm2 (v3_sub p a) + y * norm2 (v3_sub p b) + z * norm2 (v3_sub p c) + norm2 (v3_sub p o) = x * norm2 (v3_sub a o) + y * norm2 (v3_sub b o) + z * norm2 (v3_sub c o).
Proof.
  intros E. assert (Z : z = 1 - x - y) by lra. subst z. cbv zeta. destruct a as [a0 a1 a2], b as [b0 b1 b2], c as [c0 c1 c2], o as [o0 o1 o2]. unfold norm2, v3_dot, v3_sub, v3_add, v3_scale. cbn [vx vy vz]. ring.
Qed.
Lemma triangle_reach V t p r : 0 <= r -> (forall v, In v (tri_verts t) -> v3_norm (v3_sub (pt V v) (tri_centroid V t)) <= r) -> on_triangle V t p ->
  v3_norm (v3_sub p (tri_centroid V t)) <= r /\ exists v, In v (tri_verts t) /\ v3_norm (v3_sub p (pt V v)) <= r.
Proof.
  intros R H O. destruct t as [[a b] c]. destruct O as (x & y & z & X & Y & Z & S & ->). set (o := tri_centroid V (a, b, c)) in *. assert (I := weighted_identity x y z (pt V a) (pt V b) (pt V c) o S). cbv zeta in I.
  set (p := v3_add (v3_add (v3_scale x (pt V a)) (v3_scale y (pt V b))) (v3_scale z (pt V c))) in *.
  assert (HA := norm_le_inv _ _ R (H a (or_introl eq_refl))). assert (HB := norm_le_inv _ _ R (H b (or_intror (or_introl eq_refl)))). assert (HC := norm_le_inv _ _ R (H c (or_intror (or_intror (or_introl eq_refl))))).
  set (na := norm2 (v3_sub (pt V a) o)) in *. set (nb := norm2 (v3_sub (pt V b) o)) in *. set (nc := norm2 (v3_sub (pt V c) o)) in *.
  assert (B : x * na + y * nb + z * nc <= r * r).
  { assert (x * na <= x * (r * r)) by nra. assert (y * nb <= y * (r * r)) by nra. assert (z * nc <= z * (r * r)) by nra. replace z with (1 - x - y) in * by lra. lra. }
  assert (PA := norm2_nonneg (v3_sub p (pt V a))). assert (PB := norm2_nonneg (v3_sub p (pt V b))). assert (PC := norm2_nonneg (v3_sub p (pt V c))). assert (PO := norm2_nonneg (v3_sub p o)).
  set (pa := norm2 (v3_sub p (pt V a))) in *. set (pb := norm2 (v3_sub p (pt V b))) in *. set (pc := norm2 (v3_sub p (pt V c))) in *.
  split; [apply norm_le; [exact R|]; assert (0 <= x * pa) by nra; assert (0 <= y * pb) by nra; assert (0 <= z * pc) by nra; lra|].
  destruct (Rle_dec pa (r * r)) as [La|La]; [exists a; split; [cbn; auto|apply norm_le; assumption]|].
  destruct (Rle_dec pb (r * r)) as [Lb|Lb]; [exists b; split; [cbn; auto|apply norm_le; assumption]|].
  destruct (Rle_dec pc (r * r)) as [Lc|Lc]; [exists c; split; [cbn; auto|apply norm_le; assumption]|]. exfalso.
  apply Rnot_le_lt in La, Lb, Lc.
  assert (x * (r * r) <= x * pa) by nra. assert (y * (r * r) <= y * pb) by nra. assert (z * (r * r) <= z * pc) by nra.
  assert (SR : (x + y + z) * (r * r) = r * r) by (rewrite S; ring).
  destruct (Req_dec x 0) as [X0|X0]; [destruct (Req_dec y 0) as [Y0|Y0]|].
  - assert (z * (r * r) < z * pc) by (apply Rmult_lt_compat_l; lra). lra.
  - assert (y * (r * r) < y * pb) by (apply Rmult_lt_compat_l; lra). lra.
  - assert (x * (r * r) < x * pa) by (apply Rmult_lt_compat_l; lra). lra.
Qed.

(** ** Attributes and samples *)
Lemma find_attr_in name l a : find_attr name l = Some a -> In (name, a) l.
Proof. induction l as [|[n x] l IH]; cbn; [discriminate|]. destruct (String.eqb_spec n name) as [->|N]; [intros E; injection E as ->; left; reflexivity|intros E; right; exact (IH E)]. Qed.
Lemma scalars_in name l x : scalars name l = Some x -> In (name, AScalars x) l.
Proof. unfold scalars. destruct (find_attr name l) as [[y|y]|] eqn:F; try discriminate. intros E. injection E as ->. exact (find_attr_in _ _ _ F). Qed.
Lemma vectors_in name l x : vectors name l = Some x -> In (name, AVectors x) l.
Proof. unfold vectors. destruct (find_attr name l) as [[y|y]|] eqn:F; try discriminate. intros E. injection E as ->. exact (find_attr_in _ _ _ F). Qed.
Lemma offsets_fit m : attributes_fit m -> length (vertex_offsets m) = length (me_verts m) /\ forall i, nth i (vertex_offsets m) 0 = scalar_at (scalars "offset"%string (me_vattr m)) i.
Proof.
  intros (A & _ & _). unfold vertex_offsets. destruct (scalars _ _) as [l|] eqn:E; [split; [exact (A _ _ (scalars_in _ _ _ E))|reflexivity]|]. split; [apply repeat_length|]. intros i. cbn. apply nth_repeat.
Qed.
Lemma face_offsets_fit m : attributes_fit m -> length (face_offsets m) = length (me_faces m) /\ forall i, nth i (face_offsets m) 0 = scalar_at (scalars "offset"%string (me_fattr m)) i.
Proof.
  intros (_ & _ & A). unfold face_offsets. destruct (scalars _ _) as [l|] eqn:E; [split; [exact (A _ _ (scalars_in _ _ _ E))|reflexivity]|]. split; [apply repeat_length|]. intros i. cbn. apply nth_repeat.
Qed.
Lemma velocities_fit m : attributes_fit m -> length (vertex_velocities m) = length (me_verts m) /\ forall i, nth i (vertex_velocities m) v3_0 = vector_at (vectors "V"%string (me_vattr m)) i.
Proof.
  intros (_ & A & _). unfold vertex_velocities. destruct (vectors _ _) as [l|] eqn:E; [split; [exact (A _ _ (vectors_in _ _ _ E))|reflexivity]|]. split; [apply repeat_length|]. intros i. cbn. apply nth_repeat.
Qed.
Lemma normals_fit m : attributes_fit m -> vertex_normals m <> [] -> length (vertex_normals m) = length (me_verts m).
Proof. intros (_ & A & _) N. unfold vertex_normals in *. destruct (vectors _ _) as [l|] eqn:E; [exact (A _ _ (vectors_in _ _ _ E))|congruence]. Qed.
Lemma samples_of_spec : forall n P N V X, length P = n -> length N = n -> length V = n -> length X = n ->
  length (samples_of P N V X) = n /\ map s_pos (samples_of P N V X) = P /\
  forall i, (i < n)%nat -> smp (samples_of P N V X) i = Sample (nth i P v3_0) (nth i N v3_0) (nth i V v3_0) (nth i X 0).
Proof.
  induction n as [|n IH]; intros [|p P] [|q N] [|v V] [|x X] LP LN LV LX; try discriminate.
  - split; [reflexivity|]. split; [reflexivity|]. intros i L. lia.
  - cbn [samples_of]. destruct (IH P N V X) as (A & B & C); [cbn in *; lia..|]. split; [cbn; lia|]. split; [cbn; f_equal; exact B|]. intros [|i] L; cbn; [reflexivity|]. apply C. lia.
Qed.
Lemma dual_topo_spec n ts : (forall t v, In t ts -> In v (tri_verts t) -> (v < n)%nat) -> exists dual, compute_dual_topo n ts = Some dual /\
  length dual = (if is_nil ts then 0 else n)%nat /\
  (forall i t, In t (nth i dual []) <-> ((i < length dual)%nat /\ (t < length ts)%nat /\ In i (tri_verts (nth t ts (0, 0, 0)%nat)))) /\
  ((forall t, In t ts -> distinct_corners t) -> forall i, NoDup (nth i dual [])).
Proof.
  intros H. unfold compute_dual_topo. assert (C0 : ts = [] \/ ts <> []) by (destruct ts; [left; reflexivity|right; discriminate]). destruct C0 as [->|NE]; [cbn [is_nil length]|replace (is_nil ts) with false by (destruct ts; [congruence|reflexivity])].
  - exists []. split; [reflexivity|]. split; [reflexivity|]. split; [|intros _ [|i]; constructor]. intros i t. destruct i; cbn; (split; [intros []|intros (B & _); inversion B]).
  - destruct (push_triangles_some ts 0 (repeat [] n)) as (l & -> & L & N); [rewrite repeat_length; exact H|]. rewrite repeat_length in L.
    assert (NN : forall j, nth j l [] = rings_from 0 ts j) by (intros j; rewrite N, nth_repeat; reflexivity).
    exists l. split; [reflexivity|]. split; [exact L|]. split.
    + intros i t. rewrite NN, in_rings, Nat.sub_0_r. split; [|intros (_ & B & C); split; [lia|exact C]].
      intros [B C]. split; [|split; [lia|exact C]]. rewrite L. apply (H (nth t ts (0, 0, 0)%nat) i); [apply nth_In; lia|exact C].
    + intros D i. rewrite NN. apply nodup_rings. exact D.
Qed.
Lemma dual_topo_none n ts t v : In t ts -> In v (tri_verts t) -> (n <= v)%nat -> compute_dual_topo n ts = None.
Proof.
  intros T V L. unfold compute_dual_topo. replace (is_nil ts) with false by (destruct ts; [destruct T|reflexivity]).
  apply (push_triangles_none _ _ _ t v T V). rewrite repeat_length. exact L.
Qed.
Lemma samples_of_normals : forall n P N V X, length P = n -> length N = n -> length V = n -> length X = n -> map s_nml (samples_of P N V X) = N.
Proof. induction n as [|n IH]; intros [|p P] [|q N] [|v V] [|x X] LP LN LV LX; try discriminate; [reflexivity|]. cbn. f_equal. apply IH; cbn in *; lia. Qed.
Lemma negb_eqb n m : n = m -> negb (Nat.eqb n m) = false.
Proof. intros ->. rewrite Nat.eqb_refl. reflexivity. Qed.
