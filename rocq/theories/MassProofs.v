From Coq Require Import Reals List Arith Bool Lra Lia.
From Coquelicot Require Import Coquelicot.
From Verif Require Import Calc Vec3 Mat3 RList ElasticModel ElasticSpec ElasticProofs ElasticMeshProofs ElasticHessProofs MassModel MassSpec.
Import ListNotations.
Local Open Scope R_scope.

(** * Scattering *)
Lemma add_each_lsum L f cs : additive L -> forall l l', add_each l cs f = Some l' -> length l' = length l /\ lsum L 0 l' = lsum L 0 l + rsum (map (fun c => L c (f c)) cs).
Proof.
  intros HL. induction cs as [|c cs IH]; intros l l' H; [injection H as <-; simpl; rewrite rsum_nil; split; [reflexivity|ring]|].
  simpl in H. destruct (add_at l c (f c)) as [m|] eqn:E; [|discriminate H]. simpl in H. destruct (add_at_lsum L l c (f c) m 0 HL E) as [A B]. destruct (IH m l' H) as [C D].
  split; [congruence|]. cbn [map]. rewrite D, B, rsum_cons. simpl. ring.
Qed.
Lemma add_elems_lsum L f es : additive L -> forall l l', add_elems es f l = Some l' -> length l' = length l /\ lsum L 0 l' = lsum L 0 l + rsum (map (fun e => rsum (map (fun c => L c (f e c)) (cell e))) es).
Proof.
  intros HL. induction es as [|e es IH]; intros l l' H; [injection H as <-; simpl; rewrite rsum_nil; split; [reflexivity|ring]|].
  simpl in H. destruct (add_each l (cell e) (f e)) as [m|] eqn:E; [|discriminate H]. simpl in H. destruct (add_each_lsum L (f e) (cell e) HL l m E) as [A B]. destruct (IH m l' H) as [C D].
  split; [congruence|]. cbn [map]. rewrite D, B, rsum_cons. ring.
Qed.
Lemma add_each_some f cs : forall l, (forall c, In c cs -> (c < length l)%nat) -> exists l', add_each l cs f = Some l' /\ length l' = length l.
Proof.
  induction cs as [|c cs IH]; intros l H; [exists l; split; reflexivity|]. destruct (add_at_some l c (f c) (H c (or_introl eq_refl))) as (m & E & Lm).
  destruct (IH m) as (l' & E' & L'); [intros d Hd; rewrite Lm; apply H; right; exact Hd|]. exists l'. split; [simpl; rewrite E; exact E'|congruence].
Qed.
Lemma add_elems_some f es n : cells_in_range n es -> forall l, length l = n -> exists l', add_elems es f l = Some l' /\ length l' = n.
Proof.
  induction es as [|e es IH]; intros H l Hl; [exists l; split; [reflexivity|exact Hl]|].
  destruct (add_each_some (f e) (cell e) l) as (m & E & Lm); [intros c Hc; rewrite Hl; exact (H e c (or_introl eq_refl) Hc)|].
  destruct (IH (fun e' c He => H e' c (or_intror He)) m (eq_trans Lm Hl)) as (l' & E' & L'). exists l'. split; [simpl; rewrite E; exact E'|exact L'].
Qed.
Lemma dot_additive u : additive (fun i a => v3_dot a (u i)).
Proof. intros i a b. destruct a, b, (u i). unm. ring. Qed.
Lemma elems_power f es n u g : add_elems es f (repeat v3_0 n) = Some g -> power g u = rsum (map (fun e => rsum (map (fun c => v3_dot (f e c) (u c)) (cell e))) es).
Proof.
  intros H. rewrite power_lsum. destruct (add_elems_lsum _ f es (dot_additive u) _ _ H) as [_ E]. rewrite E, lsum_zero by (intros i; destruct (u i); unm; ring). ring.
Qed.
Lemma v3_total_cons a l : v3_total (a :: l) = v3_add a (v3_total l). Proof. reflexivity. Qed.
Lemma v3_total_app l m : v3_total (l ++ m) = v3_add (v3_total l) (v3_total m).
Proof.
  induction l as [|a l IH]; [destruct (v3_total m) as [] eqn:E; simpl; rewrite E; unm; f_equal; ring|]. cbn [app]. rewrite !v3_total_cons, IH.
  destruct a, (v3_total l), (v3_total m). unm. f_equal; ring.
Qed.
Lemma total_get (L : v3 -> R) l : (forall a b, L (v3_add a b) = L a + L b) -> L v3_0 = 0 -> L (v3_total l) = rsum (map L l).
Proof. intros HL H0. induction l as [|a l IH]; [exact H0|]. rewrite v3_total_cons, HL, IH. cbn [map]. rewrite rsum_cons. reflexivity. Qed.
Lemma rsum_flat_map {A B} (f : A -> list B) (g : B -> R) l : rsum (map g (flat_map f l)) = rsum (map (fun a => rsum (map g (f a))) l).
Proof. induction l as [|a l IH]; [reflexivity|]. cbn [flat_map map]. rewrite map_app, rsum_app, rsum_cons, IH. reflexivity. Qed.
Lemma elems_total f es n g : add_elems es f (repeat v3_0 n) = Some g -> v3_total g = v3_total (flat_map (fun e => map (f e) (cell e)) es).
Proof.
  intros H. assert (HL : forall L : v3 -> R, (forall a b, L (v3_add a b) = L a + L b) -> L v3_0 = 0 -> L (v3_total g) = L (v3_total (flat_map (fun e => map (f e) (cell e)) es))).
  { intros L Ha H0. destruct (add_elems_lsum (fun _ => L) f es (fun _ => Ha) _ _ H) as [_ E]. rewrite lsum_zero in E by (intros; exact H0).
    rewrite (total_get L (flat_map _ _) Ha H0), rsum_flat_map, (total_get L g Ha H0).
    rewrite Rplus_0_l in E. etransitivity; [|etransitivity; [exact E|]].
    - clear E H. generalize 0%nat. induction g as [|a g IH]; intros k; [reflexivity|]. cbn [map lsum]. rewrite rsum_cons, (IH (S k)). reflexivity.
    - apply rsum_ext. intros e _. rewrite map_map. reflexivity. }
  pose proof (HL vx (fun _ _ => eq_refl) eq_refl). pose proof (HL vy (fun _ _ => eq_refl) eq_refl). pose proof (HL vz (fun _ _ => eq_refl) eq_refl).
  destruct (v3_total g), (v3_total (flat_map (fun e => map (f e) (cell e)) es)). cbn in *. congruence.
Qed.

(** * Inertia *)
Lemma cell_line (v0 v1 w : nat -> v3) cs s :
  rsum (map (fun c => v3_dot (v3_sub (move v1 w s c) (v0 c)) (v3_sub (move v1 w s c) (v0 c))) cs) =
  rsum (map (fun c => v3_dot (v3_sub (v1 c) (v0 c)) (v3_sub (v1 c) (v0 c))) cs) + s * (2 * rsum (map (fun c => v3_dot (v3_sub (v1 c) (v0 c)) (w c)) cs)) + s * s * rsum (map (fun c => v3_dot (w c) (w c)) cs).
Proof.
  induction cs as [|c cs IH]; [simpl; rewrite !rsum_nil; ring|]. cbn [map]. rewrite !rsum_cons, IH. unfold move, v3_line. destruct (v1 c), (v0 c), (w c). unm. ring.
Qed.
Lemma inertia_line share es (v0 v1 w : nat -> v3) s :
  inertia_energy share es v0 (move v1 w s) = inertia_energy share es v0 v1
   + s * rsum (map (fun e => rsum (map (fun c => v3_dot (v3_scale (vertex_mass share e) (v3_sub (v1 c) (v0 c))) (w c)) (cell e))) es)
   + s * s * rsum (map (fun e => 1 / 2 * (vertex_mass share e * rsum (map (fun c => v3_dot (w c) (w c)) (cell e)))) es).
Proof.
  unfold inertia_energy. induction es as [|e es IH]; [simpl; rewrite !rsum_nil; ring|]. cbn [map]. rewrite !rsum_cons, IH, cell_line.
  assert (E : rsum (map (fun c => v3_dot (v3_scale (vertex_mass share e) (v3_sub (v1 c) (v0 c))) (w c)) (cell e)) = vertex_mass share e * rsum (map (fun c => v3_dot (v3_sub (v1 c) (v0 c)) (w c)) (cell e))).
  { rewrite <- rsum_scale. apply rsum_ext. intros c _. destruct (v1 c), (v0 c), (w c). unm. ring. }
  rewrite E. field.
Qed.
Lemma cell_coords_cons c cs : cell_coords (c :: cs) = (3 * c + 0)%nat :: (3 * c + 1)%nat :: (3 * c + 2)%nat :: cell_coords cs.
Proof. reflexivity. Qed.
Lemma cell_coords_length cs : length (cell_coords cs) = (3 * length cs)%nat.
Proof. induction cs as [|c cs IH]; [reflexivity|]. rewrite cell_coords_cons. cbn [length]. rewrite IH. lia. Qed.
Lemma combine_repeat {A B} (l : list A) (b : B) n : n = length l -> combine l (repeat b n) = map (fun a => (a, b)) l.
Proof. intros ->. induction l as [|a l IH]; [reflexivity|]. simpl. rewrite IH. reflexivity. Qed.
Lemma inertia_triplets share es a b sc : combine (inertia_indices es a b) (inertia_values share es sc) =
  flat_map (fun e => map (fun p => ((p + a)%nat, (p + b)%nat, vertex_mass share e * sc)) (cell_coords (cell e))) es.
Proof.
  unfold inertia_indices, inertia_values. induction es as [|e es IH]; [reflexivity|]. cbn [flat_map]. rewrite combine_app by (rewrite map_length, repeat_length, cell_coords_length; reflexivity).
  rewrite IH, combine_repeat by (rewrite map_length, cell_coords_length; reflexivity). rewrite map_map. reflexivity.
Qed.
Lemma cell_form m (u w : nat -> v3) cs : rsum (map (fun p => m * coords u p * coords w p) (cell_coords cs)) = rsum (map (fun c => v3_dot (v3_scale m (w c)) (u c)) cs).
Proof.
  induction cs as [|c cs IH]; [reflexivity|]. rewrite cell_coords_cons. cbn [map]. rewrite !rsum_cons, IH, !coords_at by lia. destruct (u c), (w c). cbv [v3_get]. unm. ring.
Qed.
Lemma inertia_form share es sc u w : lower_form (combine (inertia_indices es 0 0) (inertia_values share es sc)) (coords u) (coords w) =
  rsum (map (fun e => rsum (map (fun c => v3_dot (v3_scale (vertex_mass share e * sc) (w c)) (u c)) (cell e))) es).
Proof.
  unfold lower_form. rewrite inertia_triplets, rsum_flat_map. apply rsum_ext. intros e _. rewrite map_map, <- cell_form. apply rsum_ext. intros p _.
  rewrite Nat.eqb_refl, !Nat.add_0_r. reflexivity.
Qed.

(** * Flat updates *)
Lemma upd_at_some {A} (l : list A) i f : (i < length l)%nat -> exists l', upd_at l i f = Some l' /\ length l' = length l.
Proof.
  revert i. induction l as [|a l IH]; intros [|i] H; simpl in *; try lia; [eexists; split; reflexivity|]. destruct (IH i ltac:(lia)) as (l' & E & L). rewrite E. exists (a :: l'). split; [reflexivity|simpl; congruence].
Qed.
Lemma upd_at_none {A} (l : list A) i f : (length l <= i)%nat -> upd_at l i f = None.
Proof. revert i. induction l as [|a l IH]; intros [|i] H; simpl in *; try reflexivity; try lia. rewrite IH by lia. reflexivity. Qed.
Lemma upd_at_nth {A} (l : list A) i f l' d p : upd_at l i f = Some l' -> length l' = length l /\ nth p l' d = if Nat.eqb i p then f (nth p l d) else nth p l d.
Proof.
  revert i l' p. induction l as [|a l IH]; intros i l' p H; [destruct i; discriminate H|]. destruct i as [|i]; simpl in H.
  - injection H as <-. split; [reflexivity|]. destruct p; reflexivity.
  - destruct (upd_at l i f) as [m|] eqn:E; [|discriminate H]. injection H as <-. destruct (IH i m (pred p) E) as [Lm N]. split; [simpl; congruence|]. destruct p as [|p]; [reflexivity|exact N].
Qed.
Lemma upd_each_some {A} f ps : forall l : list A, (forall p, In p ps -> (p < length l)%nat) -> exists l', upd_each l ps f = Some l' /\ length l' = length l.
Proof.
  induction ps as [|p ps IH]; intros l H; [exists l; split; reflexivity|]. destruct (upd_at_some l p (f p) (H p (or_introl eq_refl))) as (m & E & Lm).
  destruct (IH m) as (l' & E' & L'); [intros q Hq; rewrite Lm; apply H; right; exact Hq|]. exists l'. split; [simpl; rewrite E; exact E'|congruence].
Qed.
Lemma upd_each_add (h : nat -> R) ps p : forall l l', upd_each l ps (fun i a => a + h i) = Some l' -> length l' = length l /\ nth p l' 0 = nth p l 0 + rsum (map (fun q => if Nat.eqb q p then h q else 0) ps).
Proof.
  induction ps as [|q ps IH]; intros l l' H; [injection H as <-; simpl; rewrite rsum_nil; split; [reflexivity|ring]|]. simpl in H.
  destruct (upd_at l q (fun a => a + h q)) as [m|] eqn:E; [|discriminate H]. simpl in H. destruct (upd_at_nth l q _ m 0 p E) as [A B]. destruct (IH m l' H) as [C D].
  split; [congruence|]. cbn [map]. rewrite rsum_cons, D, B. destruct (Nat.eqb q p); ring.
Qed.
Lemma coords_in_range n cs : (forall c, In c cs -> (c < n)%nat) -> forall p, In p (cell_coords cs) -> (p < 3 * n)%nat.
Proof.
  intros H p Hp. unfold cell_coords in Hp. apply in_flat_map in Hp. destruct Hp as (c & Hc & Hp). apply in_map_iff in Hp. destruct Hp as (j & <- & Hj). apply in_seq in Hj. specialize (H c Hc). lia.
Qed.
Lemma shell_diagonal_at share es sc n p : cells_in_range n es -> forall l, length l = (3 * n)%nat ->
  exists l', add_shell_diagonal share es sc l = Some l' /\ length l' = (3 * n)%nat /\ nth p l' 0 = nth p l 0 + diagonal_sum (combine (inertia_indices es 0 0) (inertia_values share es sc)) p.
Proof.
  unfold diagonal_sum. rewrite inertia_triplets. intros H. rewrite rsum_flat_map. revert H. induction es as [|e es IH]; intros H l Hl.
  - exists l. split; [reflexivity|]. split; [exact Hl|]. simpl. rewrite rsum_nil. ring.
  - destruct (upd_each_some (fun _ a => a + vertex_mass share e * sc) (cell_coords (cell e)) l) as (m & E & Lm).
    { rewrite Hl. apply coords_in_range. intros c Hc. exact (H e c (or_introl eq_refl) Hc). }
    destruct (IH (fun e' c He => H e' c (or_intror He)) m (eq_trans Lm Hl)) as (l' & E' & L' & N). exists l'. split; [simpl; rewrite E; exact E'|]. split; [exact L'|].
    rewrite N. destruct (upd_each_add (fun _ => vertex_mass share e * sc) (cell_coords (cell e)) p l m E) as [_ B]. rewrite B. cbn [map]. rewrite rsum_cons.
    rewrite map_map, Rplus_assoc. f_equal. f_equal. apply rsum_ext. intros q _. rewrite !Nat.add_0_r. destruct (Nat.eqb q p); reflexivity.
Qed.
(** When every vertex is inside the diagonal or beyond its number of coordinates, the guard of the solid is harmless. *)
Lemma solid_cell_at m cs k p : forall l, length l = (3 * k)%nat -> (forall c, In c cs -> (c < k)%nat \/ (3 * k <= c)%nat) ->
  exists l', solid_diagonal_cell m cs l = Some l' /\ length l' = (3 * k)%nat /\
    ((p < 3 * k)%nat -> nth p l' 0 = nth p l 0 + rsum (map (fun q => if Nat.eqb q p then m else 0) (cell_coords cs))).
Proof.
  induction cs as [|c cs IH]; intros l Hl H; [exists l; split; [reflexivity|]; split; [exact Hl|]; intros _; simpl; rewrite rsum_nil; ring|].
  assert (Hc : exists l1, (if Nat.ltb c (length l) then upd_each l (cell_coords [c]) (fun _ a => a + m) else Some l) = Some l1 /\ length l1 = (3 * k)%nat /\
    ((p < 3 * k)%nat -> nth p l1 0 = nth p l 0 + rsum (map (fun q => if Nat.eqb q p then m else 0) (cell_coords [c])))).
  { destruct (Nat.ltb_spec c (length l)) as [Hlt|Hge].
    - destruct (H c (or_introl eq_refl)) as [Hk|Hk]; [|lia]. destruct (upd_each_some (fun _ a => a + m) (cell_coords [c]) l) as (l1 & E & L1).
      { rewrite Hl. apply coords_in_range. intros d [<-|[]]. exact Hk. }
      exists l1. split; [exact E|]. split; [lia|]. intros _. exact (proj2 (upd_each_add (fun _ => m) (cell_coords [c]) p l l1 E)).
    - exists l. split; [reflexivity|]. split; [exact Hl|]. intros Hp. rewrite rsum_zero; [ring|]. intros q Hq. destruct (Nat.eqb_spec q p) as [E|E]; [|reflexivity].
      subst q. apply in_flat_map in Hq. destruct Hq as (d & [Hd|[]] & Hq). subst d. apply in_map_iff in Hq. destruct Hq as (j & Hj & _). lia. }
  destruct Hc as (l1 & E1 & L1 & N1). destruct (IH l1 L1 (fun d Hd => H d (or_intror Hd))) as (l' & E & L & N). exists l'. split; [cbn [solid_diagonal_cell]; rewrite E1; exact E|]. split; [exact L|].
  intros Hp. rewrite (N Hp), (N1 Hp). change (c :: cs) with ([c] ++ cs). replace (cell_coords ([c] ++ cs)) with (cell_coords [c] ++ cell_coords cs) by reflexivity. rewrite map_app, rsum_app. ring.
Qed.
Lemma solid_diagonal_at share es sc k p : (forall e c, In e es -> In c (cell e) -> (c < k)%nat \/ (3 * k <= c)%nat) -> forall l, length l = (3 * k)%nat ->
  exists l', add_solid_diagonal share es sc l = Some l' /\ length l' = (3 * k)%nat /\
    ((p < 3 * k)%nat -> nth p l' 0 = nth p l 0 + diagonal_sum (combine (inertia_indices es 0 0) (inertia_values share es sc)) p).
Proof.
  unfold diagonal_sum. rewrite inertia_triplets, rsum_flat_map. induction es as [|e es IH]; intros H l Hl.
  - exists l. split; [reflexivity|]. split; [exact Hl|]. intros _. simpl. rewrite rsum_nil. ring.
  - destruct (solid_cell_at (vertex_mass share e * sc) (cell e) k p l Hl (fun c Hc => H e c (or_introl eq_refl) Hc)) as (m & E & Lm & Nm).
    destruct (IH (fun e' c He => H e' c (or_intror He)) m Lm) as (l' & E' & L' & N). exists l'. split; [simpl; rewrite E; exact E'|]. split; [exact L'|]. intros Hp.
    rewrite (N Hp), (Nm Hp). cbn [map]. rewrite rsum_cons, map_map, Rplus_assoc. f_equal. f_equal. apply rsum_ext. intros q _. rewrite !Nat.add_0_r. destruct (Nat.eqb q p); reflexivity.
Qed.
Lemma solid_product_at share es z sc n p : cells_in_range n es -> forall l, length l = (3 * n)%nat ->
  exists l', solid_inertia_product share es z sc l = Some l' /\ length l' = (3 * n)%nat /\ nth p l' 0 = nth p l 0 + triplet_product (combine (inertia_indices es 0 0) (inertia_values share es sc)) z p.
Proof.
  unfold triplet_product. rewrite inertia_triplets, rsum_flat_map. induction es as [|e es IH]; intros H l Hl.
  - exists l. split; [reflexivity|]. split; [exact Hl|]. simpl. rewrite rsum_nil. ring.
  - destruct (upd_each_some (fun i a => a + z i * vertex_mass share e * sc) (cell_coords (cell e)) l) as (m & E & Lm).
    { rewrite Hl. apply coords_in_range. intros c Hc. exact (H e c (or_introl eq_refl) Hc). }
    destruct (IH (fun e' c He => H e' c (or_intror He)) m (eq_trans Lm Hl)) as (l' & E' & L' & N). exists l'. split; [simpl; rewrite E; exact E'|]. split; [exact L'|].
    rewrite N. destruct (upd_each_add (fun i => z i * vertex_mass share e * sc) (cell_coords (cell e)) p l m E) as [_ B]. rewrite B. cbn [map]. rewrite rsum_cons, map_map, Rplus_assoc. f_equal. f_equal.
    apply rsum_ext. intros q _. rewrite !Nat.add_0_r. destruct (Nat.eqb q p); ring.
Qed.

(** * Gravity *)
Lemma v3_sum_list_total l : v3_sum_list l = v3_total l.
Proof.
  unfold v3_sum_list. assert (G : forall a, fold_left v3_add l a = v3_add a (v3_total l)).
  { induction l as [|b l IH]; intros a; [simpl; symmetry; apply v3_add_0_r|]. cbn [fold_left]. rewrite IH, v3_total_cons. destruct a, b, (v3_total l). unm. f_equal; ring. }
  rewrite G. destruct (v3_total l). unm. f_equal; ring.
Qed.
Lemma dot_total g l : v3_dot g (v3_total l) = rsum (map (v3_dot g) l).
Proof. apply total_get; [intros a b; destruct g, a, b; unm; ring|destruct g; unm; ring]. Qed.
Lemma gravity_elem share g e x : v3_dot g (v3_scale share (v3_sum_list (map x (cell e)))) * (- measure e * density e) = rsum (map (fun c => v3_dot (v3_neg (v3_scale (vertex_mass share e) g)) (x c)) (cell e)).
Proof.
  rewrite v3_sum_list_total. replace (v3_dot g (v3_scale share (v3_total (map x (cell e))))) with (share * v3_dot g (v3_total (map x (cell e)))) by (destruct g, (v3_total (map x (cell e))); unm; ring).
  rewrite dot_total, map_map. replace (share * rsum (map (fun c => v3_dot g (x c)) (cell e)) * (- measure e * density e)) with (- vertex_mass share e * rsum (map (fun c => v3_dot g (x c)) (cell e))) by (unfold vertex_mass; ring).
  rewrite <- rsum_scale. apply rsum_ext. intros c _. destruct g, (x c). unm. ring.
Qed.
Lemma gravity_line share g es x d s : gravity_energy share g es (move x d s) = gravity_energy share g es x + s * rsum (map (fun e => rsum (map (fun c => v3_dot (v3_neg (v3_scale (vertex_mass share e) g)) (d c)) (cell e))) es).
Proof.
  unfold gravity_energy. induction es as [|e es IH]; [simpl; rewrite !rsum_nil; ring|]. cbn [map]. rewrite !rsum_cons, IH, !gravity_elem.
  assert (E : rsum (map (fun c => v3_dot (v3_neg (v3_scale (vertex_mass share e) g)) (move x d s c)) (cell e)) =
    rsum (map (fun c => v3_dot (v3_neg (v3_scale (vertex_mass share e) g)) (x c)) (cell e)) + s * rsum (map (fun c => v3_dot (v3_neg (v3_scale (vertex_mass share e) g)) (d c)) (cell e))).
  { rewrite <- rsum_scale, <- rsum_plus. apply rsum_ext. intros c _. unfold move, v3_line. destruct g, (x c), (d c). unm. ring. }
  rewrite E. ring.
Qed.
Lemma total_repeat a n : v3_total (repeat a n) = v3_scale (INR n) a.
Proof. induction n as [|n IH]; [change (v3_total (repeat a 0)) with v3_0; change (INR 0) with 0; destruct a; unm; f_equal; ring|]. cbn [repeat]. rewrite v3_total_cons, IH, S_INR. destruct a. unm. f_equal; ring. Qed.
Lemma map_const {A B} (b : B) (l : list A) : map (fun _ => b) l = repeat b (length l).
Proof. induction l as [|a l IH]; [reflexivity|]. simpl. rewrite IH. reflexivity. Qed.
Lemma gravity_total share g es k : corners k es -> share * INR k = 1 -> v3_total (flat_map (fun e => map (fun _ : nat => v3_neg (v3_scale (vertex_mass share e) g)) (cell e)) es) = v3_neg (v3_scale (total_mass es) g).
Proof.
  intros Hc Hs. unfold total_mass. induction es as [|e es IH]; [simpl; rewrite rsum_nil; destruct g; unm; f_equal; ring|]. cbn [flat_map map]. rewrite v3_total_app, IH by (intros e' He; apply Hc; right; exact He).
  rewrite map_const, (Hc e (or_introl eq_refl)), total_repeat, rsum_cons. unfold vertex_mass, elem_mass.
  replace (share * measure e * density e) with (share * (measure e * density e)) by ring. set (q := measure e * density e).
  assert (E : forall a, INR k * - (share * q * a) = - (q * a)) by (intros a; replace (INR k * - (share * q * a)) with (- (share * INR k) * (q * a)) by ring; rewrite Hs; ring).
  destruct g. unm. rewrite !E. f_equal; ring.
Qed.

(** * Rigid shells *)
Lemma rigid_line mass A v0 w0 v1 w1 dv dw s : rigid_energy mass A v0 w0 (v3_line v1 dv s) (v3_line w1 dw s) = rigid_energy mass A v0 w0 v1 w1
  + s * (mass * v3_dot (v3_sub v1 v0) dv + 1 / 2 * (v3_dot (m3_mulv A (v3_sub w1 w0)) dw + v3_dot (m3_mulv (m3_transpose A) (v3_sub w1 w0)) dw))
  + s * s * (1 / 2 * (v3_dot dw (m3_mulv A dw) + v3_dot dv dv * mass)).
Proof. unfold rigid_energy, v3_line. destruct A as [a b c], a, b, c, v0, w0, v1, w1, dv, dw. unm. field. Qed.
Lemma derive_val (f : R -> R) (x a b : R) : is_derive f x a -> a = b -> is_derive f x b.
Proof. intros H <-. exact H. Qed.
