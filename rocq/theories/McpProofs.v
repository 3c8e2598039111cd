(** Proofs for the mixed complementarity wrapper and the diagonal scaling. *)
From Coq Require Import Reals List Arith Bool Lra Lia Psatz.
From Verif Require Import RList McpModel McpSpec.
Import ListNotations.
Local Open Scope R_scope.

Ltac mm := unfold mcp_component, min_lower, max_upper, upper_active, lower_active, Rleb, Rmin, Rmax in *;
  repeat match goal with |- context [Rle_dec ?a ?b] => destruct (Rle_dec a b) | H : context [Rle_dec ?a ?b] |- _ => destruct (Rle_dec a b) end.

Lemma mcp_component_zero (F x : R) (l u : bound) : ordered l u -> mcp_component F x l u = 0 <-> complementary F x l u.
Proof.
  unfold ordered, complementary, above, below. intros Hlu. split.
  - intros H. destruct (Rtotal_order F 0) as [E|[E|E]].
    + right; right. destruct l as [l|], u as [u|]; mm; try lra;
        (split; [try lra; exact I|split; [f_equal; lra|lra]]).
    + left. destruct l as [l|], u as [u|]; mm; try lra; (split; [try lra; exact I|split; [try lra; exact I|lra]]).
    + right; left. destruct l as [l|], u as [u|]; mm; try lra;
        (split; [try lra; exact I|split; [f_equal; lra|lra]]).
  - intros [[H1 [H2 H3]]|[[H1 [H2 H3]]|[H1 [H2 H3]]]].
    + destruct l as [l|], u as [u|]; mm; lra.
    + subst l. destruct u as [u|]; mm; lra.
    + subst u. destruct l as [l|]; mm; lra.
Qed.

Lemma mcp_residual_length (F x : list R) (l u : list bound) : length (mcp_residual F x l u) = length F.
Proof.
  revert x l u. induction F as [|f F IH]; intros [|x0 x] [|l0 l] [|u0 u]; simpl; try reflexivity. f_equal. apply IH.
Qed.
Lemma mcp_residual_nth (F x : list R) (l u : list bound) (i : nat) :
  (i < length x)%nat -> length F = length x -> length l = length x -> length u = length x ->
  nth i (mcp_residual F x l u) 0 = mcp_component (nth i F 0) (nth i x 0) (nth i l None) (nth i u None).
Proof.
  revert x l u i. induction F as [|f F IH]; intros [|x0 x] [|l0 l] [|u0 u] i; simpl; intros; try discriminate; try lia.
  destruct i as [|i]; [reflexivity|]. apply IH; lia.
Qed.
Lemma mcp_residual_zero (F x : list R) (l u : list bound) :
  length F = length x -> length l = length x -> length u = length x ->
  (forall i, (i < length x)%nat -> ordered (nth i l None) (nth i u None)) ->
  (forall i, (i < length x)%nat -> nth i (mcp_residual F x l u) 0 = 0) <->
  (forall i, (i < length x)%nat -> complementary (nth i F 0) (nth i x 0) (nth i l None) (nth i u None)).
Proof.
  intros HF Hl Hu Ho. split; intros H i Hi.
  - apply mcp_component_zero; [apply Ho; exact Hi|]. rewrite <- mcp_residual_nth by assumption. apply H, Hi.
  - rewrite mcp_residual_nth by assumption. apply mcp_component_zero; [apply Ho; exact Hi|apply H, Hi].
Qed.
(** With the same sign convention the residual is the distance to the nearest condition being met: it is bounded by both. *)
Lemma mcp_residual_bounds (F x : R) (l u : R) : l <= x <= u -> 
  Rabs (mcp_component F x (Some l) (Some u)) <= Rabs F.
Proof. intros [H1 H2]. mm; unfold Rabs; repeat destruct Rcase_abs; lra. Qed.

(** Active tests applied to the unscaled residual. *)
Lemma upper_active_spec (F x : R) (l u : bound) : separated l u ->
  upper_active (mcp_component F x l u) x u = true <-> exists b, u = Some b /\ F <= x - b.
Proof.
  unfold separated. intros Hs. destruct u as [u|]; [|split; [discriminate|intros [b [Hb _]]; discriminate]].
  destruct l as [l|]; split.
  - intros H. exists u. split; [reflexivity|]. mm; try discriminate; lra.
  - intros [b [Hb H]]. injection Hb as <-. mm; try reflexivity; lra.
  - intros H. exists u. split; [reflexivity|]. mm; try discriminate; lra.
  - intros [b [Hb H]]. injection Hb as <-. mm; try reflexivity; lra.
Qed.
Lemma lower_active_spec (F x : R) (l u : bound) : separated l u ->
  lower_active (mcp_component F x l u) x l = true <-> exists b, l = Some b /\ x - b <= F.
Proof.
  unfold separated. intros Hs. destruct l as [l|]; [|split; [discriminate|intros [b [Hb _]]; discriminate]].
  destruct u as [u|]; split.
  - intros H. exists l. split; [reflexivity|]. mm; try discriminate; lra.
  - intros [b [Hb H]]. injection Hb as <-. mm; try reflexivity; lra.
  - intros H. exists l. split; [reflexivity|]. mm; try discriminate; lra.
  - intros [b [Hb H]]. injection Hb as <-. mm; try reflexivity; lra.
Qed.

(** The Jacobian values. *)
Definition active (x r : list R) (l u : list bound) (i : nat) : bool :=
  upper_active (nth i r 0) (nth i x 0) (nth i u None) || lower_active (nth i r 0) (nth i x 0) (nth i l None).

Lemma mcp_loop_length x r l u seen ts : length (mcp_jacobian_loop x r l u seen ts) = length ts.
Proof.
  revert seen. induction ts as [|[[i j] v] ts IH]; intros seen; [reflexivity|]. simpl.
  destruct (_ && _); [|simpl; f_equal; apply IH].
  destruct (_ || _); [|simpl; f_equal; apply IH].
  destruct (_ && _); simpl; f_equal; apply IH.
Qed.
Definition tprod (p : list R) (i : nat) (t : nat * nat * R) : R := let '(r, c, v) := t in if Nat.eqb r i then v * nth c p 0 else 0.
Lemma triplet_product_cons t ts p i : triplet_product (t :: ts) p i = tprod p i t + triplet_product ts p i.
Proof. unfold triplet_product. simpl. rewrite rsum_cons. destruct t as [[a b] v]. reflexivity. Qed.
Lemma with_values_cons i j v ts w vals : with_values ((i, j, v) :: ts) (w :: vals) = (i, j, w) :: with_values ts vals.
Proof. reflexivity. Qed.

Lemma mcp_loop_inactive x r l u seen ts p i : active x r l u i = false ->
  triplet_product (with_values ts (mcp_jacobian_loop x r l u seen ts)) p i = triplet_product ts p i.
Proof.
  intros Ha. revert seen. induction ts as [|[[a b] v] ts IH]; intros seen; [reflexivity|].
  simpl mcp_jacobian_loop.
  destruct (Nat.eqb_spec a i) as [E|E].
  - subst a. unfold active in Ha. rewrite Ha.
    destruct (_ && _); rewrite with_values_cons, !triplet_product_cons, IH; reflexivity.
  - assert (G : forall w seen', triplet_product ((a, b, w) :: with_values ts (mcp_jacobian_loop x r l u seen' ts)) p i = triplet_product ((a, b, v) :: ts) p i).
    { intros w seen'. rewrite !triplet_product_cons, IH. unfold tprod. destruct (Nat.eqb_spec a i); [contradiction|reflexivity]. }
    destruct (_ && _); [|rewrite with_values_cons; apply G].
    destruct (_ || _); [|rewrite with_values_cons; apply G].
    destruct (_ && _); rewrite with_values_cons; apply G.
Qed.

Definition all_inside (n : nat) (ts : list (nat * nat * R)) : Prop := forall r c v, In (r, c, v) ts -> (r < n)%nat /\ (c < n)%nat.

Lemma mcp_loop_active x r l u seen ts p i : active x r l u i = true -> all_inside (length l) ts ->
  triplet_product (with_values ts (mcp_jacobian_loop x r l u seen ts)) p i =
  if existsb (Nat.eqb i) seen then 0 else if existsb (fun t => Nat.eqb (fst (fst t)) i && Nat.eqb (snd (fst t)) i) ts then nth i p 0 else 0.
Proof.
  intros Ha. revert seen. induction ts as [|[[a b] v] ts IH]; intros seen Hin.
  { simpl. unfold triplet_product. simpl. rewrite rsum_nil. destruct (existsb _ seen); reflexivity. }
  assert (Hin' : all_inside (length l) ts) by (intros r' c' v' H; apply (Hin r' c' v'); right; exact H).
  destruct (Hin a b v (or_introl eq_refl)) as [Hal Hbl].
  simpl mcp_jacobian_loop. rewrite (proj2 (Nat.ltb_lt _ _) Hal), (proj2 (Nat.ltb_lt _ _) Hbl). cbn [andb].
  destruct (Nat.eqb_spec a i) as [E|E].
  - subst a. unfold active in Ha. rewrite Ha. simpl existsb. 
    rewrite Nat.eqb_refl. cbn [andb fst snd].
    destruct (Nat.eqb_spec i b) as [Eb|Eb].
    + subst b. rewrite Nat.eqb_refl. cbn [orb]. destruct (existsb (Nat.eqb i) seen) eqn:Es; cbn [negb andb].
      * rewrite with_values_cons, triplet_product_cons, IH, Es by exact Hin'. unfold tprod. rewrite Nat.eqb_refl. ring.
      * rewrite with_values_cons, triplet_product_cons, IH by exact Hin'. unfold tprod. simpl existsb. rewrite Nat.eqb_refl. cbn [orb]. ring.
    + cbn [andb]. rewrite with_values_cons, triplet_product_cons, IH by exact Hin'. unfold tprod. rewrite Nat.eqb_refl.
      destruct (Nat.eqb_spec b i); [congruence|]. cbn [orb]. rewrite Rmult_0_l, Rplus_0_l. reflexivity.
  - assert (G : forall w seen', existsb (Nat.eqb i) seen' = existsb (Nat.eqb i) seen -> 
      triplet_product ((a, b, w) :: with_values ts (mcp_jacobian_loop x r l u seen' ts)) p i =
      if existsb (Nat.eqb i) seen then 0 else if existsb (fun t => Nat.eqb (fst (fst t)) i && Nat.eqb (snd (fst t)) i) ((a, b, v) :: ts) then nth i p 0 else 0).
    { intros w seen' Es. rewrite triplet_product_cons, IH, Es by exact Hin'. unfold tprod. simpl existsb.
      destruct (Nat.eqb_spec a i); [contradiction|]. cbn [andb orb fst snd]. ring. }
    destruct (_ || _); [|rewrite with_values_cons; apply G; reflexivity].
    destruct (Nat.eqb_spec a b) as [Eb|Eb].
    + destruct (existsb (Nat.eqb a) seen); cbn [negb andb].
      * rewrite with_values_cons; apply G; reflexivity.
      * rewrite with_values_cons; apply G. simpl. destruct (Nat.eqb_spec i a); [congruence|reflexivity].
    + cbn [andb]. rewrite with_values_cons; apply G; reflexivity.
Qed.

Lemma mcp_product_nth x l u r jp i :
  (i < length x)%nat -> length l = length x -> length u = length x -> length r = length x -> length jp = length x ->
  active x r l u i = false -> nth i (mcp_jacobian_product x l u r jp) 0 = nth i jp 0.
Proof.
  revert l u r jp i. induction x as [|x0 x IH]; intros [|l0 l] [|u0 u] [|r0 r] [|j0 jp] i; simpl; intros; try discriminate; try lia.
  destruct i as [|i].
  - unfold active in *. simpl in *. match goal with H : _ || _ = false |- _ => apply orb_false_iff in H; destruct H as [E1 E2] end.
    rewrite E1, E2. reflexivity.
  - apply IH; try lia. assumption.
Qed.
Lemma mcp_product_active_nth x l u r jp i b :
  (i < length x)%nat -> length l = length x -> length u = length x -> length r = length x -> length jp = length x ->
  nth i u None = Some b -> nth i r 0 <= nth i x 0 - b -> nth i (mcp_jacobian_product x l u r jp) 0 = nth i x 0 - b.
Proof.
  revert l u r jp i. induction x as [|x0 x IH]; intros [|l0 l] [|u0 u] [|r0 r] [|j0 jp] i; simpl; intros; try discriminate; try lia.
  destruct i as [|i].
  - subst u0. mm; [reflexivity|lra].
  - apply IH; try lia; assumption.
Qed.

(** Scaling. *)
Lemma precond_entry_pos (x : R) : 0 < precond_entry x.
Proof.
  unfold precond_entry, f64_epsilon. destruct (Rlt_dec _ _); [lra|].
  apply Rdiv_lt_0_compat; [lra|]. assert (0 < / 4503599627370496) by (apply Rinv_0_lt_compat; lra). lra.
Qed.
Lemma precond_entry_le (x : R) : precond_entry x <= 4503599627370496.
Proof.
  unfold precond_entry, f64_epsilon. destruct (Rlt_dec _ _); [lra|].
  assert (H : 0 < / 4503599627370496) by (apply Rinv_0_lt_compat; lra).
  unfold Rdiv. rewrite Rmult_1_l. rewrite <- (Rinv_inv 4503599627370496). apply Rinv_le_contravar; [exact H|lra].
Qed.
(** Away from degeneracies symmetric scaling brings the diagonal to magnitude one. *)
Lemma precond_entry_scales (x : R) : f64_epsilon <= sqrt (Rabs x) -> precond_entry x * Rabs x * precond_entry x = 1.
Proof.
  intros H. unfold precond_entry. destruct (Rlt_dec _ _); [lra|].
  assert (0 < f64_epsilon) by (unfold f64_epsilon; apply Rinv_0_lt_compat; lra).
  rewrite <- (sqrt_def (Rabs x)) at 2 by apply Rabs_pos. field. lra.
Qed.
Lemma scale_unscale (p r : list R) : (forall x, In x p -> x <> 0) -> unscale_vector p (rescale_vector p r) = r.
Proof.
  revert r. induction p as [|a p IH]; intros [|b r] H; simpl; try reflexivity.
  f_equal; [field; apply H; left; reflexivity|]. apply IH. intros x Hx. apply H. right. exact Hx.
Qed.
Lemma unscale_scale (p r : list R) : (forall x, In x p -> x <> 0) -> rescale_vector p (unscale_vector p r) = r.
Proof.
  revert r. induction p as [|a p IH]; intros [|b r] H; simpl; try reflexivity.
  f_equal; [field; apply H; left; reflexivity|]. apply IH. intros x Hx. apply H. right. exact Hx.
Qed.
Lemma rescale_nth (p r : list R) (i : nat) : (i < length p)%nat -> nth i (rescale_vector p r) 0 = nth i r 0 * nth i p 0.
Proof.
  revert r i. induction p as [|a p IH]; intros [|b r] i H; simpl in *; try lia.
  - destruct i; ring.
  - destruct i; [reflexivity|]. apply IH. lia.
Qed.
Lemma rescale_values_product (p v : list R) (ts : list (nat * nat * R)) (i : nat) :
  (i < length p)%nat ->
  triplet_product (with_values ts (rescale_jacobian_values p (map (fun t => fst (fst t)) ts) (map snd ts))) v i
  = triplet_product ts v i * nth i p 0.
Proof.
  intros Hi. unfold rescale_jacobian_values. rewrite !map_length.
  rewrite skipn_all2 by (rewrite map_length; lia). rewrite app_nil_r.
  induction ts as [|[[a b] w] ts IH]; [unfold triplet_product; simpl; rewrite rsum_nil; ring|].
  simpl map. simpl combine. simpl map. rewrite with_values_cons, !triplet_product_cons, IH. unfold tprod. cbn [fst snd].
  destruct (Nat.eqb_spec a i) as [E|E]; [|ring]. subst a. rewrite (proj2 (Nat.ltb_lt _ _) Hi). ring.
Qed.
