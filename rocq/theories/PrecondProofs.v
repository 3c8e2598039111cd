(** Proofs about the approximate Jacobi preconditioner. *)
From Coq Require Import Reals List Arith Bool Lra Lia.
From Coquelicot Require Import Coquelicot.
From Verif Require Import Vec3 Mat3 RList ElasticModel NeighborModel SurfJacSpec SurfJacProofs HessModel HessSpec HessProofs SurfHessSpec SurfHessProps HessMixProofs FrictionModel ContactModel ContactJacModel AssemblyModel AssemblyProofs ContactAsmModel ContactAsmSpec ContactAsmProofs
  ContactHessModel ContactHessSpec ContactHessProofs ContactRowProofs ContactMoveProofs FricAsmModel ProblemModel ProblemSpec ProblemListProofs ProblemProofs ProblemMatrixProofs FricProblemModel PrecondModel.
From Verif Require MassProofs ContactHessProps.
Import ListNotations.
Local Open Scope R_scope.

(** ** Additions to a list *)
Definition term_sum (T : list (nat * R)) (k : nat) : R := rsum (map (fun t => if Nat.eqb (fst t) k then snd t else 0) T).
Lemma term_sum_app a b k : term_sum (a ++ b) k = term_sum a k + term_sum b k.
Proof. unfold term_sum. rewrite map_app. apply rsum_app. Qed.
Lemma term_sum_nil k : term_sum [] k = 0. Proof. apply rsum_nil. Qed.
Lemma term_sum_cons j a T k : term_sum ((j, a) :: T) k = (if Nat.eqb j k then a else 0) + term_sum T k.
Proof. unfold term_sum. cbn [map]. apply rsum_cons. Qed.
Lemma term_sum_flat {A} (f : A -> list (nat * R)) l k : term_sum (flat_map f l) k = rsum (map (fun a => term_sum (f a) k) l).
Proof. induction l as [|a l IH]; [cbn [flat_map map]; rewrite term_sum_nil, rsum_nil; reflexivity|]. cbn [flat_map map]. rewrite term_sum_app, IH, rsum_cons. reflexivity. Qed.
Lemma entry_added a : forall l k, (k < length l)%nat -> exists r, add_entry l k a = Some r /\ length r = length l /\ forall j, nth j r 0 = nth j l 0 + if Nat.eqb k j then a else 0.
Proof.
  induction l as [|x l IH]; intros k K; [cbn in K; lia|]. destruct k as [|k].
  - exists (x + a :: l). split; [reflexivity|]. split; [reflexivity|]. intros [|j]; cbn [nth Nat.eqb]; ring.
  - destruct (IH k) as (r & E & L & N); [cbn in K; lia|]. exists (x :: r). cbn [add_entry]. rewrite E. split; [reflexivity|]. split; [cbn [length]; lia|]. intros [|j]; cbn [nth Nat.eqb]; [ring|apply N].
Qed.
Lemma entries_added : forall T l, (forall t, In t T -> (fst t < length l)%nat) -> exists r, add_entries T l = Some r /\ length r = length l /\ forall k, nth k r 0 = nth k l 0 + term_sum T k.
Proof.
  induction T as [|[k a] T IH]; intros l H.
  - exists l. split; [reflexivity|]. split; [reflexivity|]. intros k. rewrite term_sum_nil. ring.
  - destruct (entry_added a l k (H _ (or_introl eq_refl))) as (r & E & L & N). destruct (IH r) as (s & E2 & L2 & N2); [intros t I; rewrite L; apply H; right; exact I|].
    exists s. cbn [add_entries]. rewrite E. cbn [bind]. split; [exact E2|]. split; [congruence|]. intros j. rewrite N2, N, term_sum_cons. ring.
Qed.

(** ** Three entries of a vertex *)
Lemma triple_sum (v k : nat) (f : nat -> R) : term_sum (map (fun i => ((3 * v + i)%nat, f i)) [0; 1; 2]%nat) k = if Nat.eqb v (k / 3) then f (k mod 3)%nat else 0.
Proof.
  pose proof (Nat.div_mod k 3 ltac:(lia)) as D. pose proof (Nat.mod_upper_bound k 3 ltac:(lia)) as M. cbn [map]. rewrite !term_sum_cons, term_sum_nil. set (q := (k / 3)%nat) in *. set (r := (k mod 3)%nat) in *.
  destruct (Nat.eqb_spec v q) as [->|N].
  - destruct r as [|[|[|r]]]; try lia; repeat match goal with |- context[Nat.eqb ?a k] => destruct (Nat.eqb_spec a k); [try lia|try lia] end; ring.
  - repeat match goal with |- context[Nat.eqb ?a k] => destruct (Nat.eqb_spec a k); [exfalso; lia|] end. ring.
Qed.
Lemma triple_range (v m : nat) (f : nat -> R) t : (v < m)%nat -> In t (map (fun i => ((3 * v + i)%nat, f i)) [0; 1; 2]%nat) -> (fst t < 3 * m)%nat.
Proof. intros L H. cbn [map] in H. repeat (destruct H as [<-|H]; [cbn [fst]; lia|]). destruct H. Qed.
Lemma unit_bil A k : (k < 3)%nat -> bil A (unit_axis k) (unit_axis k) = m3_get A k k.
Proof. intros K. destruct A as [[a0 a1 a2] [a3 a4 a5] [a6 a7 a8]]. destruct k as [|[|[|k]]]; try lia; unfold bil, m3_mulv, v3_dot; cbn [unit_axis m3_get r0 r1 r2 vx vy vz]; ring. Qed.
Lemma bil_0_r A u : bil A u v3_0 = 0.
Proof. destruct A as [[a0 a1 a2] [a3 a4 a5] [a6 a7 a8]], u as [u0 u1 u2]. unfold bil, m3_mulv, v3_dot, v3_0. cbn [r0 r1 r2 vx vy vz]. ring. Qed.
Lemma unit_block A r c k : bil A (unit_motion k r) (unit_motion k c) = if andb (Nat.eqb r (k / 3)) (Nat.eqb c (k / 3)) then m3_get A (k mod 3) (k mod 3) else 0.
Proof.
  unfold unit_motion. pose proof (Nat.mod_upper_bound k 3 ltac:(lia)) as M. destruct (Nat.eqb r (k / 3)), (Nat.eqb c (k / 3)); cbn [andb]; [apply unit_bil, M|apply bil_0_r|apply bil_0_l|apply bil_0_l].
Qed.

(** ** Contacts *)
Lemma below_div m k : (k < 3 * m)%nat -> (k / 3 < m)%nat.
Proof. intros K. apply Nat.div_lt_upper_bound; lia. Qed.
Lemma diagonal_terms_sum h m k b : (k < 3 * m)%nat -> term_sum (diagonal_terms h m b) k = - (h * h) * gbil (unit_motion k) (unit_motion k) [b].
Proof.
  intros K. pose proof (below_div m k K) as Q. destruct b as [[r c] A]. rewrite gbil_cons, gbil_nil, unit_block. unfold diagonal_terms. destruct (Nat.eqb_spec r c) as [<-|N]; cbn [andb].
  - destruct (Nat.ltb_spec r m) as [L|L].
    + rewrite triple_sum. destruct (Nat.eqb r (k / 3)); cbn [andb]; ring.
    + rewrite term_sum_nil. destruct (Nat.eqb_spec r (k / 3)) as [E|]; [lia|]. cbn [andb]. ring.
  - rewrite term_sum_nil. destruct (Nat.eqb_spec r (k / 3)) as [E|], (Nat.eqb_spec c (k / 3)) as [F|]; cbn [andb]; try ring. congruence.
Qed.
Lemma diagonal_all h m k L : (k < 3 * m)%nat -> term_sum (flat_map (diagonal_terms h m) L) k = - (h * h) * gbil (unit_motion k) (unit_motion k) L.
Proof.
  intros K. induction L as [|b L IH]; [cbn [flat_map]; rewrite term_sum_nil, gbil_nil; ring|]. cbn [flat_map]. rewrite term_sum_app, IH, (diagonal_terms_sum h m k b K). change (b :: L) with ([b] ++ L). rewrite gbil_app. ring.
Qed.
Lemma diagonal_range h m L t : In t (flat_map (diagonal_terms h m) L) -> (fst t < 3 * m)%nat.
Proof.
  intros H. apply in_flat_map in H. destruct H as ([[r c] A] & _ & H). unfold diagonal_terms in H. destruct (Nat.eqb r c); cbn [andb] in H; [|destruct H]. destruct (Nat.ltb_spec r m) as [L'|]; [|destruct H]. exact (triple_range r m _ t L' H).
Qed.
Lemma mirrored_unit k L : gbil (unit_motion k) (unit_motion k) (flat_map mirrored L) = gbil (unit_motion k) (unit_motion k) L.
Proof.
  rewrite gbil_flat_map. unfold gbil at 2. apply rsum_ext. intros [[r c] A] _. unfold mirrored. rewrite gbil_cons. destruct (Nat.eqb_spec r c) as [<-|N]; [rewrite gbil_nil; ring|]. rewrite gbil_cons, gbil_nil, !unit_block.
  destruct (Nat.eqb_spec r (k / 3)) as [E|], (Nat.eqb_spec c (k / 3)) as [F|]; cbn [andb]; try ring. congruence.
Qed.
Lemma apart_unit k L : (forall h, In h L -> fst (fst h) <> snd (fst h)) -> gbil (unit_motion k) (unit_motion k) L = 0.
Proof.
  intros H. unfold gbil. apply rsum_zero. intros [[r c] A] I. specialize (H _ I). cbn [fst snd] in H. rewrite unit_block. destruct (Nat.eqb_spec r (k / 3)) as [E|], (Nat.eqb_spec c (k / 3)) as [F|]; cbn [andb]; try reflexivity. congruence.
Qed.
(** A sum over different keys has at most one term. *)
Lemma one_key {A} (key : A -> nat * nat) (val : A -> R) r j l : NoDup (map key l) ->
  rsum (map (fun e => if andb (Nat.eqb (snd (key e)) j) (Nat.eqb (fst (key e)) r) then val e else 0) l) * rsum (map (fun e => if andb (Nat.eqb (snd (key e)) j) (Nat.eqb (fst (key e)) r) then val e else 0) l)
  = rsum (map (fun e => if andb (Nat.eqb (snd (key e)) j) (Nat.eqb (fst (key e)) r) then val e * val e else 0) l).
Proof.
  induction l as [|a l IH]; intros N; [cbn [map]; rewrite rsum_nil; ring|]. cbn [map] in N. inversion N as [|? ? N1 N2]; subst. cbn [map]. rewrite !rsum_cons.
  destruct (andb (Nat.eqb (snd (key a)) j) (Nat.eqb (fst (key a)) r)) eqn:E.
  - assert (Z : forall g : A -> R, rsum (map (fun e => if andb (Nat.eqb (snd (key e)) j) (Nat.eqb (fst (key e)) r) then g e else 0) l) = 0).
    { intros g. apply rsum_zero. intros e I. destruct (andb (Nat.eqb (snd (key e)) j) (Nat.eqb (fst (key e)) r)) eqn:F; [|reflexivity]. exfalso. apply N1. apply andb_prop in E, F. destruct E as [E1 E2], F as [F1 F2]. apply Nat.eqb_eq in E1, E2, F1, F2.
      replace (key a) with (key e) by (rewrite (surjective_pairing (key e)), (surjective_pairing (key a)); congruence). apply in_map, I. }
    rewrite (Z val), (Z (fun e => val e * val e)). ring.
  - rewrite <- IH by exact N2. ring.
Qed.
Lemma unit_dot k a v : v3_dot a (unit_motion k v) = if Nat.eqb v (k / 3) then v3_get a (k mod 3) else 0.
Proof. unfold unit_motion. destruct a as [a0 a1 a2]. pose proof (Nat.mod_upper_bound k 3 ltac:(lia)) as M. destruct (Nat.eqb v (k / 3)); [|unfold v3_dot, v3_0; cbn [vx vy vz]; ring]. destruct (k mod 3) as [|[|[|r]]]; try lia; unfold v3_dot; cbn [unit_axis v3_get vx vy vz]; ring. Qed.
Lemma unit_cut m k : (k < 3 * m)%nat -> forall v, cut m (unit_motion k) v = unit_motion k v.
Proof. intros K v. unfold cut, active. destruct (Nat.ltb_spec v m) as [|L]; [reflexivity|]. unfold unit_motion. destruct (Nat.eqb_spec v (k / 3)) as [E|]; [pose proof (below_div m k K); lia|reflexivity]. Qed.
Lemma keys_combine {A B} : forall (l : list A) (r : list B), length r = length l -> map fst (combine l r) = l.
Proof. induction l as [|p l IH]; intros [|b r] E; try discriminate E; [reflexivity|]. injection E as E. cbn [combine map fst]. rewrite (IH r E). reflexivity. Qed.
Lemma product_unit g f m k nc : (k < 3 * m)%nat -> (forall p, In p (mp_pattern g) -> (snd p < nc)%nat) -> NoDup (mp_pattern g) -> length (mp_blocks g) = length (mp_pattern g) ->
  gbil (unit_motion k) (unit_motion k) (gradient_product g f m) = rsum (map (fun e => if Nat.eqb (fst (fst e)) (k / 3) then f (snd (fst e)) * (v3_get (snd e) (k mod 3) * v3_get (snd e) (k mod 3)) else 0) (stored g)).
Proof.
  intros K NC ND LB. rewrite (gradient_product_form g f m _ _ nc NC).
  assert (KS : map fst (stored g) = mp_pattern g) by (unfold stored; apply keys_combine; exact LB).
  rewrite (rsum_ext _ (fun j => f j * rsum (map (fun e => if andb (Nat.eqb (snd (fst e)) j) (Nat.eqb (fst (fst e)) (k / 3)) then v3_get (snd e) (k mod 3) * v3_get (snd e) (k mod 3) else 0) (stored g)))).
  2: { intros j _. f_equal. rewrite <- (one_key fst (fun e : nat * nat * v3 => v3_get (snd e) (k mod 3))) by (rewrite KS; exact ND).
    assert (E : col_rate g (cut m (unit_motion k)) j = rsum (map (fun e => if andb (Nat.eqb (snd (fst e)) j) (Nat.eqb (fst (fst e)) (k / 3)) then v3_get (snd e) (k mod 3) else 0) (stored g))).
    { unfold col_rate. apply rsum_ext. intros e _. rewrite (unit_cut m k K), unit_dot. destruct (Nat.eqb (snd (fst e)) j); reflexivity. }
    rewrite E. reflexivity. }
  rewrite (rsum_ext _ (fun j => rsum (map (fun e => if Nat.eqb (snd (fst e)) j then (if Nat.eqb (fst (fst e)) (k / 3) then f j * (v3_get (snd e) (k mod 3) * v3_get (snd e) (k mod 3)) else 0) else 0) (stored g)))).
  2: { intros j _. rewrite <- rsum_scale. apply rsum_ext. intros e _. destruct (Nat.eqb (snd (fst e)) j), (Nat.eqb (fst (fst e)) (k / 3)); cbn [andb]; ring. }
  rewrite rsum_swap. apply rsum_ext. intros [[r j] b] I. cbn [fst snd]. apply (seq_pick (fun j => if Nat.eqb r (k / 3) then f j * (v3_get b (k mod 3) * v3_get b (k mod 3)) else 0)). apply (NC (r, j)). exact (in_combine_l _ _ _ _ I).
Qed.
Lemma gradient_terms_ok h kappa delta dist m g : (forall p, In p (mp_pattern g) -> (snd p < length dist)%nat) ->
  exists T, gradient_terms h kappa delta dist m g = Some T /\ (forall t, In t T -> (fst t < 3 * m)%nat) /\
  forall k, (k < 3 * m)%nat -> term_sum T k = rsum (map (fun e => if Nat.eqb (fst (fst e)) (k / 3) then kappa * h * h * penalty_ddb delta (nth (snd (fst e)) dist 0) * v3_get (snd e) (k mod 3) * v3_get (snd e) (k mod 3) else 0) (stored g)).
Proof.
  intros NC. set (F := fun (row : nat) (e : nat * v3) => map (fun i => ((3 * row + i)%nat, kappa * h * h * penalty_ddb delta (nth (fst e) dist 0) * v3_get (snd e) i * v3_get (snd e) i)) [0; 1; 2]%nat).
  set (G := fun row => if Nat.ltb row m then flat_map (F row) (row_entries g row) else []).
  assert (E : gradient_terms h kappa delta dist m g = Some (flat_map G (stored_rows g))).
  { unfold gradient_terms. rewrite (all_some_map _ G); [cbn [option_map]; rewrite concat_map_flat; reflexivity|]. intros row _. unfold G. destruct (Nat.ltb row m); [|reflexivity]. rewrite (all_some_map _ (F row)); [cbn [option_map]; rewrite concat_map_flat; reflexivity|].
    intros [j b] I. unfold row_entries in I. apply in_map_iff in I. destruct I as ([[r j'] b'] & Q & I). cbn [fst snd] in Q. injection Q as -> ->. apply filter_In in I. destruct I as [I _]. apply in_combine_l in I. specialize (NC _ I). cbn [snd] in NC. cbn [fst snd].
    rewrite (nth_error_nth' dist 0) by exact NC. reflexivity. }
  exists (flat_map G (stored_rows g)). split; [exact E|]. split.
  - intros t H. apply in_flat_map in H. destruct H as (row & _ & H). unfold G in H. destruct (Nat.ltb_spec row m) as [L|]; [|destruct H]. apply in_flat_map in H. destruct H as (e & _ & H). unfold F in H. refine (triple_range row m _ t L H).
  - intros k K. rewrite term_sum_flat.
    transitivity (rsum (map (fun r => rsum (map (fun e => (fun r j b => if Nat.eqb r (k / 3) then kappa * h * h * penalty_ddb delta (nth j dist 0) * v3_get b (k mod 3) * v3_get b (k mod 3) else 0) r (fst e) (snd e)) (row_entries g r))) (filter (active m) (stored_rows g)))).
    + rewrite <- (rsum_filter (active m)). apply rsum_ext. intros r _. unfold G, active. destruct (Nat.ltb r m); [|apply term_sum_nil]. rewrite term_sum_flat. apply rsum_ext. intros e _. unfold F. rewrite triple_sum. reflexivity.
    + rewrite (rows_sum g m (fun r j b => if Nat.eqb r (k / 3) then kappa * h * h * penalty_ddb delta (nth j dist 0) * v3_get b (k mod 3) * v3_get b (k mod 3) else 0)). apply rsum_ext. intros [[r j] b] _. cbn [fst snd]. unfold active. destruct (Nat.eqb_spec r (k / 3)) as [->|]; [|destruct (Nat.ltb r m); reflexivity]. destruct (Nat.ltb_spec (k / 3) m) as [|L]; [reflexivity|]. pose proof (below_div m k K). lia.
Qed.
Lemma mixed_sides c n lam : contact_shape c n -> (forall v, In v (ct_surface c) -> ~ In v (ct_collider c)) -> forall h, In h (mixed_part c lam) -> fst (fst h) <> snd (fst h).
Proof.
  intros SH AP h H. pose proof SH as SH'. unfold mixed_part in H. destruct (ct_object_fixed c); [destruct H|]. unfold mixed_blocks in H. apply in_flat_map in H. destruct H as (p & Hp & H). apply in_map_iff in H. destruct H as (e & <- & He). cbn [fst snd].
  intros Q. apply (AP (sv c (fst e))); [|rewrite <- Q; apply (in_collider c n SH p Hp)]. unfold sv. apply nth_In. clear AP. destruct SH as (_ & _ & _ & _ & _ & _ & _ & _ & LS & _). rewrite LS. apply (hmix_below c n SH' p e Hp He).
Qed.
Lemma contact_terms_ok p c g : contact_ready (length (pb_pos p)) (pb_active p) (c, g) -> exists T, contact_terms p (c, g) = Some T /\ (forall t, In t T -> (fst t < 3 * pb_active p)%nat) /\
  ((forall v, In v (ct_surface c) -> ~ In v (ct_collider c)) -> forall k, (k < 3 * pb_active p)%nat -> term_sum T k = - (dqdv p * dqdv p) * matrix_entry (contact_entries (pb_active p) (c, g)) k k).
Proof.
  intros (SH & PL & EG & FX). set (n := length (pb_pos p)) in *. set (m := pb_active p) in *. set (h := dqdv p).
  assert (EG0 : g = build_distance_gradient (jacobian_rows c) n (constraint_size c)). { unfold reset_distance_gradient in EG. rewrite (jacobian_list c n SH) in EG. injection EG as <-. reflexivity. }
  set (dist := map (dpot c) (crows c)). set (lam := ContactHessProps.penalty_force c).
  assert (LD : length dist = constraint_size c) by (unfold dist; rewrite map_length; apply (rows_length c n SH)).
  assert (NC : forall p, In p (mp_pattern g) -> (snd p < length dist)%nat) by (intros q Hq; rewrite LD; rewrite EG0 in Hq; exact (built_columns _ _ _ _ Hq)).
  destruct (ContactHessProps.hessian_list c n g dist lam m SH NC) as (EV & _ & _). cbv zeta in EV.
  assert (ED : distance_potential c = Some dist) by apply (distances c n SH).
  assert (EM : contact_multipliers c = Some (map lam (crows c))). { unfold contact_multipliers. rewrite ED. cbn [option_map]. unfold multipliers, dist. rewrite map_map. reflexivity. }
  destruct (gradient_terms_ok h (ct_kappa c) (ct_delta c) dist m g NC) as (GT & EGT & RG & SG).
  exists (flat_map (diagonal_terms h m) (object_part c lam) ++ flat_map (diagonal_terms h m) (collider_part c lam) ++ GT). split.
  { unfold contact_terms. fold h m. rewrite ED. cbn [bind]. rewrite EM. cbn [bind]. rewrite (object_hessian_rows c n SH lam). cbn [bind]. rewrite (collider_hessian_rows c n SH lam). cbn [bind]. rewrite EGT. reflexivity. }
  split.
  { intros t H. apply in_app_or in H. destruct H as [H|H]; [exact (diagonal_range h m _ t H)|]. apply in_app_or in H. destruct H as [H|H]; [exact (diagonal_range h m _ t H)|apply RG, H]. }
  intros AP k K. unfold contact_entries. cbn [fst snd]. rewrite ED, EM, EV, matrix_entry_blocks, gbil_app, gbil_active, (gbil_ext _ _ (unit_motion k) (unit_motion k)) by (intros; split; apply unit_cut, K).
  rewrite gbil_app, mirrored_unit, gbil_app, (apart_unit k _ (mixed_sides c n lam SH AP)).
  assert (BC : built v3 v3_add v3_0 (fun q : pos => (Nat.ltb (fst q) n && Nat.ltb (snd q) (constraint_size c))%bool) (distance_triplets (jacobian_rows c)) g) by (rewrite EG0; apply (build_correct v3 v3_add v3_0 v3_monoid)).
  rewrite (product_unit g _ m k (length dist) K NC); [|apply pos_lt_NoDup; apply BC|apply BC].
  rewrite !term_sum_app, !(diagonal_all h m k) by exact K. rewrite (SG k K).
  replace (rsum (map (fun e => if Nat.eqb (fst (fst e)) (k / 3) then ct_kappa c * h * h * penalty_ddb (ct_delta c) (nth (snd (fst e)) dist 0) * v3_get (snd e) (k mod 3) * v3_get (snd e) (k mod 3) else 0) (stored g)))
    with (- (h * h) * rsum (map (fun e => if Nat.eqb (fst (fst e)) (k / 3) then - ct_kappa c * penalty_ddb (ct_delta c) (nth (snd (fst e)) dist 0) * (v3_get (snd e) (k mod 3) * v3_get (snd e) (k mod 3)) else 0) (stored g))).
  - ring.
  - rewrite <- rsum_scale. apply rsum_ext. intros e _. destruct (Nat.eqb (fst (fst e)) (k / 3)); ring.
Qed.

(** ** All constraints *)
Lemma lengths_first {A} k (l : list A) : (k <= length l)%nat -> length (firstn k l) = k.
Proof. intros H. rewrite firstn_length. lia. Qed.
Section Total.
Variable q : friction_problem.
Let p := fq_base q.
Hypothesis OK : problem_ok p.
Hypothesis AP : contacts_apart p.
Hypothesis LP : length (fq_parts q) = length (pb_contacts p).
Variable ft : friction_part -> nat -> R.
Hypothesis FT : forall f, In (Some f) (fq_parts q) -> exists T, friction_terms p f = Some T /\ (forall t, In t T -> (fst t < 3 * pb_active p)%nat) /\ forall k, (k < 3 * pb_active p)%nat -> term_sum T k = ft f k.
Lemma constraint_terms_ok e : In e (combine (pb_contacts p) (fq_parts q)) -> exists T, constraint_terms p e = Some T /\ (forall t, In t T -> (fst t < 3 * pb_active p)%nat) /\
  forall k, (k < 3 * pb_active p)%nat -> term_sum T k = - (dqdv p * dqdv p) * matrix_entry (contact_entries (pb_active p) (fst e)) k k + match snd e with None => 0 | Some f => ft f k end.
Proof.
  intros I. destruct e as [[c g] o]. pose proof (in_combine_l _ _ _ _ I) as I1. pose proof (in_combine_r _ _ _ _ I) as I2. assert (CR : contact_ready (length (pb_pos p)) (pb_active p) (c, g)) by (apply OK; exact I1).
  destruct (contact_terms_ok p c g CR) as (T & E & R1 & S1). specialize (S1 (AP _ I1)). unfold constraint_terms. cbn [fst snd]. rewrite E. cbn [bind]. destruct o as [f|].
  - destruct (FT f I2) as (T2 & E2 & R2 & S2). exists (T ++ T2). rewrite E2. split; [reflexivity|]. split; [intros t H; apply in_app_or in H; destruct H; [apply R1|apply R2]; assumption|]. intros k K. rewrite term_sum_app, (S1 k K), (S2 k K). reflexivity.
  - exists T. split; [reflexivity|]. split; [exact R1|]. intros k K. rewrite (S1 k K). ring.
Qed.
Lemma all_terms_ok (l : list (contact * mapped v3 * option friction_part)) : (forall e, In e l -> In e (combine (pb_contacts p) (fq_parts q))) -> exists Ts, all_some (map (constraint_terms p) l) = Some Ts /\ (forall t, In t (concat Ts) -> (fst t < 3 * pb_active p)%nat) /\
  forall k, (k < 3 * pb_active p)%nat -> term_sum (concat Ts) k = rsum (map (fun e => - (dqdv p * dqdv p) * matrix_entry (contact_entries (pb_active p) (fst e)) k k + match snd e with None => 0 | Some f => ft f k end) l).
Proof.
  induction l as [|e l IH]; intros H.
  - exists []. split; [reflexivity|]. split; [intros t []|]. intros k _. cbn [concat map]. rewrite term_sum_nil, rsum_nil. reflexivity.
  - destruct (constraint_terms_ok e (H e (or_introl eq_refl))) as (T & E & R1 & S1). destruct IH as (Ts & E2 & R2 & S2); [intros x I; apply H; right; exact I|]. exists (T :: Ts). cbn [map all_some]. rewrite E, E2. split; [reflexivity|]. cbn [concat].
    split; [intros t I; apply in_app_or in I; destruct I; [apply R1|apply R2]; assumption|]. intros k K. rewrite term_sum_app, (S1 k K), (S2 k K), rsum_cons. reflexivity.
Qed.
Lemma sum_pairs {A B} (f : A -> R) (g : B -> R) : forall l r, length l = length r -> rsum (map (fun e => f (fst e) + g (snd e)) (combine l r)) = rsum (map f l) + rsum (map g r).
Proof. induction l as [|a l IH]; intros [|b r] E; try discriminate E; [cbn [combine map]; rewrite !rsum_nil; ring|]. injection E as E. cbn [combine map fst snd]. rewrite !rsum_cons, (IH r E). ring. Qed.
Lemma physical_ok : exists d, physical_diagonal q = Some d /\ length d = (3 * pb_active p)%nat /\
  forall k, (k < 3 * pb_active p)%nat -> nth k d 0 = matrix_entry (lower_entries p ++ off_entries (lower_entries p)) k k - dqdv p * dqdv p * rsum (map (fun cg => matrix_entry (contact_entries (pb_active p) cg) k k) (pb_contacts p)) + rsum (map (fun o => match o with None => 0 | Some f => ft f k end) (fq_parts q)).
Proof.
  destruct (diagonal_ok p OK) as (d0 & E0 & L0 & D0). destruct (all_terms_ok _ (fun e I => I)) as (Ts & E1 & R1 & S1). assert (LM : (pb_active p <= length (pb_pos p))%nat) by apply OK.
  assert (LF : length (firstn (3 * pb_active p) d0) = (3 * pb_active p)%nat) by (apply lengths_first; lia).
  destruct (entries_added (concat Ts) (firstn (3 * pb_active p) d0)) as (d & E2 & L2 & D2); [intros t I; rewrite LF; apply R1, I|]. exists d. unfold physical_diagonal. cbv zeta. fold p. change (pb_size p) with (length (pb_pos p)). rewrite E0. cbn [bind]. rewrite E1. cbn [bind].
  split; [exact E2|]. split; [congruence|]. intros k K. rewrite D2, (S1 k K), nth_first by exact K. rewrite D0 by lia. rewrite entry_app, off_entry.
  rewrite (sum_pairs (fun cg => - (dqdv p * dqdv p) * matrix_entry (contact_entries (pb_active p) cg) k k) (fun o => match o with None => 0 | Some f => ft f k end)) by (symmetry; exact LP). rewrite rsum_scale. ring.
Qed.
End Total.
