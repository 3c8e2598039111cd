(** Proofs about assembled friction: the operators of a state written with the rows of the contact matrices. *)
From Coq Require Import Reals List Bool Lra Lia Sorting.Sorted.
From Coquelicot Require Import Coquelicot.
From Verif Require Import Vec3 Mat3 RList KernelModel KernelSpec FieldModel FieldSpec FieldProofs NeighborModel NeighborSpec NeighborProofs UpdateProps SurfJacModel SurfJacSpec SurfJacProofs HessModel HessSpec HessMixProofs ContactModel ContactJacModel ContactJacSpec ContactJacProps ContactMapModel ContactMapSpec ContactMapProofs
  AssemblyModel ContactAsmModel ContactAsmSpec ContactAsmProofs ContactAsmProps ContactDerivModel ContactDerivSpec ContactDerivRowProofs ContactDerivProps BasisJacModel BasisJacSpec BasisJacProofs
  ContactHessModel ContactHessSpec ContactHessProofs ContactRowProofs ContactMoveProofs FrictionModel FricAsmModel FricAlgProofs FricCurveProofs FricStateProofs.
Import ListNotations.
Local Open Scope R_scope.

Lemma pairing_spike n f i cc : (i < n)%nat -> pairing n f (spike i cc) = v3_dot (f i) (unit3 cc).
Proof.
  intros L. unfold pairing. rewrite (rsum_ext _ (fun j => if Nat.eqb j i then v3_dot (f j) (unit3 cc) else 0)).
  - rewrite (pick_by (fun j => j) (fun j => v3_dot (f j) (unit3 cc)) i (seq 0 n)); [reflexivity|rewrite map_id; apply seq_NoDup|apply in_seq; lia].
  - intros j _. unfold spike. destruct (Nat.eqb j i); [reflexivity|apply dot_0_r].
Qed.
Lemma pairing_eq n f g : (forall v, length v = n -> pairing n f (fun i => nth i v v3_0) = pairing n g (fun i => nth i v v3_0)) -> forall i, (i < n)%nat -> f i = g i.
Proof.
  intros H i L. assert (K : forall cc, v3_dot (f i) (unit3 cc) = v3_dot (g i) (unit3 cc)).
  { intros cc. specialize (H (map (spike i cc) (seq 0 n))). rewrite map_length, seq_length in H. specialize (H eq_refl). rewrite <- !(pairing_spike n _ i cc L).
    assert (E : forall h, pairing n h (fun j => nth j (map (spike i cc) (seq 0 n)) v3_0) = pairing n h (spike i cc)). { intros h. unfold pairing. apply rsum_ext. intros j J. apply in_seq in J. rewrite (nth_indep _ v3_0 (spike i cc 0%nat)) by (rewrite map_length, seq_length; lia). rewrite map_nth, seq_nth by lia. reflexivity. }
    rewrite <- !E. exact H. }
  pose proof (K 0%nat) as K0. pose proof (K 1%nat) as K1. pose proof (K 2%nat) as K2. destruct (f i) as [f0 f1 f2]. destruct (g i) as [g0 g1 g2]. cbv [v3_dot unit3 vx vy vz] in *. f_equal; lra.
Qed.
Lemma nth_map_seq {A} (f : nat -> A) (d : A) N k : (k < N)%nat -> nth k (map f (seq 0 N)) d = f k.
Proof. intros L. rewrite (nth_indep _ d (f 0%nat)) by (rewrite map_length, seq_length; exact L). rewrite map_nth, seq_nth by exact L. reflexivity. Qed.
Lemma for_filled_nth t (l : list v3) k : length l = length (filled t) -> (k < length (filled t))%nat -> for_filled t l (nth k (filled t) 0%nat) = nth k l v3_0.
Proof.
  intros LL K. pose proof (for_filled_combine t l LL) as E. assert (N : nth k (combine (filled t) l) (0%nat, v3_0) = nth k (map (fun r => (r, for_filled t l r)) (filled t)) (0%nat, v3_0)) by (rewrite E; reflexivity).
  rewrite combine_nth in N by (symmetry; exact LL). rewrite (nth_indep (map _ _) (0%nat, v3_0) ((fun r => (r, for_filled t l r)) 0%nat)) in N by (rewrite map_length; exact K). rewrite (map_nth (fun r => (r, for_filled t l r))) in N. injection N as N. symmetry. exact N.
Qed.
Lemma matrices_rows t qs L : sb_type (q_base t) = SFace -> well_formed (q_base t) -> indices_ok t -> length qs = length (trivial_neighborhood t) -> contact_matrices t qs = Some L -> forall e, In e L -> In (fst (fst e)) (filled t).
Proof. intros TY WF IOK LQ E e I. rewrite (matrices_flat t qs TY WF IOK LQ) in E. injection E as <-. apply in_flat_map in I. destruct I as (r & Hr & I). apply in_flat_map in I. destruct I as (i & _ & I). apply in_map_iff in I. destruct I as (col & <- & _). exact Hr. Qed.

Section Act.
Variable iamax : v3 -> nat.
Variable ord : list nat -> list nat.
Hypothesis OK : lists_the_set ord.
Variable c : contact.
Variable n : nat.
Hypothesis SH : contact_shape c n.
Let t := ct_topo c.
Let b := cbase c.
Let N := length (filled t).
Let nv := length (sb_verts b).
Let act k := nth k (filled t) 0%nat.
(** The transposed contact matrices applied to one vector for every contact, at vertex [i] of the mesh. *)
Definition push_form (L : blocks) (y : nat -> v3) (i : nat) : v3 :=
  v3_sub (vsum (map (fun v => if Nat.eqb (sv c v) i then transposed_product L (for_filled t (map y (seq 0 N))) v else v3_0) (seq 0 nv)))
         (vsum (map (fun k => if Nat.eqb (cv c (act k)) i then y k else v3_0) (seq 0 N))).
Definition pull_form (L : blocks) (U : nat -> v3) (k : nat) : v3 := v3_sub (block_product L (fun v => U (sv c v)) (act k)) (U (cv c (act k))).
Lemma vsum_sub {A} (f g : A -> v3) l : vsum (map (fun a => v3_sub (f a) (g a)) l) = v3_sub (vsum (map f l)) (vsum (map g l)).
Proof. induction l as [|a l IH]; [apply v3_eq; unv; cbn; ring|]. cbn [map]. rewrite !vsum_cons, IH. generalize (vsum (map f l)) (vsum (map g l)) (f a) (g a). intros x y z w. apply v3_eq; unv; ring. Qed.
Section Full.
Variable inv : list (option nat).
Variable L : blocks.
Hypothesis IN : forall r k, nth r inv None = Some k <-> nth_error (filled t) k = Some r.
Hypothesis EL : contact_matrices t (ct_points c) = Some L.
Let F := filter (within_size N n) (flat_map (chosen inv (fun v => nth v (ct_surface c) 0%nat)) L ++ map (fun p => (fst p, nth (snd p) (ct_collider c) 0%nat, m3_scale (-1) m3_I)) (combine (seq 0 N) (filled t))).
Lemma combine_act : combine (seq 0 N) (filled t) = map (fun k => (k, act k)) (seq 0 N).
Proof.
  apply (nth_ext _ _ (0%nat, 0%nat) (0%nat, 0%nat)); [rewrite combine_length, map_length, seq_length; unfold N; lia|]. intros k K. rewrite combine_length, seq_length in K. assert (K' : (k < N)%nat) by (unfold N in *; lia).
  rewrite combine_nth by (rewrite seq_length; reflexivity). rewrite nth_map_seq by exact K'. rewrite seq_nth by exact K'. reflexivity.
Qed.
Lemma row_inverse r : In r (filled t) -> exists k, (k < N)%nat /\ nth r inv None = Some k /\ act k = r.
Proof. intros I. apply In_nth_error in I. destruct I as [k E]. exists k. assert (K : (k < N)%nat) by (apply nth_error_Some; unfold N; rewrite E; discriminate). refine (conj K (conj _ _)); [apply IN, E|apply nth_error_nth, E]. Qed.
Lemma all_fit : F = flat_map (chosen inv (sv c)) L ++ map (fun k => (k, cv c (act k), m3_scale (-1) m3_I)) (seq 0 N).
Proof.
  unfold F. rewrite combine_act, map_map. cbn [fst snd]. apply filter_all. intros e I. apply in_app_or in I. unfold within_size. apply andb_true_intro. destruct I as [I|I].
  - apply in_flat_map in I. destruct I as ([[r col] M] & J & I). unfold chosen in I. destruct (nth r inv None) as [k|] eqn:EK; [|destruct I]. destruct I as [<-|[]]. cbn [fst snd]. apply IN in EK. assert (K : (k < N)%nat) by (apply nth_error_Some; unfold N; rewrite EK; discriminate).
    split; apply Nat.ltb_lt; [exact K|]. apply (vertex_range c n SH). left. apply nth_In. rewrite (LSV c n SH). apply (proj2 (matrices_range t (ct_points c) L (WF c n SH) (IOK c n SH) (LPN c n SH) EL) r col M J).
  - apply in_map_iff in I. destruct I as (k & <- & K). apply in_seq in K. cbn [fst snd]. split; apply Nat.ltb_lt; [lia|]. apply (vertex_range c n SH). right. apply nth_In. rewrite (LCV c n SH). apply (filled_range c n SH). apply nth_In. unfold N in K. fold t. lia.
Qed.
Lemma push_row y i : block_product (gradient_triplets F) y i = push_form L y i.
Proof.
  rewrite all_fit. unfold gradient_triplets, block_product, push_form. rewrite map_app, map_app, vsum_app. rewrite !map_map.
  match goal with |- v3_add ?a ?b = v3_sub ?x ?y => assert (E1 : a = x); [|assert (E2 : b = v3_scale (-1) y); [|rewrite E1, E2; generalize x y; intros p q; apply v3_eq; unv; ring]] end.
  - rewrite vsum_flat. unfold transposed_product.
    rewrite (vsum_ext _ (fun v => vsum (map (fun e : nat * nat * m3 => if Nat.eqb (snd (fst e)) v then if Nat.eqb (sv c v) i then m3_mulv (m3_transpose (snd e)) (for_filled t (map y (seq 0 N)) (fst (fst e))) else v3_0 else v3_0) L)) (seq 0 nv)).
    2:{ intros v _. destruct (Nat.eqb (sv c v) i); [apply vsum_ext; intros [[r col] M] _; reflexivity|]. symmetry. apply ContactAsmProofs.vsum_zero. intros [[r col] M] _. cbn [fst snd]. destruct (Nat.eqb col v); reflexivity. }
    rewrite vsum_swap. apply vsum_ext. intros [[r col] M] I. cbn [fst snd chosen].
    assert (R1 := matrices_rows t (ct_points c) L (TY c n SH) (WF c n SH) (IOK c n SH) (LPN c n SH) EL _ I). assert (R2 := proj2 (proj2 (matrices_range t (ct_points c) L (WF c n SH) (IOK c n SH) (LPN c n SH) EL) r col M I)). cbn [fst snd] in R1.
    rewrite (vsum_pick (fun v => if Nat.eqb (sv c v) i then m3_mulv (m3_transpose M) (for_filled t (map y (seq 0 N)) r) else v3_0) col (seq 0 nv)); [|apply seq_NoDup|apply in_seq; split; [lia|exact R2]].
    destruct (row_inverse r R1) as (k & K & -> & A). cbn [map]. rewrite vsum_cons. change (vsum []) with v3_0. rewrite add_0_r. assert (EY : for_filled t (map y (seq 0 N)) r = y k) by (rewrite <- A; unfold act; rewrite for_filled_nth; [apply nth_map_seq; exact K|rewrite map_length, seq_length; reflexivity|exact K]). rewrite EY. reflexivity.
  - rewrite <- vsum_scale. apply vsum_ext. intros k _. cbn [fst snd]. destruct (Nat.eqb (cv c (act k)) i); [|symmetry; apply scale_0_r]. generalize (y k). intros z. destruct z as [a0 a1 a2]. apply v3_eq; cbv [m3_mulv m3_transpose m3_scale m3_I v3_dot v3_scale r0 r1 r2 vx vy vz]; ring.
Qed.
Lemma pull_row U k : (k < N)%nat -> (forall i, (n <= i)%nat -> U i = v3_0) -> block_product F U k = pull_form L U k.
Proof. intros K Z. unfold F, pull_form. exact (full_product (filled t) inv (fun v => nth v (ct_surface c) 0%nat) (fun v => nth v (ct_collider c) 0%nat) n L U k IN K Z). Qed.
End Full.

Variable s : friction_state.
Hypothesis D : described iamax ord c n s.
Lemma state_order : in_order (mp_pattern (fs_gradient s)) /\ in_order (mp_pattern (fs_distance s)).
Proof.
  destruct D as (_ & _ & D3 & _ & D5 & _ & _ & D8 & _). split.
  - unfold build_gradient in D5. fold t in D3, D5. rewrite D3 in D5. match type of D5 with option_map _ ?x = _ => destruct x as [F|] end; [|discriminate]. injection D5 as <-. apply build_correct. exact m3_monoid.
  - rewrite D8. apply build_correct. exact v3_monoid.
Qed.
Lemma state_action : exists L, contact_matrices t (ct_points c) = Some L /\
  (forall U k, (k < N)%nat -> (forall i, (n <= i)%nat -> U i = v3_0) -> block_product (transposed (entries (fs_gradient s))) U k = pull_form L U k) /\
  (forall y i, block_product (entries (fs_gradient s)) y i = push_form L y i) /\
  forall v, length v = n -> contact_mul (friction_maps s) v = map (pull_form L (at3 v)) (seq 0 N).
Proof.
  destruct D as (D1 & D2 & D3 & D4 & D5 & _). fold t in D2, D3, D4, D5.
  destruct (full_form t (ct_points c) (filled t) (ct_surface c) (ct_collider c) n (WF c n SH) (IOK c n SH) (LPN c n SH) (filled_nodup c) (filled_range c n SH) (LSV c n SH) (LCV c n SH)) as (inv & L & EI & IN & EL & EF).
  exists L. split; [exact EL|]. unfold build_gradient in D5. rewrite EI, EF in D5. cbn [option_map] in D5. injection D5 as <-. refine (conj _ (conj _ _)).
  - intros U k K Z. rewrite built_transposed, transposed_gradient. apply (pull_row inv L IN U k K Z).
  - intros y i. rewrite built_product. apply (push_row inv L IN EL).
  - intros v LV. destruct (full_jacobian_is_relative_velocity t (ct_points c) (filled t) (ct_surface c) (ct_collider c) n (fs_jacobian s) (WF c n SH) (IOK c n SH) (LPN c n SH) (filled_nodup c) (filled_range c n SH) (LSV c n SH) (LCV c n SH) (fun i I => vertex_range c n SH i (or_introl I)) (fun i I => vertex_range c n SH i (or_intror I)) D4) as (inv' & F' & EI' & EF' & P).
    rewrite EI in EI'. injection EI' as <-. rewrite EF in EF'. injection EF' as <-. unfold friction_maps. rewrite D1, D2. fold t. etransitivity; [exact (P v LV)|]. apply map_ext_in. intros k K. apply in_seq in K. apply (pull_row inv L IN); [lia|]. intros i I. apply nth_overflow. lia.
Qed.
Hypothesis AP : NoDup (ct_collider c) /\ forall v, In v (ct_surface c) -> ~ In v (ct_collider c).
Lemma force_action vc i : length vc = N -> (i < n)%nat -> nth i (contact_tmul (friction_maps s) vc n) v3_0 = block_product (entries (fs_gradient s)) (fun k => nth k vc v3_0) i.
Proof.
  intros LV. revert i. destruct D as (D1 & D2 & D3 & D4 & D5 & _). fold t in D2, D3, D4, D5.
  destruct (contact_gradient_adjoint t (ct_points c) (filled t) (ct_surface c) (ct_collider c) n (fs_jacobian s) (WF c n SH) (IOK c n SH) (LPN c n SH) (filled_nodup c) (filled_range c n SH) (LSV c n SH) (LCV c n SH) (fun i I => vertex_range c n SH i (or_introl I)) (fun i I => vertex_range c n SH i (or_intror I)) D4) as (g & EG & _ & P).
  rewrite D5 in EG. injection EG as <-.
  apply (pairing_eq n (fun i => nth i (contact_tmul (friction_maps s) vc n) v3_0)). intros v Lv. etransitivity; [|exact (P v (fun k => nth k vc v3_0) Lv)].
  assert (E : friction_maps s = {| cm_matrix := stored (fs_jacobian s); cm_constrained := filled t; cm_surface := ct_surface c; cm_collider := ct_collider c |}) by (unfold friction_maps; rewrite D1, D2; reflexivity). rewrite E.
  destruct (contact_jacobian_built t (ct_points c) (filled t) (WF c n SH) (IOK c n SH) (LPN c n SH) (filled_nodup c) (filled_range c n SH)) as (L & m & _ & EM & _ & RG & _). rewrite D4 in EM. injection EM as <-.
  match goal with |- _ = pairing ?k ?f ?g => transitivity (inner N (contact_mul {| cm_matrix := stored (fs_jacobian s); cm_constrained := filled t; cm_surface := ct_surface c; cm_collider := ct_collider c |} v) vc) end.
  - symmetry. etransitivity; [apply (contact_jacobian_transpose_is_adjoint {| cm_matrix := stored (fs_jacobian s); cm_constrained := filled t; cm_surface := ct_surface c; cm_collider := ct_collider c |} v vc n)|].
    + unfold maps_in_range. cbn [cm_matrix cm_constrained cm_surface cm_collider]. refine (conj _ (conj _ (conj _ _))).
      * intros [[r col] M] I. apply in_combine_l in I. rewrite (LSV c n SH). apply RG, I.
      * intros i I. apply (vertex_range c n SH). left. exact I.
      * intros i I. apply (vertex_range c n SH). right. exact I.
      * intros i I. rewrite (LCV c n SH). apply (filled_range c n SH), I.
    + unfold maps_separate. cbn [cm_matrix cm_constrained cm_surface cm_collider]. refine (conj _ (conj (proj1 AP) (conj (filled_nodup c) (proj2 AP)))).
      assert (SS : StronglySorted lt (ct_surface c)) by apply SH. clear - SS. induction SS as [|a l S IH F]; constructor; [|exact IH]. intros I. rewrite List.Forall_forall in F. specialize (F a I). lia.
    + exact Lv.
    + exact LV.
    + unfold inner, pairing, at3. apply rsum_ext. intros i _. unfold v3_dot; ring.
  - unfold inner, pairing, at3. apply rsum_ext. intros i _. unfold v3_dot; ring.
Qed.
End Act.
