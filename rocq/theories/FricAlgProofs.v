(** Proofs about assembled friction: products of sparse block matrices. *)
From Coq Require Import Reals List Bool Lra Lia Sorting.Sorted.
From Coquelicot Require Import Coquelicot.
From Verif Require Import Vec3 Mat3 RList KernelModel FieldModel FieldSpec FieldProofs NeighborModel SurfJacProofs HessModel HessMixProofs ContactModel ContactJacModel ContactMapSpec ContactMapProofs
  AssemblyModel ContactAsmModel ContactAsmSpec ContactAsmProofs ContactAsmProps ContactDerivModel ContactDerivSpec ContactDerivRowProofs BasisJacModel BasisJacProofs ContactHessModel ContactHessProofs FrictionModel FricAsmModel.
Import ListNotations.
Local Open Scope R_scope.

Notation blocks := (list (nat * nat * m3)).
Lemma add_0_l a : v3_add v3_0 a = a.
Proof. dv a. apply v3_eq; cbv [v3_add v3_0 vx vy vz]; ring. Qed.
Lemma add_0_r a : v3_add a v3_0 = a.
Proof. dv a. apply v3_eq; cbv [v3_add v3_0 vx vy vz]; ring. Qed.
Lemma scale_0_l a : v3_scale 0 a = v3_0.
Proof. dv a. apply v3_eq; cbv [v3_scale v3_0 vx vy vz]; ring. Qed.
Lemma scale_0_r s : v3_scale s v3_0 = v3_0.
Proof. apply v3_eq; cbv [v3_scale v3_0 vx vy vz]; ring. Qed.
Lemma zero_mulv v : m3_mulv m3_zero v = v3_0.
Proof. dv v. apply v3_eq; cbv [m3_mulv m3_zero v3_0 v3_dot r0 r1 r2 vx vy vz]; ring. Qed.
Lemma transpose_twice B : m3_transpose (m3_transpose B) = B.
Proof. destruct B as [[? ? ?] [? ? ?] [? ? ?]]. reflexivity. Qed.
Lemma vsum_filter {A} (p : A -> bool) (f : A -> v3) l : vsum (map f (filter p l)) = vsum (map (fun a => if p a then f a else v3_0) l).
Proof. induction l as [|a l IH]; [reflexivity|]. cbn [filter map]. rewrite vsum_cons, <- IH. destruct (p a); cbn [map]; [apply vsum_cons|symmetry; apply add_0_l]. Qed.
Lemma vsum_swap {A B} (f : A -> B -> v3) la lb : vsum (map (fun a => vsum (map (f a) lb)) la) = vsum (map (fun b => vsum (map (fun a => f a b) la)) lb).
Proof.
  induction la as [|a la IH]; cbn [map].
  - symmetry. apply ContactAsmProofs.vsum_zero. reflexivity.
  - rewrite vsum_cons, IH, <- vsum_plus. apply vsum_ext. intros b _. rewrite vsum_cons. reflexivity.
Qed.
Lemma mulv_vsum B {A} (f : A -> v3) l : m3_mulv B (vsum (map f l)) = vsum (map (fun a => m3_mulv B (f a)) l).
Proof. induction l as [|a l IH]; cbn [map]; [apply mulv_0|]. rewrite !vsum_cons, SurfJacProofs.mulv_add, IH. reflexivity. Qed.
Lemma block_ext L x y r : (forall e, In e L -> fst (fst e) = r -> x (snd (fst e)) = y (snd (fst e))) -> block_product L x r = block_product L y r.
Proof. intros H. unfold block_product. apply vsum_ext. intros [[i j] B] I. destruct (Nat.eqb_spec i r) as [E|]; [|reflexivity]. specialize (H _ I E). cbn [fst snd] in H. rewrite H. reflexivity. Qed.
Lemma block_add L x y r : block_product L (fun j => v3_add (x j) (y j)) r = v3_add (block_product L x r) (block_product L y r).
Proof. unfold block_product. rewrite <- vsum_plus. apply vsum_ext. intros [[i j] B] _. destruct (Nat.eqb i r); [apply SurfJacProofs.mulv_add|symmetry; apply add_0_l]. Qed.
Lemma mulv_scale_r a B x : m3_mulv B (v3_scale a x) = v3_scale a (m3_mulv B x).
Proof. dm B. dv x. apply v3_eq; cbv [m3_mulv v3_dot v3_scale r0 r1 r2 vx vy vz]; ring. Qed.
Lemma block_scale L a x r : block_product L (fun j => v3_scale a (x j)) r = v3_scale a (block_product L x r).
Proof. unfold block_product. rewrite <- vsum_scale. apply vsum_ext. intros [[i j] B] _. destruct (Nat.eqb i r); [apply mulv_scale_r|symmetry; apply scale_0_r]. Qed.
Lemma block_zero L r : block_product L (fun _ => v3_0) r = v3_0.
Proof. unfold block_product. apply ContactAsmProofs.vsum_zero. intros [[i j] B] _. destruct (Nat.eqb i r); [apply mulv_0|reflexivity]. Qed.
Lemma block_flat {A} (f : A -> blocks) l x r : block_product (flat_map f l) x r = vsum (map (fun a => block_product (f a) x r) l).
Proof. unfold block_product. apply vsum_flat. Qed.

Lemma built_product (T : blocks) x r : block_product (entries (from_triplets m3_add m3_zero (fun _ => true) T)) x r = block_product T x r.
Proof. apply product_built. apply build_correct. exact m3_monoid. Qed.
Lemma transposed_gradient (F : blocks) : transposed (gradient_triplets F) = F.
Proof. unfold transposed, gradient_triplets. rewrite map_map. rewrite <- (map_id F) at 2. apply map_ext. intros [[i j] B]. rewrite transpose_twice. reflexivity. Qed.
Lemma transposed_twice (F : blocks) : transposed (transposed F) = F.
Proof. exact (transposed_gradient F). Qed.
Lemma built_transposed (T : blocks) x r : block_product (transposed (entries (from_triplets m3_add m3_zero (fun _ => true) T))) x r = block_product (transposed T) x r.
Proof.
  pose (h := fun (p : pos) (M : m3) => if Nat.eqb (snd p) r then m3_mulv (m3_transpose M) (x (fst p)) else v3_0).
  assert (F : forall L : list (pos * m3), block_product (transposed L) x r = vsum (map (fun e => h (fst e) (snd e)) L)) by (intros L; unfold block_product, transposed, h; rewrite map_map; f_equal; apply map_ext; intros [[i j] M]; reflexivity).
  rewrite !F. unfold entries. change (combine ?a ?b) with (stored (from_triplets m3_add m3_zero (fun _ => true) T)).
  rewrite (operator_built m3 m3_add m3_zero h) with (keep := fun _ => true) (T := T); [rewrite filter_all by reflexivity; reflexivity| | |apply build_correct; exact m3_monoid].
  - intros p a b. unfold h. destruct (Nat.eqb (snd p) r); [|symmetry; apply add_0_l]. generalize (x (fst p)). intros y. dm a. dm b. dv y. apply v3_eq; cbv [m3_mulv m3_transpose m3_add v3_dot v3_add r0 r1 r2 vx vy vz]; ring.
  - intros p. unfold h. destruct (Nat.eqb (snd p) r); [|reflexivity]. generalize (x (fst p)). intros y. dv y. apply v3_eq; cbv [m3_mulv m3_transpose m3_zero v3_dot v3_0 r0 r1 r2 vx vy vz]; ring.
Qed.
Lemma product_terms_apply (L M : blocks) x r : block_product (product_terms L M) x r = block_product L (block_product M x) r.
Proof.
  unfold product_terms. rewrite block_flat. unfold block_product at 2. apply vsum_ext. intros [[i k] A] _. cbn [fst snd].
  unfold block_product at 1. rewrite map_map, vsum_filter.
  destruct (Nat.eqb_spec i r) as [E|E].
  - unfold block_product. rewrite mulv_vsum. apply vsum_ext. intros [[k' j] B] _. cbn [fst snd]. rewrite (Nat.eqb_sym k'). destruct (Nat.eqb k k'); [|rewrite mulv_0; reflexivity]. apply mulv_mul.
  - apply ContactAsmProofs.vsum_zero. intros [[k' j] B] _. cbn [fst snd]. destruct (Nat.eqb k k'); reflexivity.
Qed.
Lemma matrix_product_apply (L M : blocks) x r : block_product (matrix_product L M) x r = block_product L (block_product M x) r.
Proof. unfold matrix_product. rewrite built_product. apply product_terms_apply. Qed.
Lemma premultiply_apply D (L : blocks) x k : block_product (premultiply D L) x k = m3_mulv (nth k D m3_zero) (block_product L x k).
Proof.
  unfold premultiply, block_product. rewrite map_map, mulv_vsum. apply vsum_ext. intros [[i j] B] _. destruct (Nat.eqb_spec i k) as [E|]; [|symmetry; apply mulv_0]. rewrite E. apply mulv_mul.
Qed.
Lemma scaled_apply a (L : blocks) x r : block_product (scaled a L) x r = v3_scale a (block_product L x r).
Proof. unfold scaled, block_product. rewrite map_map, <- vsum_scale. apply vsum_ext. intros [[i j] B] _. cbn [fst snd]. destruct (Nat.eqb i r); [apply mulv_scale|symmetry; apply scale_0_r]. Qed.
Lemma transposed_filter p (F : blocks) : transposed (filter p F) = filter (fun e => p (snd (fst e), fst (fst e), m3_transpose (snd e))) (transposed F).
Proof. induction F as [|[[i j] B] F IH]; [reflexivity|]. cbn [filter transposed map]. cbn [fst snd]. rewrite transpose_twice. destruct (p (i, j, B)); cbn [transposed map]; [f_equal; exact IH|exact IH]. Qed.
Lemma within_apply m (L : blocks) x r : (r < m)%nat -> (forall j, (m <= j)%nat -> x j = v3_0) ->
  block_product (filter (fun e => andb (Nat.ltb (fst (fst e)) m) (Nat.ltb (snd (fst e)) m)) L) x r = block_product L x r.
Proof.
  intros R Z. apply product_filter. intros [[i j] B] _ F. cbn [fst snd] in *. destruct (Nat.ltb_spec i m); [|left; lia]. cbn in F. apply Nat.ltb_ge in F. right. apply Z, F.
Qed.
Lemma below_apply m (L : blocks) x r : (forall j, (m <= j)%nat -> x j = v3_0) -> block_product (filter (fun e => Nat.ltb (snd (fst e)) m) L) x r = block_product L x r.
Proof. intros Z. apply product_filter. intros [[i j] B] _ F. cbn [fst snd] in *. apply Nat.ltb_ge in F. right. apply Z, F. Qed.

(** ** The loop over two sorted rows *)
Definition ascending {A} (l : list (nat * A)) : Prop := StronglySorted (fun a b => (fst a < fst b)%nat) l.
Definition matches {A B} (l : list (nat * A)) (r : list (nat * B)) : list (nat * (A * B)) :=
  flat_map (fun a => map (fun b => (fst a, (snd a, snd b))) (filter (fun b => Nat.eqb (fst a) (fst b)) r)) l.
Lemma matches_cons {A B} a (l : list (nat * A)) (r : list (nat * B)) : matches (a :: l) r = map (fun b => (fst a, (snd a, snd b))) (filter (fun b => Nat.eqb (fst a) (fst b)) r) ++ matches l r.
Proof. reflexivity. Qed.
Lemma matches_skip {A B} (l : list (nat * A)) (b : nat * B) r : (forall a, In a l -> fst a <> fst b) -> matches l (b :: r) = matches l r.
Proof.
  induction l as [|a l IH]; intros H; [reflexivity|]. rewrite !matches_cons, IH by (intros x I; apply H; right; exact I). cbn [filter].
  assert (E : Nat.eqb (fst a) (fst b) = false) by (apply Nat.eqb_neq, H; left; reflexivity). rewrite E. reflexivity.
Qed.
Lemma filter_none {A} (p : A -> bool) l : (forall a, In a l -> p a = false) -> filter p l = [].
Proof. induction l as [|a l IH]; intros H; [reflexivity|]. cbn [filter]. rewrite (H a) by (left; reflexivity). apply IH. intros b I. apply H. right. exact I. Qed.
Lemma merge_matches {A B} : forall (l : list (nat * A)) (r : list (nat * B)), ascending l -> ascending r -> merge_rows l r = matches l r.
Proof.
  induction l as [|[i a] l IH]; intros r SL SR; [reflexivity|]. inversion_clear SL as [|? ? SL' FL]. rewrite Forall_forall in FL. cbn [fst] in FL.
  induction r as [|[j b] r IHr].
  - cbn [merge_rows]. unfold matches. cbn [flat_map filter map app]. clear. induction l as [|x l IH]; [reflexivity|exact IH].
  - assert (SR2 := SR). inversion_clear SR as [|? ? SR' FR]. rewrite Forall_forall in FR. cbn [fst] in FR. cbn [merge_rows]. destruct (Nat.compare_spec j i) as [E|E|E].
    + subst j. rewrite matches_cons. cbn [filter fst snd]. rewrite Nat.eqb_refl. rewrite (filter_none _ r) by (intros x I; apply Nat.eqb_neq; specialize (FR x I); lia). cbn [map app fst snd]. f_equal.
      rewrite matches_skip by (intros x I; specialize (FL x I); cbn [fst]; lia). apply IH; assumption.
    + etransitivity; [exact (IHr SR')|]. symmetry. apply matches_skip. intros x [<-|I]; cbn [fst]; [lia|]. specialize (FL x I). lia.
    + rewrite IH by assumption. rewrite matches_cons. cbn [fst snd]. rewrite (filter_none _ ((j, b) :: r)); [reflexivity|]. intros x [<-|I]; apply Nat.eqb_neq; cbn [fst]; [lia|]. specialize (FR x I). lia.
Qed.
Lemma row_of_ascending {A} (m : mapped A) row : in_order (mp_pattern m) -> ascending (row_of m row).
Proof.
  intros S. unfold row_of, entries, ascending. generalize (mp_blocks m). revert S. generalize (mp_pattern m). intros P S. induction S as [|[i j] P S IH F]; intros bs; [constructor|]. destruct bs as [|b bs]; [constructor|]. cbn [combine filter fst].
  destruct (Nat.eqb_spec i row) as [E|E]; [|apply IH]. cbn [map fst snd]. constructor; [apply IH|]. rewrite Forall_forall in *. intros [k a] I. apply in_map_iff in I. destruct I as ([[i' j'] b'] & Q & I). cbn [fst snd] in Q. injection Q as <- <-. apply filter_In in I. destruct I as [I K]. cbn [fst] in K. apply Nat.eqb_eq in K.
  apply in_combine_l in I. specialize (F _ I). cbn [fst snd] in F |- *. lia.
Qed.
Lemma vsum_pick (f : nat -> v3) a : forall l, NoDup l -> In a l -> vsum (map (fun r => if Nat.eqb a r then f r else v3_0) l) = f a.
Proof.
  induction l as [|r l IH]; intros ND H; [destruct H|]. inversion_clear ND as [|? ? NI ND']. cbn [map]. rewrite vsum_cons. destruct H as [E|I].
  - subst r. rewrite Nat.eqb_refl, ContactAsmProofs.vsum_zero; [apply add_0_r|]. intros i I. destruct (Nat.eqb_spec a i); [subst; contradiction|reflexivity].
  - rewrite (IH ND' I). destruct (Nat.eqb_spec a r); [subst; contradiction|apply add_0_l].
Qed.
Lemma rows_of_in {A} (m : mapped A) e : In e (entries m) -> In (fst (fst e)) (rows_of m).
Proof. destruct e as [[r j] b]. intros I. apply in_combine_l in I. unfold rows_of. apply unseen_in. split; [apply (in_map fst _ (r, j) I)|intros []]. Qed.
Lemma rows_total {A} (g : mapped A) (p : nat -> bool) (F : nat -> nat -> A -> v3) :
  vsum (map (fun r => vsum (map (fun e => F r (fst e) (snd e)) (row_of g r))) (filter p (rows_of g)))
  = vsum (map (fun e => if p (fst (fst e)) then F (fst (fst e)) (snd (fst e)) (snd e) else v3_0) (entries g)).
Proof.
  rewrite vsum_filter. rewrite (vsum_ext _ (fun r => vsum (map (fun e => if Nat.eqb (fst (fst e)) r then (if p r then F r (snd (fst e)) (snd e) else v3_0) else v3_0) (entries g)))).
  - rewrite vsum_swap. apply vsum_ext. intros e I. apply (vsum_pick (fun r => if p r then F r (snd (fst e)) (snd e) else v3_0)); [apply unseen_nodup|apply rows_of_in, I].
  - intros r _. unfold row_of. rewrite map_map. cbn [fst snd]. rewrite vsum_filter. destruct (p r); [reflexivity|]. symmetry. apply ContactAsmProofs.vsum_zero. intros e _. destruct (Nat.eqb (fst (fst e)) r); reflexivity.
Qed.
(** The multipliers change at the rate [rate]; contact [j] pushes along [nth j ys v3_0]. *)
Lemma lambda_product_apply o s vcs n dqdv U r : in_order (mp_pattern (fs_gradient s)) -> in_order (mp_pattern (fs_distance s)) -> (r < n)%nat -> (forall j, (n <= j)%nat -> U j = v3_0) ->
  let c := fs_contact s in
  let ys := map (fun p => from_contact_coordinates (snd p) (let c := friction_profile (fo_profile o) (to_tangent_space (snd p) (fst p)) 1 (fo_params o) in V3 0 (v2x c) (v2y c))) (combine vcs (fs_frames s)) in
  block_product (lambda_product o s vcs n dqdv) U r
  = block_product (entries (fs_gradient s)) (fun j => v3_scale (- dqdv * ct_kappa c * penalty_ddb (ct_delta c) (nth j (fs_dist s) 0) * col_rate (fs_distance s) U j) (nth j ys v3_0)) r.
Proof.
  intros SG SD R UZ c ys. unfold lambda_product. fold c. change (map _ (combine vcs (fs_frames s))) with ys. set (k := fun j => - dqdv * ct_kappa c * penalty_ddb (ct_delta c) (nth j (fs_dist s) 0)).
  rewrite block_flat.
  rewrite (vsum_ext _ (fun row => vsum (map (fun a => (fun row j M => if Nat.eqb row r then m3_mulv M (v3_scale (k j * col_rate (fs_distance s) U j) (nth j ys v3_0)) else v3_0) row (fst a) (snd a)) (row_of (fs_gradient s) row)))).
  - rewrite (rows_total (fs_gradient s) (fun v => Nat.ltb v n) (fun row j M => if Nat.eqb row r then m3_mulv M (v3_scale (k j * col_rate (fs_distance s) U j) (nth j ys v3_0)) else v3_0)).
    unfold block_product. apply vsum_ext. intros [[i j] M] _. cbn [fst snd]. destruct (Nat.eqb_spec i r) as [E|E]; [|destruct (Nat.ltb i n); reflexivity]. apply Nat.ltb_lt in R. rewrite E, R. reflexivity.
  - intros row _. cbv beta. rewrite block_flat.
    rewrite (vsum_ext _ (fun col => vsum (map (fun a => vsum (map (fun b => if Nat.eqb (fst a) (fst b) then (if Nat.eqb row r then v3_scale (v3_dot (v3_scale (k (fst a)) (snd b)) (U col)) (m3_mulv (snd a) (nth (fst a) ys v3_0)) else v3_0) else v3_0) (row_of (fs_distance s) col))) (row_of (fs_gradient s) row)))).
    2: { intros col _. rewrite merge_matches by (apply row_of_ascending; assumption). unfold matches. unfold block_product. rewrite map_map, vsum_flat. apply vsum_ext. intros [j M] _. cbn [fst snd]. rewrite map_map, vsum_filter. apply vsum_ext. intros [j' d] _. cbn [fst snd]. destruct (Nat.eqb j j'); [|reflexivity]. destruct (Nat.eqb row r); [|reflexivity].
         rewrite mulv_mul, mulv_outer, mulv_scale_r. reflexivity. }
    rewrite vsum_swap. apply vsum_ext. intros [j M] _. cbn [fst snd].
    rewrite (rows_total (fs_distance s) (fun v => Nat.ltb v n) (fun col j' d => if Nat.eqb j j' then (if Nat.eqb row r then v3_scale (v3_dot (v3_scale (k j) d) (U col)) (m3_mulv M (nth j ys v3_0)) else v3_0) else v3_0)).
    destruct (Nat.eqb row r).
    + rewrite mulv_scale_r. unfold col_rate, stored. fold (entries (fs_distance s)). rewrite <- rsum_scale, <- vsum_weights. apply vsum_ext. intros [[i j'] d] _. cbn [fst snd]. rewrite (Nat.eqb_sym j').
      destruct (Nat.ltb_spec i n) as [L|L]; destruct (Nat.eqb j j'); rewrite ?Rmult_0_r, ?scale_0_l; try reflexivity.
      * f_equal. dv d. generalize (U i). intros u. dv u. cbv [v3_dot v3_scale vx vy vz]. ring.
      * rewrite (UZ i L). symmetry. replace (v3_dot d v3_0) with 0 by (dv d; cbv [v3_dot v3_0 vx vy vz]; ring). rewrite Rmult_0_r. apply scale_0_l.
    + apply ContactAsmProofs.vsum_zero. intros [[i j'] d] _. cbn [fst snd]. destruct (Nat.ltb i n), (Nat.eqb j j'); reflexivity.
Qed.
