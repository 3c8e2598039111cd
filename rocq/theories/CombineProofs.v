From Coq Require Import Reals List Arith Lra Lia.
From Verif Require Import RList ElasticModel CombineModel CombineSpec.
Import ListNotations.
Local Open Scope R_scope.

Lemma split_fill_exact {A} n m (f g : list A -> option (list A)) a b l :
  length l = (n + m)%nat -> (forall x, length x = n -> f x = Some a) -> (forall x, length x = m -> g x = Some b) -> split_fill n f g l = Some (a ++ b).
Proof.
  intros Hl Hf Hg. unfold split_fill. rewrite (proj2 (Nat.leb_le n (length l))) by lia. rewrite (Hf (firstn n l)) by (rewrite firstn_length; lia). cbn [bind].
  rewrite (Hg (skipn n l)) by (rewrite skipn_length; lia). reflexivity.
Qed.
Lemma absent_contributes n : contributes n (opt_en None) no_contribution.
Proof.
  unfold contributes. cbn. split; [reflexivity|]. split; [intros l H; exists l; split; [reflexivity|]; split; [exact H|]; intros p _; ring|]. split; [reflexivity|].
  split; [intros off l H; destruct l; [reflexivity|discriminate H]|]. split; [reflexivity|]. split; [intros s l H; destruct l; [reflexivity|discriminate H]|].
  intros s l H. exists l. split; [reflexivity|]. split; [exact H|]. intros p _. ring.
Qed.
Lemma add_twice n (f g : list R -> option (list R)) F G :
  (forall l, length l = n -> exists l', f l = Some l' /\ length l' = n /\ forall p, (p < n)%nat -> nth p l' 0 = nth p l 0 + F p) ->
  (forall l, length l = n -> exists l', g l = Some l' /\ length l' = n /\ forall p, (p < n)%nat -> nth p l' 0 = nth p l 0 + G p) ->
  forall l, length l = n -> exists l', bind (f l) g = Some l' /\ length l' = n /\ forall p, (p < n)%nat -> nth p l' 0 = nth p l 0 + (F p + G p).
Proof.
  intros Hf Hg l H. destruct (Hf l H) as (m & E & Lm & Nm). destruct (Hg m Lm) as (l' & E' & L' & N'). exists l'. split; [rewrite E; exact E'|]. split; [exact L'|]. intros p Hp. rewrite (N' p Hp), (Nm p Hp). ring.
Qed.
Lemma pair_contributes n a b ca cb : contributes n a ca -> contributes n b cb -> contributes n (pair_en a b) (both ca cb).
Proof.
  intros (A1 & A2 & A3 & A4 & A5 & A6 & A7) (B1 & B2 & B3 & B4 & B5 & B6 & B7). unfold contributes, pair_en, both. cbn.
  split; [congruence|]. split; [exact (add_twice n _ _ _ _ A2 B2)|]. split; [rewrite app_length; congruence|].
  split; [intros off l H; rewrite map_app; apply (split_fill_exact _ (en_size b)); [exact H|apply A4|apply B4]|].
  split; [intros s; rewrite app_length; congruence|]. split; [intros s l H; apply (split_fill_exact _ (en_size b)); [exact H|apply A6|apply B6]|].
  intros s. exact (add_twice n _ _ _ _ (A7 s) (B7 s)).
Qed.
Definition same (a b : contribution) : Prop :=
  c_energy a = c_energy b /\ (forall p, c_gradient a p = c_gradient b p) /\ c_pairs a = c_pairs b /\ (forall s, c_values a s = c_values b s) /\ (forall s p, c_diagonal a s p = c_diagonal b s p).
Lemma contributes_same n e a b : same a b -> contributes n e a -> contributes n e b.
Proof.
  intros (S1 & S2 & S3 & S4 & S5) (A1 & A2 & A3 & A4 & A5 & A6 & A7). unfold contributes. split; [congruence|]. split; [|split; [congruence|split; [|split; [|split]]]].
  - intros l H. destruct (A2 l H) as (l' & E & L & N). exists l'. split; [exact E|]. split; [exact L|]. intros p Hp. rewrite <- S2. exact (N p Hp).
  - intros off l H. rewrite (A4 off l H), S3. reflexivity.
  - intros s. rewrite <- S4. apply A5.
  - intros s l H. rewrite <- S4. exact (A6 s l H).
  - intros s l H. destruct (A7 s l H) as (l' & E & L & N). exists l'. split; [exact E|]. split; [exact L|]. intros p Hp. rewrite <- S5. exact (N p Hp).
Qed.
Lemma total_app l m : same (both (total_of l) (total_of m)) (total_of (l ++ m)).
Proof.
  unfold total_of. induction l as [|a l IH]; unfold same in *; cbn in *; [|destruct IH as (I1 & I2 & I3 & I4 & I5)].
  - split; [ring|]. split; [intros; ring|]. split; [reflexivity|]. split; [reflexivity|]. intros; ring.
  - rewrite <- I1, <- I3. split; [ring|]. split; [intros p; rewrite <- I2; ring|]. split; [symmetry; apply app_assoc|]. split; [intros s; rewrite <- I4; symmetry; apply app_assoc|]. intros s p. rewrite <- I5. ring.
Qed.
Lemma comb_contributes n c : forall cs, Forall2 (contributes n) (leaves c) cs -> contributes n (comb_en c) (total_of cs).
Proof.
  induction c as [e| |c IH|c IH|c IH|a IHa b IHb]; intros cs H; cbn [leaves comb_en] in *.
  - inversion H as [|? x ? t Hx Ht]; subst. inversion Ht; subst. apply (contributes_same n e x); [|exact Hx]. unfold same. cbn. rewrite app_nil_r.
    split; [ring|]. split; [intros; ring|]. split; [reflexivity|]. split; [intros s; symmetry; apply app_nil_r|]. intros; ring.
  - inversion H; subst. apply absent_contributes.
  - exact (IH cs H).
  - exact (IH cs H).
  - exact (IH cs H).
  - apply Forall2_app_inv_l in H. destruct H as (ca & cb & Ha & Hb & ->). apply (contributes_same n _ _ _ (total_app ca cb)). apply pair_contributes; [apply IHa|apply IHb]; assumption.
Qed.
Lemma combine_app' {A B} (a b : list A) (c d : list B) : length a = length c -> combine (a ++ b) (c ++ d) = combine a c ++ combine b d.
Proof. revert c. induction a as [|x a IH]; intros [|y c] H; simpl in *; try discriminate; [reflexivity|]. rewrite IH by congruence. reflexivity. Qed.
Lemma dense_app ts us r k : dense (ts ++ us) r k = dense ts r k + dense us r k.
Proof. unfold dense. rewrite map_app, rsum_app. reflexivity. Qed.
Lemma total_dense s r k cs : (forall c, In c cs -> length (c_pairs c) = length (c_values c s)) ->
  dense (triplets (total_of cs) s) r k = rsum (map (fun c => dense (triplets c s) r k) cs).
Proof.
  induction cs as [|c cs IH]; intros H; [reflexivity|]. cbn [map]. rewrite rsum_cons, <- IH by (intros; apply H; right; assumption).
  unfold triplets. cbn. rewrite combine_app' by (apply H; left; reflexivity). apply dense_app.
Qed.
