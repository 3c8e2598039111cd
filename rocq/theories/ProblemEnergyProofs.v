(** First and second derivatives of each energy along a motion of the velocities, together. *)
From Coq Require Import Reals List Arith Bool Lra Lia FunctionalExtensionality.
From Coquelicot Require Import Coquelicot.
From Verif Require Import Vec3 Mat3 RList Calc ElasticModel ElasticSpec ElasticProofs ElasticMeshProofs ElasticHessProofs MassModel MassSpec MassProofs ShellModel ShellSpec AngleModel AngleSpec AngleProofs ShellProofs ShellMeshProofs ShellHessProofs
  SurfHessSpec JetProofs.
From Verif Require VolumeModel VolumeSpec VolumeProofs.
Import ListNotations.
Local Open Scope R_scope.
Local Notation lower_form := ElasticSpec.lower_form.

Lemma move_sum (x d : nat -> v3) s t : move (move x d s) d t = move x d (s + t).
Proof. apply functional_extensionality. intros i. unfold move. destruct (x i) as [a1 a2 a3], (d i) as [b1 b2 b3]. unfold v3_line, v3_add, v3_scale. cbn [vx vy vz]. apply v3_ext; ring. Qed.
Lemma move_at_0 (x d : nat -> v3) : move x d 0 = x.
Proof. apply functional_extensionality. intros i. unfold move. destruct (x i) as [a1 a2 a3], (d i) as [b1 b2 b3]. unfold v3_line, v3_add, v3_scale. cbn [vx vy vz]. apply v3_ext; ring. Qed.
(** A derivative at a shifted origin. *)
Lemma derive_shift (f : R -> R) (s l : R) : is_derive (fun t => f (s + t)) 0 l -> is_derive f s l.
Proof.
  intros D. apply is_derive_ext with (fun t => (fun t => f (s + t)) (t - s)); [intros t; cbv beta; f_equal; apply Rplus_minus|].
  evar_last; [apply (is_derive_comp (fun t => f (s + t)) (fun t => t - s) s l 1); [rewrite Rminus_eq_0; exact D|auto_derive; [exact I|ring]]|]. unfold scal; cbn. unfold mult; cbn. ring.
Qed.
Lemma jet_shift (f g : R -> R) c : locally 0 (fun s => is_derive (fun t => f (s + t)) 0 (g s)) -> is_derive g 0 c -> jet f (f 0) (g 0) c.
Proof. intros L D. split; [reflexivity|]. exists g. split; [|split; [reflexivity|exact D]]. revert L. apply filter_imp. intros s. apply derive_shift. Qed.
(** The same for energies that may be infinite. *)
Definition ejet (F : R -> ext) (a b c : R) : Prop := locally 0 (fun s => exists e, F s = Fin e) /\ jet (fun s => fin (F s)) a b c.
Lemma ejet_fin f a b c : jet f a b c -> ejet (fun s => Fin (f s)) a b c.
Proof. intros J. split; [apply filter_forall; intros s; exists (f s); reflexivity|exact J]. Qed.
Lemma ejet_add F G a b c a' b' c' : ejet F a b c -> ejet G a' b' c' -> ejet (fun s => ext_add (F s) (G s)) (a + a') (b + b') (c + c').
Proof.
  intros [L J] [L' J']. split; [generalize (filter_and _ _ L L'); apply filter_imp; intros s [[e E] [e' E']]; rewrite E, E'; eexists; reflexivity|].
  refine (jet_ext_loc (fun s => fin (F s) + fin (G s)) _ _ _ _ _ (jet_plus _ _ _ _ _ _ _ _ J J')).
  generalize (filter_and _ _ L L'). apply filter_imp. intros s [[e E] [e' E']]. rewrite E, E'. reflexivity.
Qed.
Lemma ejet_eq F a b c a' b' c' : ejet F a b c -> a = a' -> b = b' -> c = c' -> ejet F a' b' c'.
Proof. intros J -> -> ->. exact J. Qed.
Lemma ejet_ext F G a b c : (forall s, F s = G s) -> ejet F a b c -> ejet G a b c.
Proof. intros E [L J]. split; [revert L; apply filter_imp; intros s; rewrite E; exact (fun H => H)|refine (jet_ext _ _ _ _ _ _ J); intros s; cbv beta; rewrite E; reflexivity]. Qed.

Definition mesh_power (M : tet_model) (ss : list solid_tet) (h : R) (x v u : nat -> v3) : R := mesh_lsum (fun i a => v3_dot a (u i)) M ss h x v.
Definition mesh_curve (M : tet_model) (ss : list solid_tet) (h : R) (x v u w : nat -> v3) : R := rsum (map (fun s => tet_form M s h x v u w) ss).
Definition shell_power (S : shell) (h : R) (x v u : nat -> v3) : R := rsum (map (fun p => v3_dot (snd p) (u (fst p))) (shell_forces S h x v)).
Definition shell_curve (S : shell) (x u w : nat -> v3) : R :=
  rsum (map (fun t => tri_form t x u w) (sh_tris S)) + rsum (map (fun d => edge_form d (sh_faces S) x u w) (sh_dihedrals S)).
Section Line.
Variables (h : R) (x v w : nat -> v3).
Let hw : nat -> v3 := fun i => v3_scale h (w i).
Lemma mesh_jet M ss : good_model M -> smooth_model M -> (forall s, In s ss -> exists g, tet_gradient_with_damping M s h x v = Some g) ->
  ejet (fun s => mesh_energy M ss h (move x hw s) (move v w s)) (fin (mesh_energy M ss h x v)) (h * mesh_power M ss h x v w) (h * h * mesh_curve M ss h x v w w).
Proof.
  intros G SM T. destruct (mesh_damped_derive M ss h x v w G T) as [F _]. split; [exact F|]. destruct (mesh_force_derive M ss h x v w w G SM T) as [L D].
  set (g := fun s => h * mesh_power M ss h (move x hw s) (move v w s) w).
  assert (J : jet (fun s => fin (mesh_energy M ss h (move x hw s) (move v w s))) (fin (mesh_energy M ss h (move x hw 0) (move v w 0))) (g 0) (h * h * mesh_curve M ss h x v w w)).
  { apply jet_shift.
    - revert L. apply filter_imp. intros s Hs. destruct (mesh_damped_derive M ss h (move x hw s) (move v w s) w G Hs) as [_ D1].
      eapply is_derive_ext; [|exact D1]. intros t. cbv beta. fold hw. rewrite !move_sum. reflexivity.
    - unfold g, mesh_power. evar_last; [apply is_derive_scal; exact D|]. unfold mesh_curve. ring. }
  rewrite !move_at_0 in J. unfold g in J. rewrite !move_at_0 in J. exact J.
Qed.
(** Around a smooth state of a shell the states are smooth. *)
Lemma proper_line B y d : proper B y -> locally 0 (fun s => proper B (tri_line y d s)).
Proof.
  intros P. pose proof (proper_gram B y P) as G. pose proof (gram_line_pos _ (m2_m23 B (tri_shape d)) G) as L. revert L. apply filter_imp. intros s Hs. destruct P as [P _]. split; [exact P|]. intros Z.
  replace (m23_line _ _ s) with (m2_m23 B (tri_shape (tri_line y d s))) in Hs.
  - rewrite gram_shape, Z in Hs. unfold v3_dot, v3_0 in Hs. cbn [vx vy vz] in Hs. lra.
  - apply shape_line2.
Qed.
Lemma locally_all {A} (l : list A) (P : A -> R -> Prop) : (forall a, In a l -> locally 0 (P a)) -> locally 0 (fun s => forall a, In a l -> P a s).
Proof.
  induction l as [|b l IH]; intros H; [apply filter_forall; intros s a []|]. generalize (filter_and _ _ (H b (or_introl eq_refl)) (IH (fun a Ha => H a (or_intror Ha)))). apply filter_imp. intros s [P1 P2] a [<-|Ha]; [exact P1|apply P2, Ha].
Qed.
Lemma smooth_line S (d : nat -> v3) : smooth_at S x -> locally 0 (fun s => smooth_at S (move x d s)).
Proof.
  intros [HT HE]. apply filter_and; apply locally_all.
  - intros t Ht. generalize (proper_line _ _ (tri_gather t d) (HT t Ht)). apply filter_imp. intros s Hs. exact Hs.
  - intros e He. destruct (HE e He) as (V & N & W). apply filter_and; [apply filter_forall; intros _; exact V|]. apply filter_and.
    + generalize (locally_and_corners _ (corners (di_edge e) d (sh_faces S)) N). apply filter_imp. intros s Hs. exact Hs.
    + assert (W' : - PI < incremental_angle (di_edge e) (di_angle e) x (sh_faces S) - di_angle e < PI) by (apply Rabs_def2 in W; lra).
      pose proof (tracked_derive _ _ _ d _ V N W') as D. set (f := fun s => incremental_angle (di_edge e) (di_angle e) (move x d s) (sh_faces S)) in *.
      assert (F0 : f 0 = incremental_angle (di_edge e) (di_angle e) x (sh_faces S)) by (unfold f; rewrite move_at_0; reflexivity).
      set (l := tet_dot _ _) in D. clearbody l.
      assert (A : locally 0 (fun s => 0 < PI - (f s - di_angle e))) by (apply (cont_pos _ (0 - (l - 0))); [apply @is_derive_minus; [apply @is_derive_const|apply @is_derive_minus; [exact D|apply @is_derive_const]]|rewrite F0; lra]).
      assert (B : locally 0 (fun s => 0 < PI + (f s - di_angle e))) by (apply (cont_pos _ (0 + (l - 0))); [apply @is_derive_plus; [apply @is_derive_const|apply @is_derive_minus; [exact D|apply @is_derive_const]]|rewrite F0; lra]).
      generalize (filter_and _ _ A B). apply filter_imp. intros s [P Q]. fold (f s). apply Rabs_def1; lra.
Qed.
Lemma shell_jet S n : shell_in_range n S -> shell_distinct S -> smooth_at S x ->
  ejet (fun s => shell_energy S h (move x hw s) (move v w s)) (fin (shell_energy S h x v)) (h * shell_power S h x v w) (h * h * shell_curve S x w w).
Proof.
  intros HR HD HS. destruct (shell_derive S h x v w n HR HS) as (_ & _ & _ & F & _). split; [exact F|].
  set (g := fun s => h * shell_power S h (move x hw s) (move v w s) w).
  assert (P : forall y z g, add_shell_gradient S h y z (repeat v3_0 n) = Some g -> power g w = shell_power S h y z w) by (intros y z g0 Hg; rewrite (power_scatter _ _ _ w Hg); reflexivity).
  assert (J : jet (fun s => fin (shell_energy S h (move x hw s) (move v w s))) (fin (shell_energy S h (move x hw 0) (move v w 0))) (g 0) (h * h * shell_curve S x w w)).
  { apply jet_shift.
    - generalize (smooth_line S hw HS). apply filter_imp. intros s Hs. destruct (shell_derive S h (move x hw s) (move v w s) w n HR Hs) as (g1 & E1 & _ & _ & D1). rewrite (P _ _ _ E1) in D1.
      eapply is_derive_ext; [|exact D1]. intros t. cbv beta. fold hw. rewrite !move_sum. reflexivity.
    - destruct (shell_force_derive S h x v w w n HR HD HS) as (g1 & E1 & D1). rewrite shell_form in D1 by (try exact HD; intros t Ht; apply proper_gram, HS, Ht).
      unfold g. evar_last; [apply is_derive_scal; eapply is_derive_ext; [|exact D1]; intros s; exact (P _ _ _ (E1 s))|]. unfold shell_curve. ring. }
  rewrite !move_at_0 in J. unfold g in J. rewrite !move_at_0 in J. exact J.
Qed.
Definition elems_power_of (f : melem -> nat -> v3) (es : list melem) (u : nat -> v3) : R := rsum (map (fun e => rsum (map (fun c => v3_dot (f e c) (u c)) (cell e))) es).
Lemma elems_scale f es (k : R) (u : nat -> v3) : elems_power_of f es (fun i => v3_scale k (u i)) = k * elems_power_of f es u.
Proof. unfold elems_power_of. rewrite <- rsum_scale. apply rsum_ext. intros e _. rewrite <- rsum_scale. apply rsum_ext. intros c _. destruct (f e c) as [a1 a2 a3], (u c) as [b1 b2 b3]. unfold v3_dot, v3_scale. cbn [vx vy vz]. ring. Qed.
Lemma jet_poly a b c : jet (fun s => a + s * b + s * s * c) a b (2 * c).
Proof.
  split; [ring|]. exists (fun s => b + 2 * s * c). split; [apply filter_forall; intros s; auto_derive; [exact I|ring]|]. split; [ring|]. auto_derive; [exact I|ring].
Qed.
Lemma gravity_jet share g es : jet (fun s => gravity_energy share g es (move x hw s)) (gravity_energy share g es x) (h * elems_power_of (fun e _ => v3_neg (v3_scale (vertex_mass share e) g)) es w) 0.
Proof.
  refine (jet_eq _ _ _ _ _ _ _ (jet_ext _ _ _ _ _ _ (jet_poly (gravity_energy share g es x) (h * elems_power_of (fun e _ => v3_neg (v3_scale (vertex_mass share e) g)) es w) 0)) _ _ _); [|reflexivity|reflexivity|ring].
  intros s. cbv beta. rewrite gravity_line. unfold hw. rewrite <- elems_scale. unfold elems_power_of. ring.
Qed.
Lemma inertia_jet share es (v0 : nat -> v3) : jet (fun s => inertia_energy share es v0 (move v w s)) (inertia_energy share es v0 v)
  (elems_power_of (fun e c => v3_scale (vertex_mass share e) (v3_sub (v c) (v0 c))) es w) (lower_form (combine (inertia_indices es 0 0) (inertia_values share es 1)) (coords w) (coords w)).
Proof.
  refine (jet_eq _ _ _ _ _ _ _ (jet_ext _ _ _ _ _ _ (jet_poly (inertia_energy share es v0 v) (elems_power_of (fun e c => v3_scale (vertex_mass share e) (v3_sub (v c) (v0 c))) es w)
    (rsum (map (fun e => 1 / 2 * (vertex_mass share e * rsum (map (fun c => v3_dot (w c) (w c)) (cell e)))) es)))) _ _ _); [|reflexivity|reflexivity|].
  - intros s. cbv beta. rewrite inertia_line. reflexivity.
  - rewrite inertia_form, <- rsum_scale. apply rsum_ext. intros e _. rewrite <- !rsum_scale. apply rsum_ext. intros c _. destruct (w c) as [a1 a2 a3]. unfold v3_dot, v3_scale. cbn [vx vy vz]. field.
Qed.
Import VolumeModel VolumeSpec VolumeProofs.
Definition zone_power (z : zone) (u : nat -> v3) : R := pressure_atm * volume_change z x / (compression z * 6) * lin z x u.
Definition zone_curve (z : zone) (u : nat -> v3) : R := pressure_atm / (compression z * 6) * (volume_change z x * bil z x u u + lin z x u * lin z x u / (pressurization z * rest_volume z * 6)).
Lemma volume_jet z : pressurization z * rest_volume z <> 0 -> compression z <> 0 ->
  jet (fun s => volume_penalty z (move x hw s)) (volume_penalty z x) (zone_power z hw) (zone_curve z hw).
Proof.
  intros P C. set (g := fun s => pressure_atm * volume_change z (move x hw s) / (compression z * 6) * lin z (move x hw s) hw).
  assert (J : jet (fun s => volume_penalty z (move x hw s)) (volume_penalty z (move x hw 0)) (g 0) (zone_curve z hw)).
  { apply jet_shift; [|exact (VolumeProofs.force_derive z x hw hw P)]. apply filter_forall. intros s. eapply is_derive_ext; [|exact (VolumeProofs.penalty_derive z (move x hw s) hw P C)]. intros t. cbv beta. rewrite move_sum. reflexivity. }
  rewrite !move_at_0 in J. unfold g in J. rewrite !move_at_0 in J. exact J.
Qed.
End Line.
