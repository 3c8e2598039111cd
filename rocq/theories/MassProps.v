(** Properties of inertia and gravity. *)
From Coq Require Import Reals List Arith Bool Lra Lia.
From Coquelicot Require Import Coquelicot.
From Verif Require Import Calc Vec3 Mat3 RList ElasticModel ElasticSpec ElasticProofs ElasticMeshProofs ElasticHessProofs MassModel MassSpec MassProofs.
Import ListNotations.
Local Open Scope R_scope.

(** Two tetrahedra sharing a face. *)
Definition two_tets : list melem := [MElem [0; 1; 2; 3]%nat 6 2; MElem [1; 2; 3; 4]%nat 3 1].
Definition two_tris : list melem := [MElem [0; 1; 2]%nat 6 2; MElem [1; 2; 3]%nat 3 1].
Lemma two_tets_in_range : cells_in_range 5 two_tets.
Proof. intros e c [<-|[<-|[]]] H; simpl in H; repeat (destruct H as [<-|H]; [lia|]); destruct H. Qed.
Lemma two_tris_in_range : cells_in_range 4 two_tris.
Proof. intros e c [<-|[<-|[]]] H; simpl in H; repeat (destruct H as [<-|H]; [lia|]); destruct H. Qed.

(** C39: the inertia gradient exists on every mesh whose indices are in range, is the derivative of the inertia energy in the new
    velocity along every direction, and its total is the mass-weighted sum of the velocity changes, shared vertices included. *)
Theorem inertia_gradient_is_derivative : forall share es n v0 v1,
  cells_in_range n es -> exists g, add_inertia_gradient share es v0 v1 (repeat v3_0 n) = Some g /\ length g = n /\
    (forall w, is_derive (fun s => inertia_energy share es v0 (move v1 w s)) 0 (power g w)) /\
    v3_total g = weighted es (vertex_mass share) (fun i => v3_sub (v1 i) (v0 i)).
Proof.
  intros share es n v0 v1 H. destruct (add_elems_some (fun e c => v3_scale (vertex_mass share e) (v3_sub (v1 c) (v0 c))) es n H (repeat v3_0 n) (repeat_length v3_0 n)) as (g & E & L).
  exists g. split; [exact E|]. split; [exact L|]. split; [|exact (elems_total _ es n g E)]. intros w. rewrite (elems_power _ es n w g E). apply (line_0 _ _ _ _ (fun s => inertia_line share es v0 v1 w s)).
Qed.
Example inertia_gradient_is_derivative_ex : exists g, add_inertia_gradient (1 / 4) two_tets (fun _ => v3_0) (fun i => V3 (INR i) 1 0) (repeat v3_0 5) = Some g /\ length g = 5%nat.
Proof. destruct (inertia_gradient_is_derivative (1 / 4) two_tets 5 (fun _ => v3_0) (fun i => V3 (INR i) 1 0) two_tets_in_range) as (g & E & L & _). exists g. split; assumption. Qed.

(** C39: the Hessian triplets have one value per index pair and represent the derivative of the gradient. *)
Theorem inertia_hessian_is_derivative : forall share es n v0 v1 w u,
  cells_in_range n es ->
  length (inertia_indices es 0 0) = length (inertia_values share es 1) /\
  (forall p, In p (inertia_indices es 0 0) -> fst p = snd p /\ (fst p < 3 * n)%nat) /\
  is_derive (fun s => match add_inertia_gradient share es v0 (move v1 w s) (repeat v3_0 n) with Some g => power g u | None => 0 end) 0
    (lower_form (combine (inertia_indices es 0 0) (inertia_values share es 1)) (coords u) (coords w)).
Proof.
  intros share es n v0 v1 w u H. split; [|split].
  - unfold inertia_indices, inertia_values. clear H. induction es as [|e es IH]; [reflexivity|]. cbn [flat_map]. rewrite !app_length, IH, map_length, cell_coords_length, repeat_length. reflexivity.
  - intros p Hp. unfold inertia_indices in Hp. apply in_flat_map in Hp. destruct Hp as (e & He & Hp). apply in_map_iff in Hp. destruct Hp as (q & <- & Hq). cbn. rewrite Nat.add_0_r. split; [reflexivity|].
    exact (coords_in_range n (cell e) (fun c Hc => H e c He Hc) q Hq).
  - rewrite inertia_form. apply (is_derive_ext (fun s => rsum (map (fun e => rsum (map (fun c => v3_dot (v3_scale (vertex_mass share e) (v3_sub (move v1 w s c) (v0 c))) (u c)) (cell e))) es))).
    { intros s. destruct (add_elems_some (fun e c => v3_scale (vertex_mass share e) (v3_sub (move v1 w s c) (v0 c))) es n H (repeat v3_0 n) (repeat_length v3_0 n)) as (g & E & _).
      unfold add_inertia_gradient. rewrite E. symmetry. exact (elems_power _ es n u g E). }
    apply (line_0 _ (rsum (map (fun e => rsum (map (fun c => v3_dot (v3_scale (vertex_mass share e) (v3_sub (v1 c) (v0 c))) (u c)) (cell e))) es)) _ 0).
    intros s. rewrite <- rsum_scale. transitivity (rsum (map (fun e => rsum (map (fun c => v3_dot (v3_scale (vertex_mass share e) (v3_sub (v1 c) (v0 c))) (u c)) (cell e)) + s * rsum (map (fun c => v3_dot (v3_scale (vertex_mass share e * 1) (w c)) (u c)) (cell e))) es)); [|rewrite rsum_plus; ring].
    apply rsum_ext. intros e _. rewrite <- rsum_scale, <- rsum_plus. apply rsum_ext. intros c _. unfold move, v3_line. destruct (v1 c), (v0 c), (w c), (u c). unm. ring.
Qed.
Example inertia_hessian_is_derivative_ex : length (inertia_indices two_tets 0 0) = 24%nat /\ nth 13 (inertia_indices two_tets 2 5) (0, 0)%nat = (6, 9)%nat /\ nth 13 (inertia_values (1 / 4) two_tets 8) 0 = 1 / 4 * 3 * 1 * 8.
Proof. split; [reflexivity|]. split; [reflexivity|]. reflexivity. Qed.

(** C39: on a buffer holding every vertex, both diagonals add exactly the diagonal of the Hessian. *)
Theorem inertia_diagonals_agree : forall share es scale n l p,
  cells_in_range n es -> length l = (3 * n)%nat -> (p < 3 * n)%nat ->
  exists d1 d2, add_shell_diagonal share es scale l = Some d1 /\ add_solid_diagonal share es scale l = Some d2 /\
    nth p d1 0 = nth p l 0 + diagonal_sum (combine (inertia_indices es 0 0) (inertia_values share es scale)) p /\ nth p d2 0 = nth p d1 0.
Proof.
  intros share es scale n l p H Hl Hp. destruct (shell_diagonal_at share es scale n p H l Hl) as (d1 & E1 & _ & N1).
  destruct (solid_diagonal_at share es scale n p (fun e c He Hc => or_introl (H e c He Hc)) l Hl) as (d2 & E2 & _ & N2).
  exists d1, d2. split; [exact E1|]. split; [exact E2|]. split; [exact N1|]. rewrite N1. exact (N2 Hp).
Qed.
Example inertia_diagonals_agree_ex : exists d, add_solid_diagonal (1 / 4) two_tets 1 (repeat 0 15) = Some d /\ nth 3 d 0 = 15 / 4 /\ nth 0 d 0 = 3.
Proof. eexists. split; [reflexivity|]. cbn. unfold vertex_mass. cbn. split; field. Qed.

(** C58, refuted: the guard of the solid's diagonal compares a vertex index with the number of coordinates, so a fixed vertex whose index
    is below that number is an index out of range; the shell has no guard. *)
Theorem inertia_diagonal_panics_refuted : exists es n free, cells_in_range n es /\ (free < n)%nat /\
  add_solid_diagonal (1 / 4) es 1 (repeat 0 (3 * free)) = None /\ add_shell_diagonal (1 / 3) (map (fun e => MElem (firstn 3 (cell e)) (measure e) (density e)) es) 1 (repeat 0 (3 * free)) = None.
Proof. exists two_tets, 5%nat, 2%nat. split; [exact two_tets_in_range|]. split; [lia|]. split; reflexivity. Qed.
Example inertia_diagonal_panics_refuted_ex : add_solid_diagonal (1 / 4) two_tets 1 (repeat 0 6) = None /\ add_solid_diagonal (1 / 4) two_tets 1 (repeat 0 3) = None.
Proof. split; reflexivity. Qed.

(** C58, the part that holds: when no vertex index lies between the number of free vertices and the number of free coordinates, the
    solid's diagonal succeeds and equals the diagonal of the Hessian on the free coordinates. *)
Theorem inertia_diagonal_skips_fixed_partial : forall share es scale free l p,
  (forall e c, In e es -> In c (cell e) -> (c < free)%nat \/ (3 * free <= c)%nat) -> length l = (3 * free)%nat -> (p < 3 * free)%nat ->
  exists d, add_solid_diagonal share es scale l = Some d /\ length d = (3 * free)%nat /\
    nth p d 0 = nth p l 0 + diagonal_sum (combine (inertia_indices es 0 0) (inertia_values share es scale)) p.
Proof. intros share es scale free l p H Hl Hp. destruct (solid_diagonal_at share es scale free p H l Hl) as (d & E & L & N). exists d. split; [exact E|]. split; [exact L|exact (N Hp)]. Qed.
Example inertia_diagonal_skips_fixed_partial_ex : exists d, add_solid_diagonal (1 / 4) [MElem [0; 1; 6; 7]%nat 6 2] 1 (repeat 0 6) = Some d /\ nth 4 d 0 = 3.
Proof. eexists. split; [reflexivity|]. cbn. unfold vertex_mass. cbn. field. Qed.

(** C83: the solid's Hessian-vector product adds the product of the triplets. *)
Theorem solid_inertia_product_is_hessian : forall share es z scale n l p,
  cells_in_range n es -> length l = (3 * n)%nat -> exists r, solid_inertia_product share es z scale l = Some r /\ length r = (3 * n)%nat /\
    nth p r 0 = nth p l 0 + triplet_product (combine (inertia_indices es 0 0) (inertia_values share es scale)) z p.
Proof. intros share es z scale n l p H Hl. exact (solid_product_at share es z scale n p H l Hl). Qed.
Example solid_inertia_product_is_hessian_ex : exists r, solid_inertia_product (1 / 4) two_tets INR 1 (repeat 0 15) = Some r /\ nth 4 r 0 = 15 / 4 * 4.
Proof. eexists. split; [reflexivity|]. cbn. unfold vertex_mass. cbn. field. Qed.

(** C83, refuted for shells: the product is assigned rather than added, so only the last triangle around a vertex counts. *)
Theorem shell_inertia_product_refuted : exists es n z p r, cells_in_range n es /\ shell_inertia_product (1 / 3) es z 1 (repeat 0 (3 * n)) = Some r /\
  nth p r 0 <> triplet_product (combine (inertia_indices es 0 0) (inertia_values (1 / 3) es 1)) z p.
Proof.
  exists two_tris, 4%nat, (fun _ => 1), 3%nat. eexists. split; [exact two_tris_in_range|]. split; [reflexivity|].
  unfold triplet_product. cbn [nth inertia_indices inertia_values two_tris flat_map map combine repeat app cell_coords seq cell length Nat.add Nat.mul Nat.eqb].
  rewrite ?rsum_cons, ?rsum_nil. unfold vertex_mass. cbn [measure density]. lra.
Qed.
Example shell_inertia_product_refuted_ex : exists r, shell_inertia_product (1 / 3) two_tris (fun _ => 1) 1 (repeat 0 12) = Some r /\ nth 3 r 0 = 1 /\ nth 0 r 0 = 4.
Proof. eexists. split; [reflexivity|]. cbn. unfold vertex_mass. cbn. split; field. Qed.

(** C40: the gravity gradient is the derivative of the gravity energy along every displacement, and when every element has [k] corners
    carrying the share [1/k], the forces (the negated gradient) add up to the total mass times the acceleration. *)
Theorem gravity_gradient_is_derivative : forall share g es n x,
  cells_in_range n es -> exists gr, add_gravity_gradient share g es (repeat v3_0 n) = Some gr /\ length gr = n /\
    (forall d, is_derive (fun s => gravity_energy share g es (move x d s)) 0 (power gr d)) /\
    (forall k, corners k es -> share * INR k = 1 -> v3_neg (v3_total gr) = v3_scale (total_mass es) g).
Proof.
  intros share g es n x H. destruct (add_elems_some (fun e _ => v3_neg (v3_scale (vertex_mass share e) g)) es n H (repeat v3_0 n) (repeat_length v3_0 n)) as (gr & E & L).
  exists gr. split; [exact E|]. split; [exact L|]. split.
  - intros d. rewrite (elems_power _ es n d gr E). apply (line_0 _ (gravity_energy share g es x) _ 0). intros s. rewrite gravity_line. ring.
  - intros k Hk Hs. rewrite (elems_total _ es n gr E), (gravity_total share g es k Hk Hs). destruct g. unm. f_equal; ring.
Qed.
Example gravity_gradient_is_derivative_ex : exists gr, add_gravity_gradient (1 / 4) (V3 0 (-10) 0) two_tets (repeat v3_0 5) = Some gr /\ v3_neg (v3_total gr) = V3 0 (-150) 0.
Proof.
  destruct (gravity_gradient_is_derivative (1 / 4) (V3 0 (-10) 0) two_tets 5 (fun _ => v3_0) two_tets_in_range) as (gr & E & _ & _ & T). exists gr. split; [exact E|].
  rewrite (T 4%nat); [|intros e [<-|[<-|[]]]; reflexivity|simpl; field]. unfold total_mass, elem_mass. cbn. rewrite ?rsum_cons, ?rsum_nil. unm. f_equal; ring.
Qed.

(** C84: for rigid shells with a symmetric inertia tensor, the gradient is the derivative of the energy in both velocities, the triplets
    represent its derivative, and the diagonal is the diagonal of the triplets; likewise the gravity gradient. *)
Theorem rigid_gradient_is_derivative : forall mass A v0 w0 v1 w1 dv dw,
  m3_symmetric A ->
  is_derive (fun s => rigid_energy mass A v0 w0 (v3_line v1 dv s) (v3_line w1 dw s)) 0
    (v3_dot (fst (rigid_gradient mass A v0 w0 v1 w1)) dv + v3_dot (snd (rigid_gradient mass A v0 w0 v1 w1)) dw).
Proof.
  intros mass A v0 w0 v1 w1 dv dw HA. eapply derive_val; [apply (line_0 _ _ _ _ (fun s => rigid_line mass A v0 w0 v1 w1 dv dw s))|].
  rewrite HA. cbn [rigid_gradient fst snd]. replace (v3_dot (v3_scale mass (v3_sub v1 v0)) dv) with (mass * v3_dot (v3_sub v1 v0) dv) by (destruct v1, v0, dv; unm; ring). field.
Qed.
Example rigid_gradient_is_derivative_ex : m3_symmetric (M3 (V3 2 1 0) (V3 1 3 0) (V3 0 0 4)) /\ rigid_gradient 2 (M3 (V3 2 1 0) (V3 1 3 0) (V3 0 0 4)) v3_0 v3_0 (V3 1 0 0) (V3 0 1 0) = (V3 2 0 0, V3 1 3 0).
Proof. split; [reflexivity|]. unfold rigid_gradient. unm. f_equal; f_equal; ring. Qed.
Theorem rigid_gradient_needs_symmetry_refuted : exists mass A v0 w0 v1 w1 dv dw,
  ~ is_derive (fun s => rigid_energy mass A v0 w0 (v3_line v1 dv s) (v3_line w1 dw s)) 0
    (v3_dot (fst (rigid_gradient mass A v0 w0 v1 w1)) dv + v3_dot (snd (rigid_gradient mass A v0 w0 v1 w1)) dw).
Proof.
  exists 1, (M3 (V3 1 1 0) (V3 0 1 0) (V3 0 0 1)), v3_0, v3_0, v3_0, (V3 1 0 0), v3_0, (V3 0 1 0). intros H.
  pose proof (line_0 _ _ _ _ (fun s => rigid_line 1 (M3 (V3 1 1 0) (V3 0 1 0) (V3 0 0 1)) v3_0 v3_0 v3_0 (V3 1 0 0) v3_0 (V3 0 1 0) s)) as H'.
  pose proof (derive_same _ _ _ _ H H') as U. revert U. unfold rigid_gradient. cbn [fst snd]. unm. intros U. lra.
Qed.
Example rigid_gradient_needs_symmetry_refuted_ex : m3_transpose (M3 (V3 1 1 0) (V3 0 1 0) (V3 0 0 1)) <> M3 (V3 1 1 0) (V3 0 1 0) (V3 0 0 1).
Proof. intros H. injection H. intros. lra. Qed.
Theorem rigid_hessian_is_derivative : forall mass A v0 w0 v1 w1 y u z w,
  m3_symmetric A ->
  let six := fun a b i => if Nat.ltb i 3 then v3_get a i else v3_get b (i - 3) in
  length (rigid_indices 0 0) = length (rigid_values mass A 1) /\
  is_derive (fun s => v3_dot (fst (rigid_gradient mass A v0 w0 (v3_line v1 z s) (v3_line w1 w s))) y + v3_dot (snd (rigid_gradient mass A v0 w0 (v3_line v1 z s) (v3_line w1 w s))) u) 0
    (lower_form (combine (rigid_indices 0 0) (rigid_values mass A 1)) (six y u) (six z w)) /\
  (forall p scale, (p < 6)%nat -> nth p (rigid_diagonal mass A scale) 0 = diagonal_sum (combine (rigid_indices 0 0) (rigid_values mass A scale)) p).
Proof.
  intros mass A v0 w0 v1 w1 y u z w HA six. split; [reflexivity|]. split.
  - destruct A as [[a11 a12 a13] [a21 a22 a23] [a31 a32 a33]]. assert (S := HA). injection S as E1 E2 E3 E4 E5 E6. subst.
    eapply derive_val; [apply (line_0 _ (v3_dot (v3_scale mass (v3_sub v1 v0)) y + v3_dot (m3_mulv (M3 (V3 a11 a12 a13) (V3 a12 a22 a23) (V3 a13 a23 a33)) (v3_sub w1 w0)) u)
      (v3_dot (v3_scale mass z) y + v3_dot (m3_mulv (M3 (V3 a11 a12 a13) (V3 a12 a22 a23) (V3 a13 a23 a33)) w) u) 0)|].
    + intros s. unfold rigid_gradient, v3_line. cbn [fst snd]. destruct v0, w0, v1, w1, y, u, z, w. unm. ring.
    + unfold lower_form, six. cbn [rigid_indices rigid_values lower_triangular_vec map flat_map seq app combine repeat Nat.add Nat.eqb Nat.ltb Nat.leb Nat.sub v3_get m3_get]. rewrite ?rsum_cons, ?rsum_nil. destruct y, u, z, w. unm. ring.
  - intros p scale Hp. do 6 (destruct p as [|p]; [unfold diagonal_sum; cbn; rewrite ?rsum_cons, ?rsum_nil; ring|]). lia.
Qed.
Example rigid_hessian_is_derivative_ex : rigid_indices 0 0 = [(0, 0); (1, 1); (2, 2); (3, 3); (4, 3); (4, 4); (5, 3); (5, 4); (5, 5)]%nat.
Proof. reflexivity. Qed.
Theorem rigid_gravity_is_derivative : forall mass g x d, is_derive (fun s => rigid_gravity_energy mass g (v3_line x d s)) 0 (v3_dot (rigid_gravity_gradient mass g) d).
Proof.
  intros mass g x d. apply (line_0 _ (rigid_gravity_energy mass g x) _ 0). intros s. unfold rigid_gravity_energy, rigid_gravity_gradient, v3_line. destruct g, x, d. unm. ring.
Qed.
Example rigid_gravity_is_derivative_ex : rigid_gravity_gradient 2 (V3 0 (-10) 0) = V3 (-(2 * 0)) (-(2 * (-10))) (-(2 * 0)).
Proof. reflexivity. Qed.

Print Assumptions inertia_gradient_is_derivative. Print Assumptions inertia_hessian_is_derivative. Print Assumptions inertia_diagonals_agree. Print Assumptions inertia_diagonal_panics_refuted.
Print Assumptions inertia_diagonal_skips_fixed_partial. Print Assumptions solid_inertia_product_is_hessian. Print Assumptions shell_inertia_product_refuted. Print Assumptions gravity_gradient_is_derivative.
Print Assumptions rigid_gradient_is_derivative. Print Assumptions rigid_gradient_needs_symmetry_refuted. Print Assumptions rigid_hessian_is_derivative. Print Assumptions rigid_gravity_is_derivative.
