(** Lemmas about derivatives of contact bases. *)
From Coq Require Import Reals List Bool Lra Lia Psatz Arith.
From Coquelicot Require Import Coquelicot.
From Verif Require Import Vec3 Mat3 RList KernelModel KernelSpec KernelProofs FieldModel FieldSpec ContactMapSpec NeighborModel SurfJacModel ContactJacModel AssemblyModel ContactAsmModel ContactAsmSpec BasisJacModel BasisJacSpec FieldProofs SurfJacProofs ContactJacProofs NeighborProofs ContactMapProofs ContactAsmProofs.
Import ListNotations.
Local Open Scope R_scope.

(** ** Moving vectors *)
Lemma moves_ext_loc f g l : locally 0 (fun s => f s = g s) -> moves f l -> moves g l.
Proof.
  intros E (A & B & C). refine (conj _ (conj _ _)); (eapply is_derive_ext_loc; [|eassumption]); eapply filter_imp; try exact E; intros s Q; cbv beta; rewrite Q; reflexivity.
Qed.
Lemma moves_times (c : R -> R) f (c' : R) l : is_derive c 0 c' -> moves f l -> moves (fun s => v3_scale (c s) (f s)) (v3_add (v3_scale c' (f 0)) (v3_scale (c 0) l)).
Proof.
  intros D (A & B & C). refine (conj _ (conj _ _)); unfold v3_scale, v3_add; cbn [vx vy vz]; (evar_last; [apply @is_derive_mult; [exact D|eassumption|intros; apply Rmult_comm]|]); cbv [plus mult]; cbn; match goal with |- @eq _ ?a ?b => change (@eq R a b) end; ring.
Qed.
Lemma moves_neg f l : moves f l -> moves (fun s => v3_scale (-1) (f s)) (v3_scale (-1) l).
Proof. apply moves_scale. Qed.
Lemma moves_get f l i : moves f l -> is_derive (fun s => v3_get (f s) i) 0 (v3_get l i).
Proof. intros (A & B & C). destruct i as [|[|i]]; cbn [v3_get]; assumption. Qed.
Lemma moves_is f l l' : moves f l -> l = l' -> moves f l'.
Proof. intros M <-. exact M. Qed.
(** A normalised vector turns. *)
Definition turned (t : v3) (inv : R) (y : v3) : v3 := v3_scale inv (v3_sub y (v3_scale (v3_dot t y) t)).
Lemma moves_unit f l : moves f l -> f 0 <> v3_0 -> moves (fun s => v3_scale (1 / v3_norm (f s)) (f s)) (turned (v3_scale (1 / v3_norm (f 0)) (f 0)) (1 / v3_norm (f 0)) l).
Proof.
  intros M NZ. assert (P := v3_norm_pos _ NZ). assert (D := moves_norm f l M NZ).
  assert (DI : is_derive (fun s => 1 / v3_norm (f s)) 0 (- (v3_dot (f 0) l / v3_norm (f 0)) / (v3_norm (f 0) * v3_norm (f 0)))).
  { apply (is_derive_ext (fun s => / v3_norm (f s))); [intros s; unfold Rdiv; rewrite Rmult_1_l; reflexivity|]. evar_last; [apply is_derive_inv; [exact D|lra]|]. cbn. match goal with |- @eq _ ?a ?b => change (@eq R a b) end. field. lra. }
  eapply moves_is; [apply (moves_times _ f _ l DI M)|]. unfold turned. rewrite dot_scale_l. generalize dependent (v3_norm (f 0)). intros N P _ _. generalize (v3_dot (f 0) l). intros d. generalize (f 0). intros a. dv a. dv l. apply v3_eq; cbv [v3_add v3_sub v3_scale vx vy vz]; field; lra.
Qed.

(** ** Matrix products as maps of vectors *)
Lemma mulv_add A B v : m3_mulv (m3_add A B) v = v3_add (m3_mulv A v) (m3_mulv B v).
Proof. dm A. dm B. dv v. apply v3_eq; cbv [m3_mulv m3_add v3_add v3_dot r0 r1 r2 vx vy vz]; ring. Qed.
Lemma mulv_mul A B v : m3_mulv (m3_mul A B) v = m3_mulv A (m3_mulv B v).
Proof. dm A. dm B. dv v. apply v3_eq; cbv [m3_mulv m3_mul m3_transpose v3_dot r0 r1 r2 vx vy vz]; ring. Qed.
Lemma mulv_outer a b v : m3_mulv (m3_outer a b) v = v3_scale (v3_dot b v) a.
Proof. dv a. dv b. dv v. apply v3_eq; cbv [m3_mulv m3_outer v3_scale v3_dot r0 r1 r2 vx vy vz]; ring. Qed.
Lemma mulv_proj n v : m3_mulv (m3_sub m3_I (m3_outer n n)) v = v3_sub v (v3_scale (v3_dot n v) n).
Proof. dv n. dv v. apply v3_eq; cbv [m3_mulv m3_I m3_sub m3_outer v3_sub v3_scale v3_dot r0 r1 r2 vx vy vz]; ring. Qed.
Lemma mulv_row A i v : v3_dot (m3_row A i) v = v3_get (m3_mulv A v) i.
Proof. destruct i as [|[|i]]; reflexivity. Qed.

Definition normal_turn (n : v3) (len : R) (w : v3) : v3 := turned n (- (1 / len)) w.
Definition raw_tangent (n : v3) (a : nat) : v3 := v3_sub (axis a) (v3_scale (v3_get n a) n).
Definition raw_turn (n : v3) (a : nat) (x : v3) : v3 := v3_scale (-1) (v3_add (v3_scale (v3_get n a) x) (v3_scale (v3_get x a) n)).
Definition tangent_turn (n : v3) (a : nat) (x : v3) : v3 :=
  turned (v3_scale (1 / v3_norm (raw_tangent n a)) (raw_tangent n a)) (1 / v3_norm (raw_tangent n a)) (raw_turn n a x).
Definition bitangent_turn (n t x y : v3) : v3 := v3_add (v3_cross x t) (v3_cross n y).
Lemma normal_jacobian_mulv n len H u : m3_mulv (normal_jacobian n len H) u = normal_turn n len (m3_mulv H u).
Proof. unfold normal_jacobian, normal_turn, turned. rewrite mulv_scale, mulv_mul, mulv_proj. reflexivity. Qed.
Lemma tangent_jacobian_mulv n a N u : m3_mulv (tangent_jacobian n a N) u = tangent_turn n a (m3_mulv N u).
Proof.
  unfold tangent_jacobian. cbv zeta. fold (raw_tangent n a). rewrite mulv_scale, mulv_mul, mulv_proj, mulv_scale, mulv_add, mulv_scale, mulv_outer, mulv_row. reflexivity.
Qed.
Lemma bitangent_jacobian_mulv n t N T u : m3_mulv (bitangent_jacobian n t N T) u = bitangent_turn n t (m3_mulv N u) (m3_mulv T u).
Proof. dv n. dv t. dm N. dm T. dv u. apply v3_eq; cbv [bitangent_jacobian bitangent_turn m3_mulv v3_cross v3_add v3_sub v3_scale v3_dot r0 r1 r2 vx vy vz]; ring. Qed.

(** The linear map of a contact: from the velocity of the gradient to that of the product. *)
Definition basis_turn (n : v3) (imax : nat) (len : R) (m : v3) (transpose : bool) (w : v3) : v3 :=
  let x := normal_turn n len w in
  let y := tangent_turn n (Nat.modulo (imax + 1) 3) x in
  let z := bitangent_turn n (tangent_from_normal n imax) x y in
  if transpose then V3 (v3_dot x m) (v3_dot y m) (v3_dot z m)
  else v3_add (v3_add (v3_scale (vx m) x) (v3_scale (vy m) y)) (v3_scale (vz m) z).
Lemma basis_product_mulv n imax len m tr H u : m3_mulv (basis_product n imax len m tr H) u = basis_turn n imax len m tr (m3_mulv H u).
Proof.
  unfold basis_product, basis_turn. cbv zeta. set (a := Nat.modulo (imax + 1) 3). rewrite <- (normal_jacobian_mulv n len H u). set (N := normal_jacobian n len H). rewrite <- (tangent_jacobian_mulv n a N u). set (T := tangent_jacobian n a N).
  rewrite <- (bitangent_jacobian_mulv n (tangent_from_normal n imax) N T u). set (B := bitangent_jacobian n (tangent_from_normal n imax) N T). destruct tr.
  - clearbody B T N. dm N. dm T. dm B. dv m. dv u. apply v3_eq; cbv [m3_mulv m3_transpose v3_dot r0 r1 r2 vx vy vz]; ring.
  - rewrite !mulv_add, !mulv_scale. reflexivity.
Qed.
Lemma turned_add t i y z : turned t i (v3_add y z) = v3_add (turned t i y) (turned t i z).
Proof. dv t. dv y. dv z. apply v3_eq; cbv [turned v3_add v3_sub v3_scale v3_dot vx vy vz]; ring. Qed.
Lemma raw_turn_add n a y z : raw_turn n a (v3_add y z) = v3_add (raw_turn n a y) (raw_turn n a z).
Proof. dv n. dv y. dv z. destruct a as [|[|a]]; apply v3_eq; cbv [raw_turn v3_get v3_add v3_sub v3_scale v3_dot vx vy vz]; ring. Qed.
Lemma basis_turn_add n imax len m tr y z : basis_turn n imax len m tr (v3_add y z) = v3_add (basis_turn n imax len m tr y) (basis_turn n imax len m tr z).
Proof.
  unfold basis_turn. cbv zeta. unfold normal_turn. rewrite turned_add. generalize (turned n (- (1 / len)) y), (turned n (- (1 / len)) z). intros x1 x2. unfold tangent_turn. rewrite raw_turn_add, turned_add.
  match goal with |- context [v3_add (turned ?t ?i ?a) (turned ?t ?i ?b)] => generalize (turned t i a), (turned t i b) end. intros y1 y2. generalize (tangent_from_normal n imax). intros t. unfold bitangent_turn.
  dv n. dv m. dv x1. dv x2. dv y1. dv y2. dv t. destruct tr; apply v3_eq; cbv [v3_cross v3_add v3_scale v3_dot vx vy vz]; ring.
Qed.
Lemma basis_turn_0 n imax len m tr : basis_turn n imax len m tr v3_0 = v3_0.
Proof.
  assert (E := basis_turn_add n imax len m tr v3_0 v3_0). assert (Z : v3_add v3_0 v3_0 = v3_0) by (apply v3_eq; cbv [v3_add v3_0 vx vy vz]; ring). rewrite Z in E. destruct (basis_turn n imax len m tr v3_0) as [a b c] eqn:Q. cbv [v3_add vx vy vz] in E. injection E as E1 E2 E3. apply v3_eq; cbv [v3_0 vx vy vz]; lra.
Qed.
Lemma basis_turn_vsum {I} n imax len m tr (f : I -> v3) l : basis_turn n imax len m tr (vsum (map f l)) = vsum (map (fun i => basis_turn n imax len m tr (f i)) l).
Proof. induction l as [|a l IH]; [apply basis_turn_0|]. cbn [map]. rewrite !vsum_cons, basis_turn_add, IH. reflexivity. Qed.

(** ** Moving bases *)
Lemma normal_unit g : g <> v3_0 -> v3_dot (contact_normal g) (contact_normal g) = 1.
Proof.
  intros NZ. assert (P := v3_norm_pos _ NZ). unfold contact_normal. destruct (Rlt_dec 0 (v3_norm g)); [|contradiction]. rewrite dot_scale_l, dot_comm, dot_scale_l. rewrite <- v3_norm_sq. field. lra.
Qed.
Lemma normal_moves g w : moves g w -> g 0 <> v3_0 -> moves (fun s => contact_normal (g s)) (normal_turn (contact_normal (g 0)) (v3_norm (g 0)) w).
Proof.
  intros M NZ. assert (P := v3_norm_pos _ NZ). assert (D := moves_norm g w M NZ). eapply moves_ext_loc.
  - eapply filter_imp; [|exact (locally_lt (fun _ => 0) (fun s => v3_norm (g s)) _ _ (is_derive_const 0 0) D P)]. intros s L. cbv beta in L. unfold contact_normal. destruct (Rlt_dec 0 (v3_norm (g s))) as [_|]; [|contradiction].
    instantiate (1 := fun s => v3_scale (-1) (v3_scale (1 / v3_norm (g s)) (g s))). cbv beta. generalize (g s) L. intros [a b c] L'. apply v3_eq; cbv [v3_scale]; cbn [vx vy vz]; field; lra.
  - eapply moves_is; [apply moves_scale, (moves_unit g w M NZ)|]. unfold contact_normal. destruct (Rlt_dec 0 (v3_norm (g 0))) as [_|]; [|contradiction]. unfold normal_turn, turned. rewrite !dot_scale_l.
    generalize dependent (v3_norm (g 0)). intros L P _. generalize (v3_dot (g 0) w). intros d. generalize (g 0). intros a. dv a. dv w. apply v3_eq; cbv [v3_sub v3_scale vx vy vz]; field; lra.
Qed.
Lemma steady_index iamax n x : picks_largest iamax -> moves n x -> dominant (n 0) -> locally 0 (fun s => iamax (n s) = iamax (n 0)).
Proof.
  intros PL M (i & I3 & DOM).
  assert (SQ : forall v, (forall j, (j < 3)%nat -> j <> i -> v3_get v j * v3_get v j < v3_get v i * v3_get v i) -> iamax v = i).
  { intros v H. destruct (PL v) as [B L]. destruct (Nat.eq_dec (iamax v) i) as [E|NE]; [exact E|]. specialize (H _ B NE). specialize (L i I3). apply Rsqr_le_abs_1 in L. unfold Rsqr in L. lra. }
  assert (E0 : iamax (n 0) = i). { apply SQ. intros j J NE. specialize (DOM j J NE). apply Rsqr_lt_abs_1 in DOM. exact DOM. }
  rewrite E0.
  assert (L : locally 0 (fun s => forall j, In j (seq 0 3) -> (j <> i -> v3_get (n s) j * v3_get (n s) j < v3_get (n s) i * v3_get (n s) i))).
  { apply (locally_all (fun j s => j <> i -> v3_get (n s) j * v3_get (n s) j < v3_get (n s) i * v3_get (n s) i)). intros j J. apply in_seq in J. destruct (Nat.eq_dec j i) as [->|NE].
    - apply filter_forall. intros s H. contradiction.
    - assert (Dj := moves_get n x j M). assert (Di := moves_get n x i M). eapply filter_imp; [intros s H _; exact H|].
      eapply (locally_lt (fun s => v3_get (n s) j * v3_get (n s) j) (fun s => v3_get (n s) i * v3_get (n s) i)).
      + apply @is_derive_mult; [exact Dj|exact Dj|intros; apply Rmult_comm].
      + apply @is_derive_mult; [exact Di|exact Di|intros; apply Rmult_comm].
      + apply Rsqr_lt_abs_1, DOM; [lia|exact NE]. }
  eapply filter_imp; [|exact L]. intros s H. apply SQ. intros j J NE. apply H; [apply in_seq; lia|exact NE].
Qed.
Lemma tangent_moves n x a : moves n x -> raw_tangent (n 0) a <> v3_0 -> moves (fun s => v3_scale (/ v3_norm (raw_tangent (n s) a)) (raw_tangent (n s) a)) (tangent_turn (n 0) a x).
Proof.
  intros M NZ. assert (MR : moves (fun s => raw_tangent (n s) a) (raw_turn (n 0) a x)).
  { unfold raw_tangent. eapply moves_is; [apply (moves_sub (fun _ => axis a) _ _ _ (moves_const _) (moves_times _ _ _ _ (moves_get n x a M) M))|].
    unfold raw_turn. generalize (v3_get x a), (v3_get (n 0) a), (n 0). intros p q c. dv c. dv x. apply v3_eq; cbv [v3_sub v3_add v3_scale v3_0 vx vy vz]; ring. }
  assert (U := moves_unit _ _ MR NZ). eapply moves_ext; [|exact U]. intros s. cbv beta. f_equal. unfold Rdiv. ring.
Qed.
Definition basis_apply (transpose : bool) (f : frame) (m : v3) : v3 := if transpose then to_contact_coordinates f m else from_contact_coordinates f m.
Lemma basis_moves_steady n x m (T : R -> v3) y tr : moves n x -> moves T y ->
  moves (fun s => basis_apply tr {| fr_normal := n s; fr_tangent := T s |} m)
    (let z := bitangent_turn (n 0) (T 0) x y in
     if tr then V3 (v3_dot x m) (v3_dot y m) (v3_dot z m) else v3_add (v3_add (v3_scale (vx m) x) (v3_scale (vy m) y)) (v3_scale (vz m) z)).
Proof.
  intros MN MT. assert (MC := moves_cross _ _ _ _ MN MT). cbv zeta. destruct tr; cbn [basis_apply].
  - assert (D : forall f l, moves f l -> is_derive (fun s => v3_dot (f s) m) 0 (v3_dot l m)).
    { intros f l MF. evar_last; [exact (moves_dot f (fun _ => m) l v3_0 MF (moves_const m))|]. cbv beta. rewrite (FieldProofs.dot_comm (f 0)), dot_0_l. ring. }
    refine (conj _ (conj _ _)); unfold to_contact_coordinates, m3_mulv, contact_basis_matrix; cbn [vx vy vz r0 r1 r2 fr_normal fr_tangent].
    + exact (D _ _ MN).
    + exact (D _ _ MT).
    + exact (D _ _ MC).
  - eapply moves_ext; [|eapply moves_is; [exact (moves_add _ _ _ _ (moves_add _ _ _ _ (moves_scale (vx m) _ _ MN) (moves_scale (vy m) _ _ MT)) (moves_scale (vz m) _ _ MC))|reflexivity]].
    intros s. cbv beta. unfold from_contact_coordinates, contact_basis_matrix. cbn [fr_normal fr_tangent]. generalize (v3_cross (n s) (T s)). intros b. generalize (n s), (T s). intros c d. dv b. dv c. dv d. dv m. apply v3_eq; cbv [m3_mulv m3_transpose v3_dot v3_add v3_scale r0 r1 r2 vx vy vz]; ring.
Qed.
Lemma get_scale c g j : v3_get (v3_scale c g) j = c * v3_get g j.
Proof. destruct j as [|[|j]]; reflexivity. Qed.
Lemma dominant_normal g : g <> v3_0 -> dominant g -> dominant (contact_normal g).
Proof.
  intros NZ (i & I & D). assert (P := v3_norm_pos _ NZ). exists i. split; [exact I|]. intros j J NE. specialize (D j J NE). unfold contact_normal. destruct (Rlt_dec 0 (v3_norm g)); [|contradiction]. rewrite !get_scale, !Rabs_mult. apply Rmult_lt_compat_l; [|exact D]. apply Rabs_pos_lt. apply Rinv_neq_0_compat. lra.
Qed.
Lemma basis_moves iamax g w m tr : picks_largest iamax -> moves g w -> g 0 <> v3_0 -> dominant (g 0) ->
  moves (fun s => basis_apply tr (contact_frame iamax (g s)) m)
    (basis_turn (contact_normal (g 0)) (iamax (contact_normal (g 0))) (v3_norm (g 0)) m tr w).
Proof.
  intros PL MG NZ DOM. assert (MN := normal_moves g w MG NZ). set (n := fun s => contact_normal (g s)) in *. set (x := normal_turn (contact_normal (g 0)) (v3_norm (g 0)) w) in *.
  assert (ST := steady_index iamax n x PL MN (dominant_normal _ NZ DOM)). set (i := iamax (n 0)) in *. set (a := Nat.modulo (i + 1) 3).
  assert (FR := frame_from_normal_ok (n 0) i (normal_unit _ NZ) (proj1 (PL (n 0))) (proj2 (PL (n 0)))). cbv zeta in FR. fold a in FR. destruct FR as [NT _].
  assert (RT : raw_tangent (n 0) a <> v3_0). { intros E. apply NT. fold (raw_tangent (n 0) a). rewrite E. unfold v3_norm. rewrite dot_0_l. apply sqrt_0. }
  assert (MT := tangent_moves n x a MN RT).
  eapply moves_ext_loc; [|eapply moves_is; [exact (basis_moves_steady n x m _ _ tr MN MT)|]].
  - eapply filter_imp; [|exact ST]. intros s E. cbv beta. f_equal. unfold contact_frame, frame_from_normal. fold (n s). rewrite E. reflexivity.
  - unfold basis_turn. cbv zeta. fold (n 0). fold i. fold a. reflexivity.
Qed.

(** ** Blocks of all contacts *)
Definition picked (u : nat -> v3) (k : nat) (e : nat * nat * nat * m3) : v3 := let '(k', q, v, H) := e in if Nat.eqb k' k then m3_mulv H (u v) else v3_0.
Lemma blocks_turn iamax active (constraints : list (option nat)) normals grads ms tr u k a : (forall q k, nth q constraints None = Some k <-> nth_error active k = Some q) ->
  nth_error active k = Some a -> forall X : list (nat * nat * nat * m3), (forall k' q v H, In (k', q, v, H) X -> nth q constraints None = Some k') ->
  block_product (map (fun e : nat * nat * nat * m3 => let '(k, q, v, H) := e in
      (k, v, basis_product (nth k normals v3_0) (iamax (nth k normals v3_0)) (v3_norm (nth q grads v3_0)) (nth k ms v3_0) tr H)) X) u k
  = basis_turn (nth k normals v3_0) (iamax (nth k normals v3_0)) (v3_norm (nth a grads v3_0)) (nth k ms v3_0) tr (vsum (map (picked u k) X)).
Proof.
  intros IN AK X HX. rewrite basis_turn_vsum. unfold block_product. rewrite map_map. apply vsum_ext. intros [[[k' q] v] H] I. cbn [picked]. destruct (Nat.eqb_spec k' k) as [->|NE].
  - assert (E := proj1 (IN q k) (HX k q v H I)). rewrite AK in E. injection E as ->. apply basis_product_mulv.
  - symmetry. apply basis_turn_0.
Qed.
Definition query_choice (constraints : list (option nat)) (collider : list nat) (e : nat * m3) : list (nat * nat * nat * m3) :=
  let '(q, H) := e in match nth q constraints None with Some k => [(k, q, nth q collider 0%nat, H)] | None => [] end.
Definition surface_choice (constraints : list (option nat)) (surface : list nat) (e : nat * nat * m3) : list (nat * nat * nat * m3) :=
  let '(q, v, H) := e in match nth q constraints None with Some k => [(k, q, nth v surface 0%nat, H)] | None => [] end.
Lemma query_blocks_form constraints collider Q : length collider = length constraints -> (forall q H, In (q, H) Q -> (q < length constraints)%nat) ->
  query_blocks constraints collider Q = Some (flat_map (query_choice constraints collider) Q).
Proof.
  intros LC R. unfold query_blocks. apply all_some_flat. intros [q H] I. specialize (R q H I). unfold query_choice. rewrite (nth_error_nth' constraints None) by exact R. destruct (nth q constraints None); [|reflexivity].
  rewrite (nth_error_nth' collider 0%nat) by lia. reflexivity.
Qed.
Lemma surface_blocks_form constraints surface L : (forall q v H, In (q, v, H) L -> (q < length constraints)%nat /\ (v < length surface)%nat) ->
  surface_blocks constraints surface L = Some (flat_map (surface_choice constraints surface) L).
Proof.
  intros R. unfold surface_blocks. apply all_some_flat. intros [[q v] H] I. destruct (R q v H I) as [R1 R2]. unfold surface_choice. rewrite (nth_error_nth' constraints None) by exact R1. destruct (nth q constraints None); [|reflexivity].
  rewrite (nth_error_nth' surface 0%nat) by exact R2. reflexivity.
Qed.
Lemma query_picked active (constraints : list (option nat)) collider u k a : (forall q k, nth q constraints None = Some k <-> nth_error active k = Some q) -> nth_error active k = Some a ->
  forall Q, vsum (map (picked u k) (flat_map (query_choice constraints collider) Q)) = vsum (map (fun e : nat * m3 => if Nat.eqb (fst e) a then m3_mulv (snd e) (u (nth a collider 0%nat)) else v3_0) Q).
Proof.
  intros IN AK. induction Q as [|[q H] Q IH]; [reflexivity|]. cbn [flat_map]. rewrite map_app, vsum_app, IH. cbn [map]. rewrite vsum_cons. f_equal. unfold query_choice. cbn [fst snd]. destruct (Nat.eqb_spec q a) as [->|NE].
  - rewrite (proj2 (IN a k) AK). cbn [map picked]. rewrite Nat.eqb_refl, vsum_cons. cbn [vsum fold_right]. apply v3_eq; cbv [v3_add v3_0 vx vy vz]; ring.
  - destruct (nth q constraints None) as [k'|] eqn:E; [|reflexivity]. cbn [map picked]. destruct (Nat.eqb_spec k' k) as [->|NK].
    + exfalso. apply IN in E. apply NE. congruence.
    + rewrite vsum_cons. cbn [vsum fold_right]. apply v3_eq; cbv [v3_add v3_0 vx vy vz]; ring.
Qed.
Lemma surface_picked active (constraints : list (option nat)) surface u k a : (forall q k, nth q constraints None = Some k <-> nth_error active k = Some q) -> nth_error active k = Some a ->
  forall L, vsum (map (picked u k) (flat_map (surface_choice constraints surface) L)) = vsum (map (fun e : nat * nat * m3 => let '(q, v, H) := e in if Nat.eqb q a then m3_mulv H (u (nth v surface 0%nat)) else v3_0) L).
Proof.
  intros IN AK. induction L as [|[[q v] H] L IH]; [reflexivity|]. cbn [flat_map]. rewrite map_app, vsum_app, IH. cbn [map]. rewrite vsum_cons. f_equal. unfold surface_choice. destruct (Nat.eqb_spec q a) as [->|NE].
  - rewrite (proj2 (IN a k) AK). cbn [map picked]. rewrite Nat.eqb_refl, vsum_cons. cbn [vsum fold_right]. apply v3_eq; cbv [v3_add v3_0 vx vy vz]; ring.
  - destruct (nth q constraints None) as [k'|] eqn:E; [|reflexivity]. cbn [map picked]. destruct (Nat.eqb_spec k' k) as [->|NK].
    + exfalso. apply IN in E. apply NE. congruence.
    + rewrite vsum_cons. cbn [vsum fold_right]. apply v3_eq; cbv [v3_add v3_0 vx vy vz]; ring.
Qed.
Lemma product_form iamax active constraints surface collider normals grads ms tr Q L :
  (forall q k, nth q constraints None = Some k <-> nth_error active k = Some q) -> length collider = length constraints ->
  (forall q H, In (q, H) Q -> (q < length constraints)%nat) -> (forall q v H, In (q, v, H) L -> (q < length constraints)%nat /\ (v < length surface)%nat) ->
  length normals = length active -> length grads = length constraints -> length ms = length active ->
  basis_jacobian_product iamax constraints surface collider normals grads ms tr Q L =
    Some (map (fun e : nat * nat * nat * m3 => let '(k, q, v, H) := e in
      (k, v, basis_product (nth k normals v3_0) (iamax (nth k normals v3_0)) (v3_norm (nth q grads v3_0)) (nth k ms v3_0) tr H))
      (flat_map (query_choice constraints collider) Q ++ flat_map (surface_choice constraints surface) L)).
Proof.
  intros IN LC RQ RL LN LG LM. unfold basis_jacobian_product. rewrite query_blocks_form, surface_blocks_form by assumption. apply all_some_each.
  assert (B : forall k q, nth q constraints None = Some k -> (k < length active)%nat) by (intros k q E; apply IN in E; apply nth_error_Some; congruence).
  intros [[[k q] v] H] I. apply in_app_iff in I.
  assert (KQ : (k < length active)%nat /\ (q < length constraints)%nat).
  { destruct I as [I|I]; apply in_flat_map in I.
    - destruct I as ([q' H'] & I & J). unfold query_choice in J. destruct (nth q' constraints None) as [k'|] eqn:E; [|destruct J]. destruct J as [J|[]]. injection J as <- <- _ _. split; [exact (B _ _ E)|exact (RQ _ _ I)].
    - destruct I as ([[q' v'] H'] & I & J). unfold surface_choice in J. destruct (nth q' constraints None) as [k'|] eqn:E; [|destruct J]. destruct J as [J|[]]. injection J as <- <- _ _. split; [exact (B _ _ E)|exact (proj1 (RL _ _ _ I))]. }
  destruct KQ as [K Q0]. rewrite (nth_error_nth' normals v3_0), (nth_error_nth' grads v3_0), (nth_error_nth' ms v3_0) by lia. reflexivity.
Qed.
Lemma choices_known constraints surface collider Q L k q v H : In (k, q, v, H) (flat_map (query_choice constraints collider) Q ++ flat_map (surface_choice constraints surface) L) -> nth q constraints None = Some k.
Proof.
  intros I. apply in_app_iff in I. destruct I as [I|I]; apply in_flat_map in I.
  - destruct I as ([q' H'] & I & J). unfold query_choice in J. destruct (nth q' constraints None) as [k'|] eqn:E; [|destruct J]. destruct J as [J|[]]. injection J as <- <- _ _. exact E.
  - destruct I as ([[q' v'] H'] & I & J). unfold surface_choice in J. destruct (nth q' constraints None) as [k'|] eqn:E; [|destruct J]. destruct J as [J|[]]. injection J as <- <- _ _. exact E.
Qed.
