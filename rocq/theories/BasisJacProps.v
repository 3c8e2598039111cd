(** The derivative of the contact basis is what the code assembles, except where the axis of the tangent changes. *)
From Coq Require Import Reals List Bool Lra Lia Psatz Arith.
From Coquelicot Require Import Coquelicot.
From Verif Require Import Vec3 Mat3 RList KernelModel KernelSpec KernelProofs FieldModel FieldSpec ContactMapSpec NeighborModel SurfJacModel ContactJacModel AssemblyModel ContactAsmModel ContactAsmSpec BasisJacModel BasisJacSpec FieldProofs SurfJacProofs ContactJacProofs NeighborProofs ContactMapProofs ContactAsmProofs BasisJacProofs.
Import ListNotations.
Local Open Scope R_scope.

(** The contact normal points against the gradient, has unit length, and moves by the Jacobian of the code. *)
Theorem normal_derivative : forall g H u, moves g (m3_mulv H u) -> g 0 <> v3_0 ->
  v3_dot (contact_normal (g 0)) (contact_normal (g 0)) = 1 /\ v3_scale (- v3_norm (g 0)) (contact_normal (g 0)) = g 0 /\
  moves (fun s => contact_normal (g s)) (m3_mulv (normal_jacobian (contact_normal (g 0)) (v3_norm (g 0)) H) u).
Proof.
  intros g H u M NZ. refine (conj (normal_unit _ NZ) (conj _ _)).
  - assert (P := v3_norm_pos _ NZ). unfold contact_normal. destruct (Rlt_dec 0 (v3_norm (g 0))) as [L|]; [|contradiction]. generalize dependent (v3_norm (g 0)). intros r P _. generalize (g 0). intros a. dv a. apply v3_eq; cbv [v3_scale vx vy vz]; field; lra.
  - rewrite normal_jacobian_mulv. apply normal_moves; assumption.
Qed.
(** A vector given in contact coordinates moves by the product of the code; so do the contact coordinates of a vector. *)
Theorem basis_product_derivative : forall iamax g H u m, picks_largest iamax -> moves g (m3_mulv H u) -> g 0 <> v3_0 -> dominant (g 0) ->
  let n := contact_normal (g 0) in
  moves (fun s => from_contact_coordinates (contact_frame iamax (g s)) m) (m3_mulv (basis_product n (iamax n) (v3_norm (g 0)) m false H) u) /\
  moves (fun s => to_contact_coordinates (contact_frame iamax (g s)) m) (m3_mulv (basis_product n (iamax n) (v3_norm (g 0)) m true H) u).
Proof.
  intros iamax g H u m PL M NZ DOM. cbv zeta. rewrite !basis_product_mulv. split; [exact (basis_moves iamax g _ m false PL M NZ DOM)|exact (basis_moves iamax g _ m true PL M NZ DOM)].
Qed.
(** Where two components of the normal are of equal size the tangent jumps: the basis has no derivative there. *)
Theorem basis_jump_refuted : exists g w, moves g w /\ g 0 <> v3_0 /\ forall iamax, picks_largest iamax -> ~ exists l, moves (fun s => fr_tangent (contact_frame iamax (g s))) l.
Proof.
  exists (fun s => V3 (1 + s) 1 0), (V3 1 0 0). refine (conj _ (conj _ _)).
  - refine (conj _ (conj _ _)); cbn [vx vy vz]; auto_derive; trivial; ring.
  - intros E. injection E. intros. lra.
  - intros iamax PL (l & _ & _ & D). cbv beta in D.
    assert (NP : forall s, 0 < 1 + s -> 0 < v3_norm (V3 (1 + s) 1 0)). { intros s S. apply v3_norm_pos. intros E. injection E. intros. lra. }
    assert (CN : forall s, 0 < 1 + s -> exists c, 0 < c /\ contact_normal (V3 (1 + s) 1 0) = V3 (- (c * (1 + s))) (- c) 0).
    { intros s S. specialize (NP s S). exists (/ v3_norm (V3 (1 + s) 1 0)). split; [apply Rinv_0_lt_compat; exact NP|]. unfold contact_normal. destruct (Rlt_dec 0 (v3_norm (V3 (1 + s) 1 0))); [|contradiction]. apply v3_eq; unfold v3_scale; cbn [vx vy vz]; field; lra. }
    assert (POS : forall s, 0 < s -> vz (fr_tangent (contact_frame iamax (V3 (1 + s) 1 0))) = 0).
    { intros s S. destruct (CN s) as (c & C & E); [lra|]. unfold contact_frame. rewrite E. set (n := V3 (- (c * (1 + s))) (- c) 0). assert (I : iamax n = 0%nat).
      { destruct (PL n) as [B L]. specialize (L 0%nat ltac:(lia)). destruct (iamax n) as [|[|[|k]]]; [reflexivity|exfalso|exfalso|lia]; unfold n in L; cbn [v3_get vx vy vz] in L; apply Rsqr_le_abs_1 in L; unfold Rsqr in L; assert (0 < c * c) by nra; nra. }
      rewrite I. unfold frame_from_normal, tangent_from_normal. cbn [fr_tangent]. change (Nat.modulo (0 + 1) 3) with 1%nat. unfold n. cbn [v3_get axis v3_sub v3_scale vx vy vz]. match goal with |- ?a * _ = 0 => generalize a end. intros a. ring. }
    assert (NEG : forall s, -1 < s < 0 -> vz (fr_tangent (contact_frame iamax (V3 (1 + s) 1 0))) = 1).
    { intros s S. destruct (CN s) as (c & C & E); [lra|]. unfold contact_frame. rewrite E. set (n := V3 (- (c * (1 + s))) (- c) 0). assert (I : iamax n = 1%nat).
      { destruct (PL n) as [B L]. specialize (L 1%nat ltac:(lia)). destruct (iamax n) as [|[|[|k]]]; [exfalso|reflexivity|exfalso|lia]; unfold n in L; cbn [v3_get vx vy vz] in L; apply Rsqr_le_abs_1 in L; unfold Rsqr in L; assert (0 < c * c) by nra; nra. }
      rewrite I. unfold frame_from_normal, tangent_from_normal. cbn [fr_tangent]. change (Nat.modulo (1 + 1) 3) with 2%nat. unfold n. cbn [v3_get axis]. assert (T : v3_sub (V3 0 0 1) (v3_scale 0 (V3 (- (c * (1 + s))) (- c) 0)) = V3 0 0 1) by (apply v3_eq; unfold v3_sub, v3_scale; cbn [vx vy vz]; ring).
      cbn [vz]. rewrite T. assert (N1 : v3_norm (V3 0 0 1) = 1) by (unfold v3_norm, v3_dot; cbn [vx vy vz]; replace (0 * 0 + 0 * 0 + 1 * 1) with 1 by ring; apply sqrt_1). rewrite N1. unfold v3_scale. cbn [vz]. field. }
    set (f := fun s => vz (fr_tangent (contact_frame iamax (V3 (1 + s) 1 0)))) in *. assert (C : continuous f 0) by (apply (@ex_derive_continuous R_AbsRing R_NormedModule); exists (vz l); exact D).
    destruct (proj1 (filterlim_locally f (f 0)) C (mkposreal (1 / 4) ltac:(lra))) as [d H]. cbn [RIneq.pos] in H.
    assert (DP := cond_pos d). set (e := Rmin (d / 2) (1 / 2)). assert (EP : 0 < e < 1 /\ e < d). { unfold e. split; [split|]. - apply Rmin_pos; lra. - apply (Rle_lt_trans _ (1 / 2)); [apply Rmin_r|lra]. - apply (Rle_lt_trans _ (d / 2)); [apply Rmin_l|lra]. }
    assert (H1 := H e). assert (H2 := H (- e)). assert (BALL : forall x r y, ball x r y <-> Rabs (y - x) < r) by (intros; reflexivity). rewrite !BALL in H1, H2. assert (P1 : f e = 0) by (apply POS; lra). assert (P2 : f (- e) = 1) by (apply NEG; lra). rewrite P1 in H1. rewrite P2 in H2. clearbody f.
    assert (A1 : Rabs (e - 0) < d) by (rewrite Rabs_right; lra). assert (A2 : Rabs (- e - 0) < d) by (rewrite Rabs_left; lra). specialize (H1 A1). specialize (H2 A2). cbn [RIneq.pos] in H1, H2. apply Rabs_def2 in H1. apply Rabs_def2 in H2. lra.
Qed.

(** All contacts: when the blocks of second derivatives given to the code describe how the gradients move, the assembled blocks
    describe how the products with the bases move, contact by contact. *)
Theorem basis_blocks_derivative : forall iamax active constraints surface collider normals grads ms tr Q L u G, picks_largest iamax ->
  NoDup active -> (forall a, In a active -> (a < length collider)%nat) -> reverse_map (length collider) active = Some constraints ->
  (forall q H, In (q, H) Q -> (q < length collider)%nat) -> (forall q v H, In (q, v, H) L -> (q < length collider)%nat /\ (v < length surface)%nat) ->
  normals = map (fun a => contact_normal (G a 0)) active -> grads = map (fun a => G a 0) (seq 0 (length collider)) -> length ms = length active ->
  (forall a, In a active -> G a 0 <> v3_0 /\ dominant (G a 0) /\ moves (G a) (gradient_velocity surface collider Q L u a)) ->
  exists P, basis_jacobian_product iamax constraints surface collider normals grads ms tr Q L = Some P /\
    (forall k v B, In (k, v, B) P -> (k < length active)%nat /\ (In v surface \/ In v collider)) /\
    forall k a, nth_error active k = Some a ->
      moves (fun s => (if tr then to_contact_coordinates else from_contact_coordinates) (contact_frame iamax (G a s)) (nth k ms v3_0)) (block_product P u k).
Proof.
  intros iamax active constraints surface collider normals grads ms tr Q L u G PL ND RA RM RQ RL EN EG LM HG. destruct (reverse_map_spec (length collider) active ND RA) as (inv & E & LI & IN). rewrite RM in E. injection E as <-.
  assert (LN : length normals = length active) by (rewrite EN; apply map_length). assert (LG : length grads = length constraints) by (rewrite EG, map_length, seq_length; congruence).
  eexists. split; [apply (product_form iamax active); try assumption; rewrite LI; try assumption; reflexivity|]. split.
  - intros k v B I. apply in_map_iff in I. destruct I as ([[[k' q] v'] H] & E & I). injection E as <- <- _. split.
    + assert (C := choices_known _ _ _ _ _ _ _ _ _ I). apply IN in C. apply nth_error_Some. congruence.
    + apply in_app_iff in I. destruct I as [I|I]; apply in_flat_map in I.
      * destruct I as ([q' H'] & I & J). unfold query_choice in J. destruct (nth q' constraints None); [|destruct J]. destruct J as [J|[]]. injection J as _ _ <- _. right. apply nth_In, (RQ _ _ I).
      * destruct I as ([[q' w] H'] & I & J). unfold surface_choice in J. destruct (nth q' constraints None); [|destruct J]. destruct J as [J|[]]. injection J as _ _ <- _. left. apply nth_In, (proj2 (RL _ _ _ I)).
  - intros k a AK. assert (IA : In a active) by (eapply nth_error_In, AK). destruct (HG a IA) as (NZ & DOM & MG).
    rewrite (blocks_turn iamax active constraints normals grads ms tr u k a IN AK) by (intros k' q v H I; exact (choices_known _ _ _ _ _ _ _ _ _ I)).
    rewrite map_app, vsum_app, (query_picked active constraints collider u k a IN AK), (surface_picked active constraints surface u k a IN AK).
    assert (E1 : nth k normals v3_0 = contact_normal (G a 0)). { rewrite EN. apply nth_error_nth. rewrite nth_error_map, AK. reflexivity. }
    assert (E2 : nth a grads v3_0 = G a 0). { rewrite EG. apply nth_error_nth. rewrite nth_error_map, (nth_error_nth' _ 0%nat) by (rewrite seq_length; exact (RA a IA)). rewrite seq_nth by exact (RA a IA). reflexivity. }
    rewrite E1, E2. assert (B := basis_moves iamax (G a) _ (nth k ms v3_0) tr PL MG NZ DOM). destruct tr; exact B.
Qed.
(** The assembled gradient product is the transpose of those blocks, restricted to the free vertices. *)
Theorem basis_gradient_adjoint : forall iamax active constraints surface collider normals grads ms tr Q L n P,
  NoDup active -> (forall a, In a active -> (a < length collider)%nat) -> reverse_map (length collider) active = Some constraints ->
  basis_jacobian_product iamax constraints surface collider normals grads ms tr Q L = Some P -> (forall k v B, In (k, v, B) P -> (k < length active)%nat) ->
  exists g, basis_gradient_product iamax constraints surface collider normals grads ms tr Q L n = Some g /\ in_order (mp_pattern g) /\
    (forall p, In p (mp_pattern g) -> (fst p < n)%nat /\ (snd p < length active)%nat) /\
    forall u y, (forall i, (n <= i)%nat -> u i = v3_0) ->
      pairing (length active) y (fun k => block_product P u k) = pairing n (fun i => block_product (stored g) y i) u.
Proof.
  intros iamax active constraints surface collider normals grads ms tr Q L n P ND RA RM EP RP. unfold basis_gradient_product. rewrite EP. cbn [option_map]. eexists. split; [reflexivity|]. set (F := filter (fun e : nat * nat * m3 => Nat.ltb (snd (fst e)) n) P).
  change (map (fun e : nat * nat * m3 => let '(row, col, B) := e in ((col, row), m3_transpose B)) F) with (gradient_triplets F).
  assert (B := build_correct m3 m3_add m3_zero m3_monoid (fun _ => true) (gradient_triplets F)). split; [apply B|].
  assert (RF : forall e, In e F -> (fst (fst e) < length active)%nat /\ (snd (fst e) < n)%nat). { intros [[k v] M] I. apply filter_In in I. destruct I as [I J]. split; [exact (RP _ _ _ I)|apply Nat.ltb_lt, J]. }
  split.
  - intros [r c] I. destruct B as (_ & _ & IP & _). apply IP in I. destruct I as [_ I]. apply in_map_iff in I. destruct I as (e & E & I). apply in_map_iff in I. destruct I as ([[r' c'] M] & <- & I). cbn [fst] in E. injection E as <- <-. cbn [fst snd]. destruct (RF _ I) as [X Y]. split; assumption.
  - intros u y UZ. transitivity (pairing (length active) y (block_product F u)).
    + unfold pairing. apply rsum_ext. intros k _. f_equal. symmetry. apply product_filter. intros [[r c] M] I J. right. apply UZ. cbn [fst snd] in *. apply Nat.ltb_ge in J. exact J.
    + etransitivity; [exact (pairing_adjoint F (length active) n u y RF)|]. unfold pairing. apply rsum_ext. intros i _. rewrite (product_built (gradient_triplets F)) by exact B. reflexivity.
Qed.

(** ** Examples *)
Definition first_largest (v : v3) : nat :=
  if Rle_dec (Rabs (vy v)) (Rabs (vx v)) then (if Rle_dec (Rabs (vz v)) (Rabs (vx v)) then 0 else 2)%nat
  else (if Rle_dec (Rabs (vz v)) (Rabs (vy v)) then 1 else 2)%nat.
Example first_largest_picks : picks_largest first_largest.
Proof.
  intros v. unfold first_largest. destruct (Rle_dec (Rabs (vy v)) (Rabs (vx v))), (Rle_dec (Rabs (vz v)) (Rabs (vx v))), (Rle_dec (Rabs (vz v)) (Rabs (vy v))); (split; [lia|]); intros [|[|[|j]]] J; try lia; cbn [v3_get]; lra.
Qed.
Definition tilting (s : R) : v3 := V3 s 0 (2 - s).
Example tilting_ok : tilting 0 <> v3_0 /\ dominant (tilting 0) /\ v3_norm (tilting 0) = 2 /\ moves tilting (V3 1 0 (-1)).
Proof.
  refine (conj _ (conj _ (conj _ _))).
  - intros E. unfold tilting in E. injection E. intros. lra.
  - exists 2%nat. split; [lia|]. intros [|[|[|j]]] J NE; try lia; cbn [v3_get tilting vx vy vz]; rewrite Rabs_R0; apply Rabs_pos_lt; lra.
  - unfold tilting, v3_norm, v3_dot. cbn [vx vy vz]. replace (0 * 0 + 0 * 0 + (2 - 0) * (2 - 0)) with (2 * 2) by ring. apply sqrt_square. lra.
  - refine (conj _ (conj _ _)); unfold tilting; cbn [vx vy vz]; auto_derive; trivial; ring.
Qed.
Example tilting_normal : contact_normal (tilting 0) = V3 0 0 (-1) /\ moves (fun s => contact_normal (tilting s)) (V3 (-1/2) 0 0).
Proof.
  destruct tilting_ok as (NZ & _ & N2 & M). assert (E : contact_normal (tilting 0) = V3 0 0 (-1)). { unfold contact_normal. rewrite N2. destruct (Rlt_dec 0 2); [|lra]. apply v3_eq; unfold tilting, v3_scale; cbn [vx vy vz]; field. }
  split; [exact E|]. assert (MI : moves tilting (m3_mulv m3_I (V3 1 0 (-1)))) by (rewrite mulv_I; exact M). destruct (normal_derivative tilting m3_I (V3 1 0 (-1)) MI NZ) as (_ & _ & D). eapply moves_is; [exact D|]. rewrite E, N2. apply v3_eq; cbv [normal_jacobian m3_outer m3_I m3_scale m3_mul m3_sub m3_mulv m3_transpose v3_scale v3_sub v3_dot r0 r1 r2 vx vy vz]; field.
Qed.
Example tilting_basis : exists l l', moves (fun s => from_contact_coordinates (contact_frame first_largest (tilting s)) (V3 1 2 3)) l /\ moves (fun s => to_contact_coordinates (contact_frame first_largest (tilting s)) (V3 1 2 3)) l'.
Proof.
  destruct tilting_ok as (NZ & DOM & N2 & M). assert (MI : moves tilting (m3_mulv m3_I (V3 1 0 (-1)))) by (rewrite mulv_I; exact M). do 2 eexists. exact (basis_product_derivative first_largest tilting m3_I (V3 1 0 (-1)) (V3 1 2 3) first_largest_picks MI NZ DOM).
Qed.
(** Two query points, the second in contact with a surface of one vertex. *)
Definition tilt_velocity (i : nat) : v3 := match i with 3%nat => V3 1 0 0 | O => V3 0 0 1 | _ => v3_0 end.
Example tilting_blocks : exists P, basis_jacobian_product first_largest [None; Some 0%nat] [0%nat] [5%nat; 3%nat] [contact_normal (tilting 0)] [v3_0; tilting 0] [V3 1 2 3] false
    [(1%nat, m3_I)] [(1%nat, 0%nat, m3_scale (-1) m3_I)] = Some P /\ length P = 2%nat /\
  moves (fun s => from_contact_coordinates (contact_frame first_largest (tilting s)) (V3 1 2 3)) (block_product P tilt_velocity 0).
Proof.
  destruct tilting_ok as (NZ & DOM & N2 & M).
  destruct (basis_blocks_derivative first_largest [1%nat] [None; Some 0%nat] [0%nat] [5%nat; 3%nat] [contact_normal (tilting 0)] [v3_0; tilting 0] [V3 1 2 3] false
    [(1%nat, m3_I)] [(1%nat, 0%nat, m3_scale (-1) m3_I)] tilt_velocity (fun a => match a with 1%nat => tilting | _ => fun _ => v3_0 end)) as (P & EP & _ & D); try reflexivity.
  - exact first_largest_picks.
  - repeat constructor; intros [].
  - intros a [<-|[]]. cbn. lia.
  - intros q H [E|[]]. injection E as <- _. cbn. lia.
  - intros q v H [E|[]]. injection E as <- <- _. cbn. lia.
  - intros a [<-|[]]. refine (conj NZ (conj DOM _)). eapply moves_is; [exact M|]. unfold gradient_velocity. cbn [map fst snd Nat.eqb nth tilt_velocity]. rewrite !vsum_cons. cbn [vsum fold_right]. apply v3_eq; cbv [m3_mulv m3_I m3_scale v3_add v3_scale v3_dot v3_0 r0 r1 r2 vx vy vz]; ring.
  - exists P. split; [exact EP|]. split; [|exact (D 0%nat 1%nat eq_refl)]. cbn in EP. injection EP as <-. reflexivity.
Qed.
Example tilting_adjoint : exists P g, basis_jacobian_product first_largest [None; Some 0%nat] [0%nat] [5%nat; 3%nat] [contact_normal (tilting 0)] [v3_0; tilting 0] [V3 1 2 3] true
    [(1%nat, m3_I)] [(1%nat, 0%nat, m3_scale (-1) m3_I)] = Some P /\
  basis_gradient_product first_largest [None; Some 0%nat] [0%nat] [5%nat; 3%nat] [contact_normal (tilting 0)] [v3_0; tilting 0] [V3 1 2 3] true
    [(1%nat, m3_I)] [(1%nat, 0%nat, m3_scale (-1) m3_I)] 4 = Some g /\ mp_pattern g = [(0, 0)%nat; (3, 0)%nat] /\
  pairing 1 (fun _ => V3 1 0 1) (fun k => block_product P tilt_velocity k) = pairing 4 (fun i => block_product (stored g) (fun _ => V3 1 0 1) i) tilt_velocity.
Proof.
  eexists. destruct (basis_gradient_adjoint first_largest [1%nat] [None; Some 0%nat] [0%nat] [5%nat; 3%nat] [contact_normal (tilting 0)] [v3_0; tilting 0] [V3 1 2 3] true
    [(1%nat, m3_I)] [(1%nat, 0%nat, m3_scale (-1) m3_I)] 4 _ ltac:(repeat constructor; intros []) ltac:(intros a [<-|[]]; cbn; lia) eq_refl eq_refl) as (g & EG & _ & _ & PR).
  - intros k v B [E|[E|[]]]; injection E as <- _ _; cbn; lia.
  - exists g. split; [reflexivity|]. split; [exact EG|]. split.
    + cbn in EG. injection EG as <-. reflexivity.
    + apply PR. intros [|[|[|[|i]]]] H; try lia. reflexivity.
Qed.
Example jump_seen : exists g w, moves g w /\ g 0 = V3 1 1 0.
Proof. exists (fun s => V3 (1 + s) 1 0), (V3 1 0 0). split; [|apply v3_eq; cbn [vx vy vz]; ring]. refine (conj _ (conj _ _)); cbn [vx vy vz]; auto_derive; trivial; ring. Qed.

Print Assumptions normal_derivative.
Print Assumptions basis_product_derivative.
Print Assumptions basis_jump_refuted.
Print Assumptions basis_blocks_derivative.
Print Assumptions basis_gradient_adjoint.
