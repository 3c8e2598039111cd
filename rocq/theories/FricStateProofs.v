(** Proofs about assembled friction: the state computed for a contact, and refreshed after the vertices have moved. *)
From Coq Require Import Reals List Bool Lra Lia Sorting.Sorted.
From Coquelicot Require Import Coquelicot.
From Verif Require Import Vec3 Mat3 RList KernelModel KernelSpec FieldModel FieldSpec FieldProofs NeighborModel NeighborSpec NeighborProofs UpdateProps SurfJacModel SurfJacSpec SurfJacProofs HessModel HessSpec HessMixProofs SurfHessProps FieldProps ContactModel ContactJacModel ContactMapModel ContactMapSpec ContactMapProofs
  AssemblyModel ContactAsmModel ContactAsmSpec ContactAsmProofs ContactAsmProps ContactDerivModel ContactDerivSpec ContactDerivRowProofs ContactDerivProps BasisJacModel BasisJacSpec BasisJacProofs
  ContactHessModel ContactHessSpec ContactHessProofs ContactRowProofs ContactMoveProofs FrictionModel FricAsmModel FricAlgProofs.
Import ListNotations.
Local Open Scope R_scope.

(** The blocks with relabelled places. *)
Definition jj_places (c : contact) (inv : list (option nat)) (n : nat) (A B : list (nat * nat)) : list pos :=
  flat_map (fun e => match nth (fst e) inv None with Some k => [(snd e, k)] | None => [] end)
    (filter (fun e => Nat.ltb (snd e) n) (map (fun e => (fst e, sv c (snd e))) A ++ map (fun e => (fst e, cv c (snd e))) B)).
Definition jj_blocks (c : contact) (inv : list (option nat)) (n : nat) (A B : blocks) : list (pos * m3) :=
  flat_map (fun e => match nth (fst (fst e)) inv None with Some k => [((snd (fst e), k), snd e)] | None => [] end)
    (filter (fun e : nat * nat * m3 => Nat.ltb (snd (fst e)) n) (map (fun e => (fst (fst e), sv c (snd (fst e)), snd e)) A ++ map (fun e => (fst (fst e), cv c (snd (fst e)), snd e)) B)).
Definition jg_places (c : contact) (n : nat) (A B : list (nat * nat)) : list pos :=
  filter (fun e => andb (Nat.ltb (fst e) n) (Nat.ltb (snd e) n)) (map (fun e => (sv c (fst e), sv c (snd e))) A ++ map (fun e => (sv c (fst e), cv c (snd e))) B).
Definition jg_blocks (c : contact) (n : nat) (A B : blocks) : list (pos * m3) :=
  map (fun e => (fst e, m3_transpose (snd e))) (filter (fun e : nat * nat * m3 => andb (Nat.ltb (fst (fst e)) n) (Nat.ltb (snd (fst e)) n))
    (map (fun e => (sv c (fst (fst e)), sv c (snd (fst e)), snd e)) A ++ map (fun e => (sv c (fst (fst e)), cv c (snd (fst e)), snd e)) B)).
Lemma map_fst_filter {A} (q : nat * nat -> bool) (L : list (nat * nat * A)) : map fst (filter (fun h => q (fst h)) L) = filter q (map fst L).
Proof. apply map_filter_fst. Qed.
Lemma jj_fst c inv n A B : map fst (jj_blocks c inv n A B) = jj_places c inv n (map fst A) (map fst B).
Proof.
  unfold jj_blocks, jj_places. rewrite !map_map.
  rewrite (map_ext (fun x : nat * nat * m3 => (fst (fst x), sv c (snd (fst x)))) (fun x => fst (fst (fst x), sv c (snd (fst x)), snd x))) by reflexivity.
  rewrite (map_ext (fun x : nat * nat * m3 => (fst (fst x), cv c (snd (fst x)))) (fun x => fst (fst (fst x), cv c (snd (fst x)), snd x))) by reflexivity.
  rewrite <- (map_map (fun e : nat * nat * m3 => (fst (fst e), sv c (snd (fst e)), snd e)) fst), <- (map_map (fun e : nat * nat * m3 => (fst (fst e), cv c (snd (fst e)), snd e)) fst), <- map_app.
  rewrite <- (map_fst_filter (fun e => Nat.ltb (snd e) n)). generalize (filter (fun h : nat * nat * m3 => Nat.ltb (snd (fst h)) n) (map (fun e => (fst (fst e), sv c (snd (fst e)), snd e)) A ++ map (fun e => (fst (fst e), cv c (snd (fst e)), snd e)) B)). intros L.
  induction L as [|[[r v] M] L IH]; [reflexivity|]. cbn [flat_map map fst snd]. destruct (nth r inv None); [cbn [map app fst]; f_equal; exact IH|exact IH].
Qed.
Lemma jg_fst c n A B : map fst (jg_blocks c n A B) = jg_places c n (map fst A) (map fst B).
Proof.
  unfold jg_blocks, jg_places. rewrite !map_map. cbn [fst].
  rewrite (map_ext (fun x : nat * nat * m3 => (sv c (fst (fst x)), sv c (snd (fst x)))) (fun x => fst (sv c (fst (fst x)), sv c (snd (fst x)), snd x))) by reflexivity.
  rewrite (map_ext (fun x : nat * nat * m3 => (sv c (fst (fst x)), cv c (snd (fst x)))) (fun x => fst (sv c (fst (fst x)), cv c (snd (fst x)), snd x))) by reflexivity.
  rewrite <- (map_map (fun e : nat * nat * m3 => (sv c (fst (fst e)), sv c (snd (fst e)), snd e)) fst), <- (map_map (fun e : nat * nat * m3 => (sv c (fst (fst e)), cv c (snd (fst e)), snd e)) fst), <- map_app.
  apply (map_fst_filter (fun e => andb (Nat.ltb (fst e) n) (Nat.ltb (snd e) n))).
Qed.

Section State.
Variable iamax : v3 -> nat.
Variable ord : list nat -> list nat.
Hypothesis OK : lists_the_set ord.
Section One.
Variable c : contact.
Variable n : nat.
Hypothesis SH : contact_shape c n.
Let t := ct_topo c.
Let b := cbase c.
Let ns := trivial_neighborhood t.
Let nb r := nth r ns [].

Lemma IOK : indices_ok t. Proof. apply SH. Qed.
Lemma filled_range r : In r (filled t) -> (r < length (ct_points c))%nat.
Proof. intros I. rewrite (LPN c n SH). unfold filled in I. apply filter_In in I. destruct I as [I _]. apply in_seq in I. unfold ns in *. fold t. lia. Qed.
Lemma filled_nodup : NoDup (filled t).
Proof. unfold filled. apply NoDup_filter, seq_NoDup. Qed.
Lemma near_row r i : In i (nb r) -> (r < length (ct_points c))%nat.
Proof. intros I. rewrite (LPN c n SH). fold t ns. destruct (Nat.lt_ge_cases r (length ns)) as [L|G]; [exact L|]. unfold nb in I. rewrite nth_overflow in I by exact G. destruct I. Qed.
Lemma depends_range i v : In i (flat_map (fun r => nb r) (seq 0 (length ns))) -> depends_on b i v -> (v < length (sb_verts b))%nat.
Proof.
  intros I D. apply in_flat_map in I. destruct I as (r & R & I). apply in_seq in R. unfold depends_on in D. rewrite (TY c n SH : sb_type b = SFace) in D.
  apply (vertex_bound b i v (TY c n SH) (WF c n SH)); [|destruct D as (tr & E & D); unfold SurfHessModel.tri_of; rewrite (nth_error_nth _ _ _ E); exact D]. destruct IOK as (_ & K & _). apply (K (nb r)); [left; apply nth_In; fold ns; lia|exact I].
Qed.
Lemma near_depends r i v : In i (nb r) -> depends_on b i v -> (v < length (sb_verts b))%nat.
Proof. intros I D. apply (depends_range i v); [|exact D]. apply in_flat_map. exists r. split; [|exact I]. apply in_seq. pose proof (near_row r i I) as L. rewrite (LPN c n SH) in L. fold t ns in L. lia. Qed.
Lemma rows_are : crows c = map (fun r => (r, (nth r (ct_points c) v3_0, nb r))) (filled t).
Proof. unfold crows, hessian_rows. apply rows_of_filled. exact (LPN c n SH). Qed.
Lemma rows_count : length (crows c) = length (filled t).
Proof. rewrite rows_are. apply map_length. Qed.
Lemma query_rows : query_jacobian_triplets t (ct_points c) = Some (map (fun p => (fst p, fst p, jcol c p)) (crows c)).
Proof.
  unfold query_jacobian_triplets. assert (R := closest_rows (ct_points c) ns (closest_samples t) 0 (LPN c n SH) (LCL c n SH)). fold ns. fold (enumerate (combine (ct_points c) (combine ns (closest_samples t)))) in R. unfold crows, hessian_rows. fold t ns. unfold enumerate at 2. rewrite <- R.
  rewrite map_map. cbn [fst snd]. apply all_some_map. intros [i [q [l x]]] I. cbn [fst snd].
  assert (I' : In (i, (q, l)) (crows c)). { unfold crows, hessian_rows. fold t ns. unfold enumerate. rewrite <- R. apply in_map_iff. exists (i, (q, (l, x))). split; [reflexivity|exact I]. }
  pose proof (jcol_some c _ I') as J. cbn [fst snd] in J. rewrite closest_hint_unused by (destruct (row_in c _ I') as (_ & _ & _ & N); exact N). unfold csamples, cbase in J. fold t in J. rewrite J. reflexivity.
Qed.
Definition frames_of : list frame := map (fun p => contact_frame iamax (jcol c p)) (crows c).
Lemma frames_some : contact_frames iamax c (map (fun p => - ct_kappa c * penalty_db (ct_delta c) (dpot c p)) (crows c)) = Some frames_of.
Proof. unfold contact_frames. fold t. rewrite query_rows. rewrite !map_length, Nat.eqb_refl, map_map. reflexivity. Qed.
Lemma gradients_some : exists g, query_gradients t (ct_points c) = Some g /\ length g = length (ct_points c) /\ forall r, In r (filled t) -> nth_error g r = Some (jcol c (r, (nth r (ct_points c) v3_0, nb r))).
Proof.
  unfold query_gradients. set (L := combine (ct_points c) (combine (trivial_neighborhood t) (closest_samples t))).
  set (f := fun p : v3 * (list nat * nat) => match query_jacobian_at (fst p) (sb_samples (q_base t)) (fst (snd p)) (Some (snd (snd p))) (q_kernel t) (sb_bg (q_base t)) with Some g => g | None => v3_0 end).
  exists (map f L). split; [|split].
  - apply all_some_map. intros [q [l x]] _. unfold f. cbn [fst snd]. unfold query_jacobian_at, bg_new. reflexivity.
  - rewrite map_length. unfold L. rewrite !combine_length. rewrite (LPN c n SH : length (ct_points c) = length (trivial_neighborhood t)), (LCL c n SH : length (closest_samples t) = _). fold t. lia.
  - intros r I. pose proof (filled_range r I) as R. assert (R2 := R). rewrite (LPN c n SH) in R2. fold t in R2.
    assert (E : nth_error L r = Some (nth r (ct_points c) v3_0, (nth r (trivial_neighborhood t) [], nth r (closest_samples t) 0%nat))).
    { unfold L. rewrite (nth_error_nth' _ (v3_0, ([], 0%nat))) by (rewrite !combine_length, (LCL c n SH : length (closest_samples t) = length (trivial_neighborhood t)); lia). f_equal. rewrite !combine_nth; [reflexivity|exact (eq_sym (LCL c n SH))|]. rewrite combine_length, (LCL c n SH : length (closest_samples t) = length (trivial_neighborhood t)), (LPN c n SH : length (ct_points c) = length (trivial_neighborhood t)). lia. }
    rewrite nth_error_map, E. cbn [option_map]. f_equal. unfold f. cbn [fst snd].
    assert (I' : In (r, (nth r (ct_points c) v3_0, nb r)) (crows c)) by (rewrite rows_are; apply in_map_iff; exists r; split; [reflexivity|exact I]).
    rewrite closest_hint_unused by (destruct (row_in c _ I') as (_ & _ & _ & N); exact N). pose proof (jcol_some c _ I') as J. cbn [fst snd] in J. unfold csamples, cbase in J. fold t in J. unfold nb, ns in *. rewrite J. reflexivity.
Qed.
Let I1 := places1 ord (sb_topo b) ns (filled t).
Let I2 := places2 ns (filled t).
Let I3 := places3 ord (sb_topo b) ns (filled t).
Let I4 := places4 (sb_topo b) ns (filled t).
Lemma PLACES : let P := derivative_places ord t OK (WF c n SH) IOK (TY c n SH) in True.
Proof. exact Logic.I. Qed.
Lemma all_columns (vs : list nat) (f : nat -> nat) (L : blocks) : (forall e, In e L -> nth_error vs (snd (fst e)) = Some (f (snd (fst e)))) ->
  all_some (map (fun e => let '(row, col, M) := e in option_map (fun v => (row, v, M)) (nth_error vs col)) L) = Some (map (fun e => (fst (fst e), f (snd (fst e)), snd e)) L).
Proof. intros H. apply all_some_map. intros [[r v] M] I. specialize (H _ I). cbn [fst snd] in *. rewrite H. reflexivity. Qed.
Lemma jj_some inv mults : length inv = length (ct_points c) -> (length (sb_verts b) <= length mults)%nat ->
  exists A B, contact_jacobian_jacobian ord t (ct_points c) mults = Result (Some A) /\ contact_query_jacobian_jacobian t (ct_points c) mults = Result (Some B) /\
    map fst A = I1 /\ map fst B = I2 /\ forall m, jac_jacobian_triplets ord c inv mults m = Some (jj_blocks c inv m A B).
Proof.
  intros LI LM. destruct (derivative_places ord t OK (WF c n SH) IOK (TY c n SH)) as (P & _ & J1 & J2 & _ & _). destruct (P (ct_points c) mults (LPN c n SH) LM) as (A & B & EA & EB & FA & FB).
  exists A, B. refine (conj EA (conj EB (conj FA (conj FB _)))). intros m. unfold jac_jacobian_triplets. fold t. rewrite EA, EB. cbn [supported].
  assert (RA : forall e, In e A -> (fst (fst e) < length (ct_points c))%nat /\ (snd (fst e) < length (sb_verts b))%nat).
  { intros [[r v] M] I. cbn [fst snd]. assert (I' : In (r, v) (map fst A)) by (apply in_map_iff; exists (r, v, M); split; [reflexivity|exact I]). rewrite FA in I'. apply J1 in I'. destruct I' as (i & Hi & D). split; [exact (near_row r i Hi)|exact (near_depends r i v Hi D)]. }
  assert (RB : forall e, In e B -> (fst (fst e) < length (ct_points c))%nat /\ (snd (fst e) < length (ct_points c))%nat).
  { intros [[r v] M] I. cbn [fst snd]. assert (I' : In (r, v) (map fst B)) by (apply in_map_iff; exists (r, v, M); split; [reflexivity|exact I]). rewrite FB in I'. apply J2 in I'. destruct I' as (-> & D). destruct (nth r (trivial_neighborhood t) []) as [|i l] eqn:E; [contradiction|]. assert (L : (r < length (ct_points c))%nat) by (apply (near_row r i); unfold nb, ns; rewrite E; left; reflexivity). split; exact L. }
  rewrite (all_columns _ (sv c)), (all_columns _ (cv c)).
  - unfold jj_blocks. apply all_some_flat. intros [[r v] M] I. cbn [fst snd]. apply filter_In in I. destruct I as [I _].
    assert (L : (r < length inv)%nat). { rewrite LI. apply in_app_or in I. destruct I as [I|I]; apply in_map_iff in I; destruct I as ([[r' v'] M'] & E & I); cbn [fst snd] in E; injection E as <- _ _; [exact (proj1 (RA _ I))|exact (proj1 (RB _ I))]. }
    rewrite (nth_error_nth' inv None) by exact L. destruct (nth r inv None); reflexivity.
  - intros e I. apply nth_error_nth'. rewrite (LCV c n SH). apply RB, I.
  - intros e I. apply nth_error_nth'. rewrite (LSV c n SH). apply RA, I.
Qed.
Lemma jg_some mults : length mults = length (filled t) ->
  exists A B, contact_hessian ord t (ct_points c) mults = Result (Some A) /\ contact_query_hessian t (ct_points c) mults = Result (Some B) /\
    map fst A = I3 /\ map fst B = I4 /\ (forall e, In e A -> (fst (fst e) < length (sb_verts b))%nat) /\ (forall e, In e B -> (fst (fst e) < length (sb_verts b))%nat) /\ forall m, jac_gradient_triplets ord c mults m = Some (jg_blocks c m A B).
Proof.
  intros LM. destruct (derivative_places ord t OK (WF c n SH) IOK (TY c n SH)) as (_ & P & _ & _ & J3 & J4). destruct (P (ct_points c) mults (LPN c n SH) LM) as (A & B & EA & EB & FA & FB).
  assert (RA : forall e, In e A -> (fst (fst e) < length (sb_verts b))%nat /\ (snd (fst e) < length (sb_verts b))%nat).
  { intros [[r v] M] I. cbn [fst snd]. assert (I' : In (r, v) (map fst A)) by (apply in_map_iff; exists (r, v, M); split; [reflexivity|exact I]). rewrite FA in I'. apply J3 in I'. destruct I' as (q & i & j & Hi & Hj & D & D'). split; [exact (near_depends q i r Hi D)|exact (near_depends q j v Hj D')]. }
  assert (RB : forall e, In e B -> (fst (fst e) < length (sb_verts b))%nat /\ (snd (fst e) < length (ct_points c))%nat).
  { intros [[r v] M] I. cbn [fst snd]. assert (I' : In (r, v) (map fst B)) by (apply in_map_iff; exists (r, v, M); split; [reflexivity|exact I]). rewrite FB in I'. apply J4 in I'. destruct I' as (i & Hi & D). split; [exact (near_depends v i r Hi D)|exact (near_row v i Hi)]. }
  exists A, B. refine (conj EA (conj EB (conj FA (conj FB (conj (fun e I => proj1 (RA e I)) (conj (fun e I => proj1 (RB e I)) _)))))). intros m. unfold jac_gradient_triplets. fold t. rewrite EA, EB. cbn [supported].
  rewrite (relabel_some A _ _ (sv c) (sv c)), (relabel_some B _ _ (sv c) (cv c)).
  - unfold jg_blocks. f_equal. apply map_ext. intros [[r v] M]. reflexivity.
  - intros e I. destruct (RB e I). split; apply nth_error_nth'; [rewrite (LSV c n SH)|rewrite (LCV c n SH)]; assumption.
  - intros e I. destruct (RA e I). split; apply nth_error_nth'; rewrite (LSV c n SH); assumption.
Qed.
(** The state that belongs to a contact. *)
Definition described (s : friction_state) : Prop :=
  fs_contact s = c /\ fs_active s = filled t /\ reverse_map (length (ct_points c)) (filled t) = Some (fs_constraints s) /\
  build_jacobian t (ct_points c) (filled t) = Some (fs_jacobian s) /\ build_gradient t (ct_points c) (filled t) (ct_surface c) (ct_collider c) n = Some (fs_gradient s) /\
  (exists A B, map fst A = I1 /\ map fst B = I2 /\ fs_jac_jacobian s = from_triplets m3_add m3_zero (fun _ => true) (jj_blocks c (fs_constraints s) n A B)) /\
  fs_jac_gradient s = jg_places c n I3 I4 /\ fs_distance s = build_distance_gradient (jacobian_rows c) n (constraint_size c) /\
  fs_dist s = map (dpot c) (crows c) /\ fs_lambda s = map (fun p => - ct_kappa c * penalty_db (ct_delta c) (dpot c p)) (crows c) /\ fs_frames s = frames_of.
Lemma multipliers_some : contact_multipliers c = Some (map (fun p => - ct_kappa c * penalty_db (ct_delta c) (dpot c p)) (crows c)).
Proof. unfold contact_multipliers. rewrite (distances c n SH). cbn [option_map]. unfold multipliers. rewrite map_map. reflexivity. Qed.
Lemma vertices_below : (length (sb_verts b) <= n)%nat.
Proof.
  unfold b. rewrite <- (LSV c n SH). assert (ND : NoDup (ct_surface c)).
  { assert (SS : StronglySorted lt (ct_surface c)) by apply SH. clear - SS. induction SS as [|a l S IH F]; constructor; [|exact IH]. intros I. rewrite Forall_forall in F. specialize (F a I). lia. }
  rewrite <- (seq_length n 0). apply NoDup_incl_length; [exact ND|]. intros v I. apply in_seq. split; [lia|]. apply (vertex_range c n SH). left. exact I.
Qed.
Lemma precompute_described : exists s, precompute_friction iamax ord c n = Some s /\ described s.
Proof.
  unfold precompute_friction. fold t. rewrite (active_filled t IOK).
  destruct (reverse_map_spec (length (ct_points c)) (filled t) filled_nodup filled_range) as (inv & EI & LI & _). rewrite EI.
  destruct (contact_jacobian_built t (ct_points c) (filled t) (WF c n SH) IOK (LPN c n SH) filled_nodup filled_range) as (_ & J & _ & EJ & _). rewrite EJ.
  destruct (full_form t (ct_points c) (filled t) (ct_surface c) (ct_collider c) n (WF c n SH) IOK (LPN c n SH) filled_nodup filled_range (LSV c n SH) (LCV c n SH)) as (inv' & L & EI' & _ & _ & EF). rewrite EI in EI'. injection EI' as <-.
  assert (EG : exists G, build_gradient t (ct_points c) (filled t) (ct_surface c) (ct_collider c) n = Some G) by (unfold build_gradient; rewrite EI, EF; eexists; reflexivity). destruct EG as [G EG]. rewrite EG.
  destruct (jj_some inv (repeat v3_0 n) LI) as (A & B & _ & _ & FA & FB & EJJ); [rewrite repeat_length; apply vertices_below|]. rewrite EJJ.
  destruct (jg_some (repeat v3_0 (length (filled t)))) as (A' & B' & _ & _ & FA' & FB' & _ & _ & EJG); [apply repeat_length|]. rewrite EJG, (distances c n SH), multipliers_some.
  unfold reset_distance_gradient. rewrite (jacobian_list c n SH). cbn [option_map]. rewrite frames_some. cbn [option_map]. eexists. split; [reflexivity|]. unfold described.
  cbn [fs_contact fs_active fs_constraints fs_jacobian fs_gradient fs_jac_jacobian fs_jac_gradient fs_distance fs_dist fs_lambda fs_frames].
  repeat (split; [first [reflexivity|assumption]|]). split; [exists A, B; repeat split; assumption|]. split; [rewrite jg_fst, FA', FB'; reflexivity|]. repeat split.
Qed.
End One.

(** Contacts with the same connectivity. *)
Lemma refresh_described c c' n s : contact_shape c n -> in_place (cbase c) -> contact_shape c' n -> in_place (cbase c') -> same_setup c c' -> described c n s -> exists s', refresh_friction iamax s c' n = Some s' /\ described c' n s'.
Proof.
  intros SH IP SH' IP' SS (D1 & D2 & D3 & D4 & D5 & D6 & D7 & D8 & D9 & D10 & D11). unfold refresh_friction.
  assert (EJR := same_jacobian_indices c c' n SH IP SH' IP' SS).
  assert (SS' := SS). destruct SS' as (T1 & T2 & T3 & T4 & T5 & T6 & T7 & T8 & T9 & T10 & T11 & T12 & T13 & T14 & T15).
  assert (EF : filled (ct_topo c') = filled (ct_topo c)) by (unfold filled; rewrite T1; reflexivity).
  assert (LP : length (ct_points c') = length (ct_points c)) by (rewrite (LPN c' n SH'), (LPN c n SH), T1; reflexivity).
  assert (SP : same_sparsity (ct_topo c) (ct_topo c')). { refine (conj T5 (conj T6 (conj _ T1))). fold (cbase c') (cbase c). rewrite <- (LSV c' n SH'), <- (LSV c n SH), T9. reflexivity. }
  rewrite D2.
  destruct (contact_jacobian_refreshed (ct_topo c) (ct_topo c') (ct_points c) (ct_points c') (filled (ct_topo c)) (WF c n SH) (IOK c n SH) (WF c' n SH') (IOK c' n SH') (LPN c n SH) (LPN c' n SH') SP (filled_nodup c) (filled_range c n SH)) as (m & m' & E1 & E2 & E3).
  assert (LC' : length (ct_collider c) = length (ct_points c)) by exact (LCV c n SH).
  destruct (contact_gradient_refreshed (ct_topo c) (ct_topo c') (ct_points c) (ct_points c') (filled (ct_topo c)) (ct_surface c) (ct_collider c) n (fs_constraints s) (WF c n SH) (IOK c n SH) (WF c' n SH') (IOK c' n SH') (LPN c n SH) (LPN c' n SH') SP (filled_nodup c) (filled_range c n SH) (LSV c n SH) LC' D3) as (g & g' & G1 & G2 & G3).
  rewrite D4 in E1. injection E1 as <-. rewrite D5 in G1. injection G1 as <-. rewrite T9, T10, E3, G3.
  assert (CS : constraint_size c' = constraint_size c) by (unfold constraint_size, num_neighborhoods; rewrite T1; reflexivity).
  assert (UG : update_constraint_gradient (fs_distance s) c' = Some (build_distance_gradient (jacobian_rows c') n (constraint_size c'))) by (unfold update_constraint_gradient; rewrite (jacobian_list c' n SH'), D8, CS; apply distance_gradient_refreshed, EJR).
  rewrite UG, (distances c' n SH'), (multipliers_some c' n SH'), (frames_some c' n SH'). cbn [option_map]. eexists. split; [reflexivity|]. unfold described.
  cbn [fs_contact fs_active fs_constraints fs_jacobian fs_gradient fs_jac_jacobian fs_jac_gradient fs_distance fs_dist fs_lambda fs_frames]. rewrite EF, LP, T9, T10.
  assert (SVC : sv c' = sv c) by (unfold sv; rewrite T9; reflexivity). assert (CVC : cv c' = cv c) by (unfold cv; rewrite T10; reflexivity).
  repeat (split; [first [reflexivity|assumption]|]). rewrite ?T1, ?T6. split.
  { destruct D6 as (A & B & FA & FB & E). exists A, B. refine (conj FA (conj FB _)). unfold jj_blocks in *. rewrite SVC, CVC. exact E. }
  split; [rewrite D7; unfold jg_places; rewrite SVC, CVC; reflexivity|]. repeat split.
Qed.
(** Two states of one contact differ at most in the last values of the derivative of the contact Jacobian. *)
Lemma described_alike c n s s' : described c n s -> described c n s' ->
  fs_contact s = fs_contact s' /\ fs_active s = fs_active s' /\ fs_constraints s = fs_constraints s' /\ fs_jacobian s = fs_jacobian s' /\ fs_gradient s = fs_gradient s' /\
  mp_mapping (fs_jac_jacobian s) = mp_mapping (fs_jac_jacobian s') /\ mp_pattern (fs_jac_jacobian s) = mp_pattern (fs_jac_jacobian s') /\ fs_jac_gradient s = fs_jac_gradient s' /\ fs_distance s = fs_distance s' /\ fs_dist s = fs_dist s' /\ fs_lambda s = fs_lambda s' /\ fs_frames s = fs_frames s'.
Proof.
  intros (D1 & D2 & D3 & D4 & D5 & D6 & D7 & D8 & D9 & D10 & D11) (F1 & F2 & F3 & F4 & F5 & F6 & F7 & F8 & F9 & F10 & F11).
  rewrite D3 in F3. injection F3 as F3. rewrite D4 in F4. injection F4 as F4. rewrite D5 in F5. injection F5 as F5.
  destruct D6 as (A & B & FA & FB & E). destruct F6 as (A' & B' & FA' & FB' & E'). rewrite <- F3 in E'.
  assert (P : map fst (jj_blocks c (fs_constraints s) n A B) = map fst (jj_blocks c (fs_constraints s) n A' B')) by (rewrite !jj_fst, FA, FB, FA', FB'; reflexivity).
  assert (Q : mp_mapping (fs_jac_jacobian s) = mp_mapping (fs_jac_jacobian s') /\ mp_pattern (fs_jac_jacobian s) = mp_pattern (fs_jac_jacobian s')).
  { rewrite E, E'. destruct (from_triplets_shape m3 m3_add m3_zero (fun _ => true) _ _ P) as [E1 E2]. split; assumption. }
  repeat split; try congruence; apply Q.
Qed.
End State.
