(** Proofs about the assembled contacts: what every constraint contributes to the energy, its derivatives and their indices. *)
From Coq Require Import Reals List Bool Lra Lia Psatz Sorting.Sorted.
From Coquelicot Require Import Coquelicot.
From Verif Require Import Vec3 Mat3 RList Calc KernelModel KernelSpec KernelProofs FieldModel FieldSpec FieldProofs FieldDerivProofs FieldProps
  NeighborModel NeighborSpec NeighborProofs UpdateProps SurfJacModel SurfJacSpec SurfJacProofs SurfJacProps HessModel HessSpec HessProofs HessMixProofs HessProps
  SurfHessModel SurfHessSpec JetProofs SurfHessProofs SurfHessCodeProofs SurfHessProps JointHessProofs ContactModel ContactSpec ContactProofs ContactMapSpec ContactMapProofs AssemblyModel ContactAsmModel ContactAsmSpec ContactAsmProofs ContactAsmProps
  ContactHessModel ContactHessSpec ContactHessProofs.
From Verif Require MassProofs ElasticModel.
Import ListNotations.
Local Open Scope R_scope.

Notation crow := (nat * (v3 * list nat))%type.
Definition crows (c : contact) : list crow := hessian_rows (ct_topo c) (ct_points c).
Definition cbase (c : contact) : base := q_base (ct_topo c).
Definition csamples (c : contact) : list sample := sb_samples (cbase c).
Definition sv (c : contact) (v : nat) : nat := nth v (ct_surface c) 0%nat.
Definition cv (c : contact) (i : nat) : nat := nth i (ct_collider c) 0%nat.
Definition cnum (c : contact) (i : nat) : nat := match nth i (neighborhood_numbers (ct_topo c)) None with Some j => j | None => 0%nat end.
Definition dpot (c : contact) (p : crow) : R := potential_at (fst (snd p)) (csamples c) (snd (snd p)) (q_kernel (ct_topo c)) (sb_bg (cbase c)) 0 - ct_offset c.
Definition jcol (c : contact) (p : crow) : v3 :=
  match query_jacobian_at (fst (snd p)) (csamples c) (snd (snd p)) None (q_kernel (ct_topo c)) (sb_bg (cbase c)) with Some J => J | None => v3_0 end.
Definition jobj (c : contact) (p : crow) : list (nat * v3) :=
  combine (concat (map (cols_of (cbase c)) (snd (snd p)))) (opt_list (surface_row (ct_topo c) (fst (snd p)) (snd (snd p)))).
Definition hface (c : contact) (m : R) (p : crow) : list (nat * nat * m3) :=
  opt_list (face_hessian_at (fst (snd p)) (csamples c) (snd (snd p)) (q_kernel (ct_topo c)) (sb_topo (cbase c)) (sb_verts (cbase c)) (sb_bg (cbase c)) m).
Definition hmix (c : contact) (p : crow) : list (nat * m3) := opt_list (sample_query_row (ct_topo c) (fst (snd p)) (snd (snd p))).
Definition hq (c : contact) (p : crow) : m3 :=
  match query_hessian_at (fst (snd p)) (csamples c) (snd (snd p)) (q_kernel (ct_topo c)) (sb_bg (cbase c)) with Some H => H | None => m3_0 end.

(** What the lists of the code are. *)
Definition object_rows (c : contact) : list (nat * nat * v3) := flat_map (fun p => map (fun e => (cnum c (fst p), sv c (fst e), snd e)) (jobj c p)) (crows c).
Definition collider_rows (c : contact) : list (nat * nat * v3) := map (fun p => (cnum c (fst p), cv c (fst p), jcol c p)) (crows c).
Definition object_blocks (c : contact) (lam : crow -> R) : list (nat * nat * m3) :=
  flat_map (fun p => map (fun h => (sv c (fst (fst h)), sv c (snd (fst h)), snd h)) (hface c (lam p) p)) (crows c).
Definition mixed_blocks (c : contact) (lam : crow -> R) : list (nat * nat * m3) :=
  flat_map (fun p => map (fun e => (cv c (fst p), sv c (fst e), m3_scale (lam p) (snd e))) (hmix c p)) (crows c).
Definition collider_blocks (c : contact) (lam : crow -> R) : list (nat * nat * m3) := map (fun p => (cv c (fst p), cv c (fst p), m3_scale (lam p) (hq c p))) (crows c).

Section Rows.
Variable c : contact.
Variable n : nat.
Hypothesis SH : contact_shape c n.
Let t := ct_topo c.
Let b := cbase c.
Let S := csamples c.
Let ns := trivial_neighborhood t.

Lemma TY : sb_type b = SFace. Proof. apply SH. Qed.
Lemma WF : well_formed b. Proof. apply SH. Qed.
Lemma PM : proper_mesh b. Proof. apply SH. Qed.
Lemma VK : valid_kernel (q_kernel t). Proof. apply SH. Qed.
Lemma LPN : length (ct_points c) = length ns. Proof. apply SH. Qed.
Lemma LCL : length (closest_samples t) = length ns. Proof. apply SH. Qed.
Lemma LSV : length (ct_surface c) = length (sb_verts b). Proof. apply SH. Qed.
Lemma LCV : length (ct_collider c) = length (ct_points c). Proof. apply SH. Qed.
Lemma TRI : by_type t = ns. Proof. unfold by_type. pose proof TY as Y. unfold b, cbase in Y. fold t in Y. rewrite Y. reflexivity. Qed.

Lemma row_in p : In p (crows c) -> (fst p < length (ct_points c))%nat /\ nth_error (ct_points c) (fst p) = Some (fst (snd p)) /\ nth_error ns (fst p) = Some (snd (snd p)) /\ snd (snd p) <> [].
Proof.
  intros I. destruct (In_nth_error _ _ I) as (j & J). destruct p as [i [q l]]. destruct (row_spec _ _ _ _ _ _ J) as (A & B & N). cbn [fst snd]. split; [apply nth_error_Some; congruence|]. split; [exact A|]. split; [exact B|exact N].
Qed.
Lemma row_nbrs p i : In p (crows c) -> In i (snd (snd p)) -> (i < length S)%nat.
Proof. intros I H. destruct (row_in p I) as (_ & _ & E & _). assert (IK : indices_ok t) by apply SH. destruct IK as (_ & IK & _). apply (IK (snd (snd p))); [left; exact (nth_error_In _ _ E)|exact H]. Qed.
Lemma row_nodup p : In p (crows c) -> NoDup (snd (snd p)).
Proof. intros I. destruct (row_in p I) as (_ & _ & E & _). assert (ND : forall l, In l (trivial_neighborhood (ct_topo c)) -> NoDup l) by apply SH. exact (ND _ (nth_error_In _ _ E)). Qed.
Lemma rows_length : length (crows c) = constraint_size c.
Proof.
  unfold crows, constraint_size, num_neighborhoods. rewrite <- nonempty_length. unfold hessian_rows. assert (E := rows_nonempty (ct_points c) ns LPN). unfold ns, t in E. rewrite <- E, map_length. reflexivity.
Qed.
Lemma row_number j p : nth_error (crows c) j = Some p -> nth_error (neighborhood_numbers t) (fst p) = Some (Some j) /\ cnum c (fst p) = j.
Proof.
  intros H. destruct (numbers_rows (ct_points c) ns 0 0 LPN j p H) as [_ E]. rewrite Nat.sub_0_r in E. cbn [Nat.add] in E. assert (N : neighborhood_numbers t = number_nonempty 0 (map (@length nat) ns)) by (unfold neighborhood_numbers, neighborhood_sizes; rewrite TRI; reflexivity).
  rewrite N. split; [exact E|]. unfold cnum. fold t. rewrite N. rewrite (nth_error_nth _ _ None E). reflexivity.
Qed.
Lemma row_num p : In p (crows c) -> nth_error (neighborhood_numbers t) (fst p) = Some (Some (cnum c (fst p))) /\ (cnum c (fst p) < length (crows c))%nat /\ nth_error (crows c) (cnum c (fst p)) = Some p.
Proof. intros I. destruct (In_nth_error _ _ I) as (j & J). destruct (row_number j p J) as [A <-]. split; [exact A|]. split; [apply nth_error_Some; congruence|exact J]. Qed.
Lemma row_numbers : map (fun p => cnum c (fst p)) (crows c) = seq 0 (length (crows c)).
Proof.
  apply (nth_ext _ _ 0%nat 0%nat); rewrite map_length; [rewrite seq_length; reflexivity|]. intros j J. rewrite seq_nth by exact J. destruct (nth_error (crows c) j) as [p|] eqn:E; [|apply nth_error_None in E; lia].
  apply nth_error_nth. rewrite nth_error_map, E. cbn [option_map]. rewrite (proj2 (row_number j p E)). reflexivity.
Qed.
Lemma nth_surface v : (v < length (sb_verts b))%nat -> nth_error (ct_surface c) v = Some (sv c v).
Proof. intros L. apply nth_error_nth'. rewrite LSV. exact L. Qed.
Lemma nth_collider p : In p (crows c) -> nth_error (ct_collider c) (fst p) = Some (cv c (fst p)).
Proof. intros I. apply nth_error_nth'. rewrite LCV. apply row_in, I. Qed.
Lemma in_surface v : (v < length (sb_verts b))%nat -> In (sv c v) (ct_surface c).
Proof. intros L. exact (nth_error_In _ _ (nth_surface v L)). Qed.
Lemma in_collider p : In p (crows c) -> In (cv c (fst p)) (ct_collider c).
Proof. intros I. exact (nth_error_In _ _ (nth_collider p I)). Qed.

(** *** What is computed for a row *)
Lemma surface_some p : In p (crows c) -> surface_row t (fst (snd p)) (snd (snd p)) = Some (opt_list (surface_row t (fst (snd p)) (snd (snd p)))).
Proof.
  intros I. destruct (surface_row_total t (fst (snd p)) (snd (snd p)) WF PM) as [B E]; [intros X; pose proof TY as Y; unfold b, cbase in Y; fold t in Y; congruence|intros i; apply row_nbrs, I|apply row_in, I|]. rewrite E. reflexivity.
Qed.
Lemma columns_some p : In p (crows c) -> all_some (map (columns b) (snd (snd p))) = Some (map (cols_of b) (snd (snd p))).
Proof.
  intros I. apply all_some_map. intros i Hi. unfold columns, cols_of. rewrite TY. assert (L : (i < length (sb_topo b))%nat) by (pose proof WF as W; destruct W as [_ W]; rewrite TY in W; rewrite <- W; apply (row_nbrs p i I Hi)).
  assert (E : nth_error (sb_topo b) i = Some (nth i (sb_topo b) (0, 0, 0)%nat)) by (apply nth_error_nth'; exact L). rewrite E. reflexivity.
Qed.
Lemma topo_some p : In p (crows c) -> all_some (map (nth_error (sb_topo b)) (snd (snd p))) = Some (map (fun i => nth i (sb_topo b) (0, 0, 0)%nat) (snd (snd p))).
Proof.
  intros I. apply all_some_map. intros i Hi. apply nth_error_nth'. pose proof WF as W; destruct W as [_ W]; rewrite TY in W; rewrite <- W; apply (row_nbrs p i I Hi).
Qed.
Lemma jcol_some p : In p (crows c) -> query_jacobian_at (fst (snd p)) S (snd (snd p)) None (q_kernel t) (sb_bg b) = Some (jcol c p).
Proof.
  intros I. destruct (closest_some (fst (snd p)) S (snd (snd p)) (proj2 (proj2 (proj2 (row_in p I))))) as (cl & C). unfold jcol. fold S b t. unfold query_jacobian_at, bg_new, bg_global, bg_local. rewrite C. reflexivity.
Qed.
Lemma hface_some p m : In p (crows c) -> face_hessian_at (fst (snd p)) S (snd (snd p)) (q_kernel t) (sb_topo b) (sb_verts b) (sb_bg b) m = Some (hface c m p).
Proof.
  intros I. unfold hface. fold S b t. assert (VR : view_in_range (sb_verts b) (sb_topo b) (snd (snd p)) = true).
  { unfold view_in_range. apply forallb_forall. intros i Hi. pose proof (row_nbrs p i I Hi) as L. apply andb_true_intro. split.
    - apply Nat.ltb_lt. pose proof WF as W. destruct W as [_ W]. rewrite TY in W. rewrite <- W. exact L.
    - apply forallb_forall. intros v Hv. apply Nat.ltb_lt. exact (vertex_bound b i v TY WF L Hv). }
  unfold face_hessian_at, bg_local. destruct (closest_some (fst (snd p)) S (snd (snd p)) (proj2 (proj2 (proj2 (row_in p I))))) as (cl & C). rewrite C, VR. reflexivity.
Qed.
Lemma hface_index p m : In p (crows c) -> face_hessian_indices (sb_topo b) (p_weighted (sb_bg b)) (snd (snd p)) = Some (map fst (hface c m p)).
Proof. intros I. exact (face_index _ _ _ _ _ _ _ _ _ (hface_some p m I)). Qed.
Lemma hface_below p m h : In p (crows c) -> In h (hface c m p) -> below (length (sb_verts b)) (fst h).
Proof. intros I H. apply (indices_below b (p_weighted (sb_bg b)) (snd (snd p)) (map fst (hface c m p)) TY WF (fun i => row_nbrs p i I) (hface_index p m I)). apply in_map, H. Qed.
Lemma hmix_some p : In p (crows c) -> sample_query_row t (fst (snd p)) (snd (snd p)) = Some (hmix c p).
Proof.
  intros I. destruct (sample_row_total t (fst (snd p)) (snd (snd p)) TY WF (fun i => row_nbrs p i I) (proj2 (proj2 (proj2 (row_in p I))))) as [row E]. unfold hmix. fold t. rewrite E. reflexivity.
Qed.
Lemma hmix_index p : In p (crows c) -> map fst (hmix c p) = unseen [] (flat_map tri_verts (map (fun i => nth i (sb_topo b) (0, 0, 0)%nat) (snd (snd p)))).
Proof. intros I. destruct (sample_row_spec _ _ _ _ (hmix_some p I)) as (tris & E & F). pose proof (topo_some p I) as G. unfold b, cbase in G. fold t in G. rewrite G in E. injection E as <-. exact F. Qed.
Lemma hmix_below p e : In p (crows c) -> In e (hmix c p) -> (fst e < length (sb_verts b))%nat.
Proof.
  intros I H. apply (in_map fst) in H. rewrite (hmix_index p I) in H. apply unseen_in in H. destruct H as [H _]. apply in_flat_map in H. destruct H as (tr & Ht & H). apply in_map_iff in Ht. destruct Ht as (i & <- & Hi).
  exact (vertex_bound b i _ TY WF (row_nbrs p i I Hi) H).
Qed.
Lemma hq_some p : In p (crows c) -> query_hessian_at (fst (snd p)) S (snd (snd p)) (q_kernel t) (sb_bg b) = Some (hq c p).
Proof. intros I. destruct (row_total (fst (snd p)) S (snd (snd p)) (q_kernel t) (sb_bg b) (proj2 (proj2 (proj2 (row_in p I))))) as [H E]. unfold hq. fold S b t. rewrite E. reflexivity. Qed.
Lemma jobj_below p e : In p (crows c) -> In e (jobj c p) -> (fst e < length (sb_verts b))%nat.
Proof.
  intros I H. destruct e as [v x]. apply in_combine_l in H. cbn [fst]. apply in_concat in H. destruct H as (l & Hl & H). apply in_map_iff in Hl. destruct Hl as (i & <- & Hi). unfold cols_of in H. fold b in H. rewrite TY in H.
  exact (vertex_bound b i v TY WF (row_nbrs p i I Hi) H).
Qed.

(** *** The lists of the code *)
Lemma distances : distance_potential c = Some (map (dpot c) (crows c)).
Proof.
  unfold distance_potential. fold t. unfold potential. fold ns. rewrite repeat_length, LPN, Nat.eqb_refl. cbn [option_map]. f_equal. unfold neighborhood_sizes. rewrite TRI.
  rewrite <- LPN, potentials_map by exact LPN. assert (E := kept_values (fun p => potential_at (fst p) (sb_samples (q_base t)) (snd p) (q_kernel t) (sb_bg (q_base t)) 0) (ct_points c) ns 0 LPN). rewrite E.
  rewrite (zip_update_all _ (fun v => v - ct_offset c)); [|reflexivity|].
  - rewrite map_map. reflexivity.
  - rewrite repeat_length, map_length, <- rows_length. reflexivity.
Qed.
Lemma renumber_some (L : list (nat * nat * v3)) vs (f : nat -> nat) : (forall e, In e L -> nth_error (neighborhood_numbers t) (fst (fst e)) = Some (Some (cnum c (fst (fst e)))) /\ nth_error vs (snd (fst e)) = Some (f (snd (fst e)))) ->
  renumber (neighborhood_numbers t) vs L = Some (map (fun e => (cnum c (fst (fst e)), f (snd (fst e)), snd e)) L).
Proof. intros H. unfold renumber. apply all_some_map. intros [[r v] x] I. destruct (H _ I) as [A B]. cbn [fst snd] in *. rewrite A, B. reflexivity. Qed.
Lemma triplets_rows : surface_jacobian_triplets t (ct_points c) = Some (flat_map (fun p => map (fun e => (fst p, fst e, snd e)) (jobj c p)) (crows c)).
Proof.
  unfold surface_jacobian_triplets. rewrite TRI.
  assert (E : all_some (map (fun p : crow => let '(row, (q, nbrs)) := p in
      match all_some (map (columns (q_base t)) nbrs), surface_row t q nbrs with Some cols, Some blocks => Some (map (fun cb => (row, fst cb, snd cb)) (combine (concat cols) blocks)) | _, _ => None end) (crows c))
    = Some (map (fun p => map (fun e => (fst p, fst e, snd e)) (jobj c p)) (crows c))).
  { apply all_some_map. intros [i [q nbrs]] I. pose proof (columns_some _ I) as A. pose proof (surface_some _ I) as B. cbn [fst snd] in A, B. unfold b, cbase in A. fold t in A. rewrite A. unfold jobj. cbn [fst snd]. fold t b. rewrite B. reflexivity. }
  change (option_map (@concat (nat * nat * v3)) (all_some (map (fun p : crow => let '(row, (q, nbrs)) := p in
      match all_some (map (columns (q_base t)) nbrs), surface_row t q nbrs with Some cols, Some blocks => Some (map (fun cb => (row, fst cb, snd cb)) (combine (concat cols) blocks)) | _, _ => None end) (crows c)))
    = Some (flat_map (fun p => map (fun e => (fst p, fst e, snd e)) (jobj c p)) (crows c))).
  rewrite E. cbn [option_map]. rewrite concat_map_flat. reflexivity.
Qed.
Lemma object_jacobian_rows : object_jacobian c = Some (if ct_object_fixed c then [] else object_rows c).
Proof.
  unfold object_jacobian. destruct (ct_object_fixed c); [reflexivity|]. fold t. rewrite triplets_rows, (renumber_some _ _ (sv c)).
  - f_equal. unfold object_rows. rewrite flat_map_map. apply flat_map_ext. intros p. rewrite map_map. reflexivity.
  - intros e He. apply in_flat_map in He. destruct He as (p & Hp & He). apply in_map_iff in He. destruct He as (x & <- & Hx). cbn [fst snd]. split; [apply row_num, Hp|]. apply nth_surface, (jobj_below p x Hp Hx).
Qed.
Lemma closest_rows : forall (qs : list v3) (l : list (list nat)) (cl : list nat) m, length qs = length l -> length cl = length l ->
  map (fun p : nat * (v3 * (list nat * nat)) => (fst p, (fst (snd p), fst (snd (snd p))))) (filter (fun p => negb (is_nil (fst (snd (snd p))))) (combine (seq m (length (combine qs (combine l cl)))) (combine qs (combine l cl))))
  = filter (fun p : crow => negb (is_nil (snd (snd p)))) (combine (seq m (length (combine qs l))) (combine qs l)).
Proof.
  induction qs as [|q qs IH]; intros [|a l] [|x cl] m L1 L2; try discriminate; [reflexivity|]. specialize (IH l cl (Datatypes.S m) (f_equal pred L1) (f_equal pred L2)). cbn [combine length seq filter fst snd]. destruct a; cbn [is_nil negb map fst snd]; rewrite IH; reflexivity.
Qed.
Lemma collider_jacobian_rows : collider_jacobian c = Some (if ct_collider_fixed c then [] else collider_rows c).
Proof.
  unfold collider_jacobian. destruct (ct_collider_fixed c); [reflexivity|]. fold t.
  assert (E : query_jacobian_triplets t (ct_points c) = Some (map (fun p => (fst p, fst p, jcol c p)) (crows c))).
  { unfold query_jacobian_triplets. assert (R := closest_rows (ct_points c) ns (closest_samples t) 0 LPN LCL). fold ns. fold (enumerate (combine (ct_points c) (combine ns (closest_samples t)))) in R. unfold crows, hessian_rows. fold t ns. unfold enumerate at 2. rewrite <- R.
    rewrite map_map. cbn [fst snd]. apply all_some_map. intros [i [q [l x]]] I. cbn [fst snd].
    assert (I' : In (i, (q, l)) (crows c)). { unfold crows, hessian_rows. fold t ns. unfold enumerate. rewrite <- R. apply in_map_iff. exists (i, (q, (l, x))). split; [reflexivity|exact I]. }
    pose proof (jcol_some _ I') as J. cbn [fst snd] in J. fold b. unfold csamples, cbase in S. rewrite closest_hint_unused by (destruct (row_in _ I') as (_ & _ & _ & N); exact N). change (sb_samples (q_base t)) with S. change (q_base t) with b. rewrite J. reflexivity. }
  rewrite E. rewrite (renumber_some _ _ (cv c)).
  - f_equal. unfold collider_rows. rewrite map_map. reflexivity.
  - intros e He. apply in_map_iff in He. destruct He as (p & <- & Hp). cbn [fst snd]. split; [apply row_num, Hp|apply nth_collider, Hp].
Qed.
Definition jacobian_rows : list (nat * nat * v3) := (if ct_object_fixed c then [] else object_rows c) ++ (if ct_collider_fixed c then [] else collider_rows c).
Lemma jacobian_list : distance_jacobian c = Some jacobian_rows.
Proof. unfold distance_jacobian. rewrite object_jacobian_rows, collider_jacobian_rows. reflexivity. Qed.
Lemma vertex_range v : In v (ct_surface c) \/ In v (ct_collider c) -> (v < n)%nat.
Proof. apply SH. Qed.
Lemma jacobian_range e : In e jacobian_rows -> (fst (fst e) < constraint_size c)%nat /\ (snd (fst e) < n)%nat.
Proof.
  intros H. rewrite <- rows_length. unfold jacobian_rows in H. apply in_app_or in H. destruct H as [H|H].
  - destruct (ct_object_fixed c); [destruct H|]. apply in_flat_map in H. destruct H as (p & Hp & H). apply in_map_iff in H. destruct H as (x & <- & Hx). cbn [fst snd]. split; [apply row_num, Hp|]. apply vertex_range. left. apply in_surface, (jobj_below p x Hp Hx).
  - destruct (ct_collider_fixed c); [destruct H|]. apply in_map_iff in H. destruct H as (p & <- & Hp). cbn [fst snd]. split; [apply row_num, Hp|]. apply vertex_range. right. apply in_collider, Hp.
Qed.
Section Multipliers.
Variable lam : crow -> R.
Lemma combine_lam : combine (crows c) (map lam (crows c)) = map (fun p => (p, lam p)) (crows c).
Proof. pose proof (combine_map_same (fun p : crow => p) lam (crows c)) as E. rewrite map_id in E. exact E. Qed.
Lemma relabel_some {A} (L : list (nat * nat * A)) rs cs (f g : nat -> nat) : (forall e, In e L -> nth_error rs (fst (fst e)) = Some (f (fst (fst e))) /\ nth_error cs (snd (fst e)) = Some (g (snd (fst e)))) ->
  relabel rs cs L = Some (map (fun e => (f (fst (fst e)), g (snd (fst e)), snd e)) L).
Proof. intros H. unfold relabel. apply all_some_map. intros [[r v] x] I. destruct (H _ I) as [X Y]. cbn [fst snd] in *. rewrite X, Y. reflexivity. Qed.
Lemma object_hessian_rows : object_hessian c (map lam (crows c)) = Some (if ct_object_fixed c then [] else object_blocks c lam).
Proof.
  unfold object_hessian. destruct (ct_object_fixed c); [reflexivity|]. fold t. unfold surface_hessian_blocks. pose proof TY as Y. unfold b, cbase in Y. fold t in Y. rewrite Y. cbn [ok_or_empty]. change (hessian_rows t (ct_points c)) with (crows c). rewrite combine_lam, map_map.
  rewrite (all_some_map _ (fun p => hface c (lam p) p)).
  - cbn [option_map bind_relabel]. rewrite concat_map_flat, (relabel_some _ _ _ (sv c) (sv c)).
    + f_equal. unfold object_blocks. apply flat_map_map.
    + intros e He. apply in_flat_map in He. destruct He as (p & Hp & He). destruct (hface_below p _ e Hp He) as [A B]. split; apply nth_surface; [exact B|lia].
  - intros [i [q l]] I. apply (hface_some _ (lam (i, (q, l))) I).
Qed.
Lemma mixed_hessian_rows : object_collider_hessian c (map lam (crows c)) = Some (if ct_object_fixed c then [] else mixed_blocks c lam).
Proof.
  unfold object_collider_hessian. destruct (ct_object_fixed c); [reflexivity|]. fold t. unfold sample_query_hessian. pose proof TY as Y. unfold b, cbase in Y. fold t in Y. rewrite Y. cbv zeta iota. cbn [ok_or_empty]. change (hessian_rows t (ct_points c)) with (crows c). rewrite combine_lam, map_map.
  rewrite (all_some_map _ (fun p => map (fun e => (fst p, fst e, m3_scale (lam p) (snd e))) (hmix c p))).
  - cbn [option_map bind_relabel]. rewrite concat_map_flat, (relabel_some _ _ _ (cv c) (sv c)).
    + f_equal. unfold mixed_blocks. rewrite flat_map_map. apply flat_map_ext. intros p. rewrite map_map. reflexivity.
    + intros e He. apply in_flat_map in He. destruct He as (p & Hp & He). apply in_map_iff in He. destruct He as (x & <- & Hx). cbn [fst snd]. split; [apply nth_collider, Hp|apply nth_surface, (hmix_below p x Hp Hx)].
  - intros [i [q l]] I. pose proof (hmix_some _ I) as H. cbn [fst snd] in H. rewrite H. reflexivity.
Qed.
Lemma collider_hessian_rows : collider_hessian c (map lam (crows c)) = Some (if ct_collider_fixed c then [] else collider_blocks c lam).
Proof.
  unfold collider_hessian. destruct (ct_collider_fixed c); [reflexivity|]. fold t. unfold query_hessian_blocks. change (hessian_rows t (ct_points c)) with (crows c). rewrite combine_lam, map_map.
  rewrite (all_some_map _ (fun p => (fst p, m3_scale (lam p) (hq c p)))).
  - cbn [option_map bind_relabel]. rewrite (relabel_some _ _ _ (cv c) (cv c)).
    + f_equal. unfold collider_blocks. rewrite !map_map. reflexivity.
    + intros e He. apply in_map_iff in He. destruct He as (x & <- & Hx). apply in_map_iff in Hx. destruct Hx as (p & <- & Hp). cbn [fst snd]. split; apply nth_collider, Hp.
  - intros [i [q l]] I. pose proof (hq_some _ I) as H. cbn [fst snd] in H. change (sb_samples (q_base t)) with S. change (q_base t) with b. rewrite H. reflexivity.
Qed.
(** *** Indices *)
Lemma relabel_indices_some (L : list (nat * nat)) rs cs sw (f g : nat -> nat) : (forall e, In e L -> nth_error rs (fst e) = Some (f (fst e)) /\ nth_error cs (snd e) = Some (g (snd e)) /\ (sw = true -> (g (snd e) <= f (fst e))%nat)) ->
  relabel_indices rs cs sw L = Some (map (fun e => (f (fst e), g (snd e))) L).
Proof.
  intros H. unfold relabel_indices. apply all_some_map. intros [r v] I. destruct (H _ I) as (X & Y & Z). cbn [fst snd] in *. rewrite X, Y. f_equal. destruct sw; [|reflexivity]. cbn [andb]. specialize (Z eq_refl). destruct (Nat.ltb_spec (f r) (g v)); [lia|reflexivity].
Qed.
Lemma surface_sorted i j : (i <= j)%nat -> (j < length (sb_verts b))%nat -> (sv c i <= sv c j)%nat.
Proof.
  intros LE L. assert (SS : StronglySorted lt (ct_surface c)) by apply SH. rewrite <- LSV in L. unfold sv. clear - LE L SS. revert i j LE L. induction SS as [|a l SS IH F]; intros i j LE L; [cbn in L; lia|].
  destruct i as [|i]; [destruct j as [|j]; [lia|]|destruct j as [|j]; [lia|]]; cbn [nth] in *; [|apply IH; cbn in L; lia]. rewrite List.Forall_forall in F. apply Nat.lt_le_incl, F, nth_In. cbn in L. lia.
Qed.
Lemma surface_injective i j : (i < length (sb_verts b))%nat -> (j < length (sb_verts b))%nat -> sv c i = sv c j -> i = j.
Proof.
  intros A B E. assert (SS : StronglySorted lt (ct_surface c)) by apply SH. assert (ND : NoDup (ct_surface c)).
  { clear - SS. induction SS as [|a l SS IH F]; constructor; [|exact IH]. intros I. rewrite List.Forall_forall in F. specialize (F a I). lia. }
  apply (proj1 (NoDup_nth (ct_surface c) 0%nat) ND); [rewrite LSV; exact A|rewrite LSV; exact B|exact E].
Qed.
Lemma object_indices_rows : object_hessian_indices c = Some (if ct_object_fixed c then [] else map fst (object_blocks c lam)).
Proof.
  unfold object_hessian_indices. destruct (ct_object_fixed c); [reflexivity|]. fold t. unfold surface_hessian_block_indices. pose proof TY as Y. unfold b, cbase in Y. fold t in Y. rewrite Y. cbn [ok_or_empty].
  rewrite (indices_rows _ _ (ct_points c) ns (map (fun p => hface c (lam p) p) (crows c)) LPN).
  - cbn [bind_indices]. rewrite concat_map_flat, (relabel_indices_some _ _ _ _ (sv c) (sv c)).
    + f_equal. unfold object_blocks. rewrite !flat_map_map, ?map_map. apply flat_map_ext. intros p. rewrite !map_map. apply map_ext. intros [[i j] A]. reflexivity.
    + intros e He. apply in_map_iff in He. destruct He as (h & <- & Hh). apply in_flat_map in Hh. destruct Hh as (p & Hp & He). destruct (hface_below p _ h Hp He) as [A B].
      split; [apply nth_surface; exact B|]. split; [apply nth_surface; lia|]. intros _. apply surface_sorted; [exact A|exact B].
  - unfold ns, t. rewrite <- rows_neighbored. fold (crows c). assert (G : forall l, (forall p, In p l -> In p (crows c)) -> Forall2 (fun (p : v3 * list nat) L => face_hessian_indices (sb_topo (q_base (ct_topo c))) (p_weighted (sb_bg (q_base (ct_topo c)))) (snd p) = Some (map fst L)) (map snd l) (map (fun p => hface c (lam p) p) l)).
    { induction l as [|p l IH]; intros H; cbn [map]; constructor; [apply (hface_index p _ (H p (or_introl eq_refl)))|]. apply IH. intros x Hx. apply H. right. exact Hx. }
    apply G. auto.
Qed.
Lemma mixed_indices_rows : object_collider_hessian_indices c = Some (if ct_object_fixed c then [] else map fst (mixed_blocks c lam)).
Proof.
  unfold object_collider_hessian_indices. destruct (ct_object_fixed c); [reflexivity|]. fold t. unfold sample_query_hessian_indices. pose proof TY as Y. unfold b, cbase in Y. fold t in Y. rewrite Y. cbn [ok_or_empty].
  assert (E := rows_nonempty (ct_points c) ns LPN). fold ns. rewrite <- E. change (filter (fun p : crow => negb (is_nil (snd (snd p)))) (enumerate (combine (ct_points c) ns))) with (crows c). rewrite map_map.
  rewrite (all_some_map _ (fun p => map (fun e => (fst p, fst e)) (hmix c p))).
  - cbn [option_map bind_indices]. rewrite concat_map_flat, (relabel_indices_some _ _ _ _ (cv c) (sv c)).
    + f_equal. unfold mixed_blocks. rewrite !flat_map_map. apply flat_map_ext. intros p. rewrite !map_map. reflexivity.
    + intros e He. apply in_flat_map in He. destruct He as (p & Hp & He). apply in_map_iff in He. destruct He as (x & <- & Hx). cbn [fst snd]. split; [apply nth_collider, Hp|]. split; [apply nth_surface, (hmix_below p x Hp Hx)|discriminate].
  - intros p I. pose proof (topo_some p I) as T. unfold b, cbase in T. fold t in T. cbv beta. rewrite T. cbn [option_map]. f_equal. pose proof (hmix_index p I) as X. unfold b, cbase in X. fold t in X. rewrite <- X, map_map. reflexivity.
Qed.
Lemma collider_indices_rows : collider_hessian_indices c = Some (if ct_collider_fixed c then [] else map fst (collider_blocks c lam)).
Proof.
  unfold collider_hessian_indices. destruct (ct_collider_fixed c); [reflexivity|]. fold t. cbn [bind_indices]. assert (E : query_hessian_block_indices t = map fst (crows c)).
  { unfold query_hessian_block_indices. fold ns. rewrite <- (rows_nonempty (ct_points c) ns LPN), map_map. reflexivity. }
  rewrite E, map_map, (relabel_indices_some _ _ _ _ (cv c) (cv c)).
  - f_equal. unfold collider_blocks. rewrite !map_map. reflexivity.
  - intros e He. apply in_map_iff in He. destruct He as (p & <- & Hp). cbn [fst snd]. split; [apply nth_collider, Hp|]. split; [apply nth_collider, Hp|discriminate].
Qed.
End Multipliers.
End Rows.
