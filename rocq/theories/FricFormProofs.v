(** Proofs about assembled friction: the force and the parts of the Jacobian written with the rows of the contact matrices. *)
From Coq Require Import Reals List Bool Lra Lia Sorting.Sorted.
From Coquelicot Require Import Coquelicot.
From Verif Require Import Vec3 Mat3 RList KernelModel KernelSpec FieldModel FieldSpec FieldProofs NeighborModel NeighborSpec NeighborProofs UpdateProps SurfJacModel SurfJacSpec SurfJacProofs HessModel HessSpec HessMixProofs ContactModel ContactJacModel ContactJacSpec ContactJacProps ContactMapModel ContactMapSpec ContactMapProofs
  AssemblyModel ContactAsmModel ContactAsmSpec ContactAsmProofs ContactAsmProps ContactDerivModel ContactDerivSpec ContactDerivRowProofs ContactDerivProps BasisJacModel BasisJacSpec BasisJacProofs
  ContactHessModel ContactHessSpec ContactHessProofs ContactRowProofs ContactMoveProofs FrictionModel FricAsmModel FricAlgProofs FricCurveProofs FricStateProofs FricActProofs.
Import ListNotations.
Local Open Scope R_scope.

Section Forms.
Variable iamax : v3 -> nat.
Variable ord : list nat -> list nat.
Hypothesis OK : lists_the_set ord.
Variable c : contact.
Variable n : nat.
Hypothesis SH : contact_shape c n.
Let t := ct_topo c.
Let N := length (filled t).
Let act k := nth k (filled t) 0%nat.
Definition row_at (a : nat) : crow := (a, (nth a (ct_points c) v3_0, nth a (trivial_neighborhood (ct_topo c)) [])).
Definition grad_at (a : nat) : v3 := jcol c (row_at a).
Definition lam_at (a : nat) : R := - ct_kappa c * penalty_db (ct_delta c) (dpot c (row_at a)).
Definition frame_at (a : nat) : frame := contact_frame iamax (grad_at a).
Lemma rows_at : crows c = map row_at (filled t).
Proof. exact (rows_are c n SH). Qed.
Lemma row_at_in a : In a (filled t) -> In (row_at a) (crows c).
Proof. intros I. rewrite rows_at. apply in_map, I. Qed.
Lemma act_in k : (k < N)%nat -> In (act k) (filled t).
Proof. intros K. apply nth_In, K. Qed.
Lemma nth_rows {A} (f : crow -> A) d k : (k < N)%nat -> nth k (map f (crows c)) d = f (row_at (act k)).
Proof. intros K. rewrite rows_at, map_map. rewrite (nth_indep _ d (f (row_at 0%nat))) by (rewrite map_length; exact K). exact (map_nth (fun a => f (row_at a)) (filled t) 0%nat k). Qed.
Variable s : friction_state.
Hypothesis D : described iamax ord c n s.
Lemma state_frames k : (k < N)%nat -> nth_error (fs_frames s) k = Some (frame_at (act k)).
Proof.
  intros K. assert (E : fs_frames s = frames_of iamax c) by apply D. rewrite E. unfold frames_of. rewrite (nth_error_nth' _ (frame_at 0%nat)) by (rewrite map_length; unfold N, t in K; rewrite (rows_count c n SH); exact K). f_equal. apply (nth_rows (fun p => contact_frame iamax (jcol c p)) _ k K).
Qed.
Lemma state_lambda k : (k < N)%nat -> nth_error (fs_lambda s) k = Some (lam_at (act k)).
Proof.
  intros K. assert (E : fs_lambda s = map (fun p => - ct_kappa c * penalty_db (ct_delta c) (dpot c p)) (crows c)) by apply D. rewrite E. rewrite (nth_error_nth' _ 0) by (rewrite map_length; unfold N, t in K; rewrite (rows_count c n SH); exact K). f_equal. apply (nth_rows (fun p => - ct_kappa c * penalty_db (ct_delta c) (dpot c p)) _ k K).
Qed.
Lemma state_dist k : (k < N)%nat -> nth k (fs_dist s) 0 = dpot c (row_at (act k)).
Proof. intros K. assert (E : fs_dist s = map (dpot c) (crows c)) by apply D. rewrite E. apply (nth_rows (dpot c) 0 k K). Qed.
Lemma list_as_seq {A} (l : list A) (f : nat -> A) m : length l = m -> (forall k, (k < m)%nat -> nth_error l k = Some (f k)) -> l = map f (seq 0 m).
Proof.
  intros L H. destruct m as [|m']; [destruct l; [reflexivity|discriminate]|]. apply (nth_ext _ _ (f 0%nat) (f 0%nat)); [rewrite map_length, seq_length; exact L|]. intros k K. rewrite L in K. rewrite nth_map_seq by exact K. apply nth_error_nth, H, K.
Qed.
Lemma frames_seq : fs_frames s = map (fun k => frame_at (act k)) (seq 0 N).
Proof. apply list_as_seq; [|exact state_frames]. assert (E : fs_frames s = frames_of iamax c) by apply D. rewrite E. unfold frames_of. rewrite map_length. exact (rows_count c n SH). Qed.
Lemma lambda_seq : fs_lambda s = map (fun k => lam_at (act k)) (seq 0 N).
Proof. apply list_as_seq; [|exact state_lambda]. assert (E : fs_lambda s = map (fun p => - ct_kappa c * penalty_db (ct_delta c) (dpot c p)) (crows c)) by apply D. rewrite E, map_length. exact (rows_count c n SH). Qed.
Lemma combine_maps {A B C} (f : A -> B) (g : A -> C) l : combine (map f l) (map g l) = map (fun a => (f a, g a)) l.
Proof. induction l as [|a l IH]; [reflexivity|]. cbn [map combine]. rewrite IH. reflexivity. Qed.

(** Tangential velocity, friction in the coordinates of the contact, and friction in space. *)
Section Laws.
Variables (kd : profile_kind) (fp : friction_params).
Variable L : blocks.
Definition contact_slip (f : frame) (vc : v3) : v2 := to_tangent_space f vc.
Definition contact_law (f : frame) (lam : R) (vc : v3) : v3 := let w := friction_profile kd (contact_slip f vc) lam fp in V3 0 (v2x w) (v2y w).
Definition contact_push (f : frame) (lam : R) (vc : v3) : v3 := from_contact_coordinates f (contact_law f lam vc).
Definition push_at (v : list v3) (k : nat) : v3 := contact_push (frame_at (act k)) (lam_at (act k)) (pull_form c L (at3 v) k).
End Laws.
Lemma neg_push f y : from_contact_coordinates f (v3_scale (-1) y) = v3_scale (-1) (from_contact_coordinates f y).
Proof. apply mulv_scale_r. Qed.
Lemma push_scale L a y i : push_form c L (fun k => v3_scale a (y k)) i = v3_scale a (push_form c L y i).
Proof.
  unfold push_form. assert (EF : forall v, transposed_product L (for_filled (ct_topo c) (map (fun k => v3_scale a (y k)) (seq 0 (length (filled (ct_topo c)))))) v = v3_scale a (transposed_product L (for_filled (ct_topo c) (map y (seq 0 (length (filled (ct_topo c)))))) v)).
  { intros v. unfold transposed_product. rewrite <- vsum_scale. apply vsum_ext. intros [[r col] M] _. destruct (Nat.eqb col v); [|symmetry; apply scale_0_r]. rewrite <- mulv_scale_r. f_equal. unfold for_filled.
    rewrite <- (map_map y (v3_scale a)). rewrite <- (scale_0_r a) at 1. apply map_nth. }
  match goal with |- v3_sub ?x ?y = v3_scale a (v3_sub ?p ?q) => assert (E1 : x = v3_scale a p); [|assert (E2 : y = v3_scale a q); [|rewrite E1, E2; generalize p q; intros; apply v3_eq; unv; ring]] end.
  - rewrite <- vsum_scale. apply vsum_ext. intros v _. destruct (Nat.eqb (sv c v) i); [apply EF|symmetry; apply scale_0_r].
  - rewrite <- vsum_scale. apply vsum_ext. intros k _. destruct (Nat.eqb _ i); [reflexivity|symmetry; apply scale_0_r].
Qed.
Lemma push_ext L y z i : (forall k, (k < N)%nat -> y k = z k) -> push_form c L y i = push_form c L z i.
Proof.
  intros H. unfold push_form. assert (E : map y (seq 0 (length (filled (ct_topo c)))) = map z (seq 0 (length (filled (ct_topo c))))) by (apply map_ext_in; intros k K; apply in_seq in K; apply H; unfold N, t; lia). rewrite E. f_equal. apply vsum_ext. intros k K. apply in_seq in K. rewrite H by (unfold N, t; lia). reflexivity.
Qed.
Lemma force_form o v i L : NoDup (ct_collider c) /\ (forall v, In v (ct_surface c) -> ~ In v (ct_collider c)) -> contact_matrices t (ct_points c) = Some L -> length v = n -> (i < n)%nat ->
  nth i (compute_friction_force o s v) v3_0 = v3_scale (-1) (push_form c L (push_at (fo_profile o) (fo_params o) L v) i).
Proof.
  intros AP EL LV I. destruct (state_action iamax ord c n SH s D) as (L' & EL' & _ & PS & PV). fold t in EL'. rewrite EL in EL'. injection EL' as <-.
  unfold compute_friction_force, friction_force. rewrite (PV v LV), frames_seq, lambda_seq, combine_maps, combine_maps, map_map, LV. fold t N.
  rewrite (force_action iamax ord c n SH s D AP) by (try exact I; rewrite map_length, seq_length; reflexivity). rewrite PS. rewrite <- push_scale. apply push_ext. intros k K. rewrite nth_map_seq by exact K.
  unfold contact_friction, push_at, contact_push, contact_law, contact_slip, to_tangent_space. apply neg_push.
Qed.
End Forms.
