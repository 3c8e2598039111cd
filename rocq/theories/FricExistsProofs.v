(** Proofs about assembled friction: its Jacobian never fails. *)
From Coq Require Import Reals List Bool Lra Lia Sorting.Sorted.
From Coquelicot Require Import Coquelicot.
From Verif Require Import Vec3 Mat3 RList KernelModel KernelSpec FieldModel FieldSpec FieldProofs NeighborModel NeighborSpec NeighborProofs UpdateProps SurfJacModel SurfJacSpec SurfJacProofs HessModel HessSpec HessMixProofs SurfHessSpec ContactModel ContactProofs ContactJacModel ContactJacSpec ContactJacProofs ContactJacProps ContactMapModel ContactMapSpec ContactMapProofs
  AssemblyModel ContactAsmModel ContactAsmSpec ContactAsmProofs ContactAsmProps ContactDerivModel ContactDerivSpec ContactDerivRowProofs ContactDerivProps BasisJacModel BasisJacSpec BasisJacProofs
  ContactHessModel ContactHessSpec ContactHessProofs ContactRowProofs ContactMoveProofs FrictionModel FrictionSpec FricAsmModel FricAsmSpec FricForceSpec FricAlgProofs FricCurveProofs FricStateProofs FricActProofs FricFormProofs FricMoveProofs FricJacProofs FricTotalProofs FricLayoutProofs.
Import ListNotations.
Local Open Scope R_scope.

Lemma set_at_length (l : list v3) i a : length (set_at l i a) = length l.
Proof. revert i. induction l as [|x l IH]; intros [|i]; cbn; try reflexivity. rewrite IH. reflexivity. Qed.
Lemma tmul_length c vc n : length (contact_tmul c vc n) = n.
Proof.
  unfold contact_tmul. assert (F : forall {P} (g : P -> nat * v3) (l : list P) (v : list v3), length (fold_left (fun v p => set_at v (fst (g p)) (snd (g p))) l v) = length v).
  { intros P g l. induction l as [|p l IH]; intros v; [reflexivity|]. cbn [fold_left]. rewrite IH. apply set_at_length. }
  rewrite (F _ (fun p => (nth (fst p) (cm_collider c) O, v3_neg (snd p)))). rewrite (F _ (fun p : nat * v3 => p)). apply repeat_length.
Qed.
Lemma force_length o s v : length (compute_friction_force o s v) = length v.
Proof. unfold compute_friction_force, friction_force. apply tmul_length. Qed.

(** ** Friction Jacobians do not fail *)
Section Exists.
Variables (iamax : v3 -> nat) (ord : list nat -> list nat).
Hypothesis OK : lists_the_set ord.
Variables (n : nat) (st : friction_state).
Hypothesis RS : reached iamax ord n st.
Let c := fs_contact st.
Let SH : contact_shape c n := proj1 (reached_facts iamax ord n st OK RS).
Let D : described iamax ord c n st := proj2 (proj2 (reached_facts iamax ord n st OK RS)).
Let N := length (filled (ct_topo c)).
Lemma basis_exists ms tr m : length ms = N -> exists g, basis_gradient iamax st ms tr m = Some g.
Proof.
  intros LM. destruct (gradients_some c n SH) as (g & EG & LG & NG). assert (D3 : reverse_map (length (ct_points c)) (filled (ct_topo c)) = Some (fs_constraints st)) by apply D.
  destruct (reverse_map_spec (length (ct_points c)) (filled (ct_topo c)) (filled_nodup c) (filled_range c n SH)) as (inv & EI & LI & IN). rewrite D3 in EI. injection EI as EI.
  unfold basis_gradient. fold c. rewrite EG, EI, LI. rewrite (hessian_q_some c _ (rows_bound c n SH)), (hessian_v_some c n SH). unfold basis_gradient_product.
  rewrite (BasisJacProofs.product_form iamax (filled (ct_topo c))); [eexists; reflexivity|exact IN|rewrite LI; exact (LCV c n SH)|..].
  - intros q H I. unfold hessian_q in I. apply in_map_iff in I. destruct I as (p & E & I). injection E as <- _. rewrite LI. destruct (row_in c p I) as (L & _). exact L.
  - intros q v H I. unfold hessian_v in I. apply in_flat_map in I. destruct I as (p & I & J). apply in_map_iff in J. destruct J as (e & E & J). injection E as <- <- _. rewrite LI, (LSV c n SH). split; [destruct (row_in c p I) as (L & _); exact L|]. exact (hmix_below c n SH p e I J).
  - rewrite map_length, (frames_seq iamax ord c n SH st D), map_length, seq_length. reflexivity.
  - rewrite LG, LI. reflexivity.
  - exact LM.
Qed.
Lemma values_exist (bs : list m3) : exists g, update_values m3_add m3_zero (fs_jac_jacobian st) bs = Some g.
Proof.
  assert (D6 : exists A B, map fst A = places1 ord (sb_topo (q_base (ct_topo c))) (trivial_neighborhood (ct_topo c)) (filled (ct_topo c)) /\ map fst B = places2 (trivial_neighborhood (ct_topo c)) (filled (ct_topo c)) /\ fs_jac_jacobian st = from_triplets m3_add m3_zero (fun _ => true) (jj_blocks c (fs_constraints st) n A B)) by apply D.
  destruct D6 as (A & B & _ & _ & E). rewrite E. destruct (ContactAsmProofs.update_defined m3 m3_add m3_zero m3_monoid (fun _ => true) (jj_blocks c (fs_constraints st) n A B) bs) as (bl & U & _). rewrite U. eexists. reflexivity.
Qed.
End Exists.
Lemma jacobian_exists iamax ord n o prev cur v dqdv m : lists_the_set ord -> reached iamax ord n cur -> length v = n -> exists J, friction_jacobian iamax ord o prev cur v dqdv m = Some J.
Proof.
  intros OK RS LV. unfold friction_jacobian, friction_jacobian_blocks. destruct (fo_lagged o); [cbn [option_map]; eexists; reflexivity|]. cbv zeta. destruct (fo_incomplete o); [eexists; reflexivity|].
  destruct (reached_facts iamax ord n cur OK RS) as (SH & _ & D). destruct (slips_count iamax ord OK n cur v RS LV) as (C1 & C2 & C3).
  match goal with |- context [jac_gradient_triplets ord ?c ?ms m] => destruct (jg_some ord OK (fs_contact cur) n SH ms) as (A & B & _ & _ & _ & _ & _ & _ & T); [rewrite map_length, !combine_length, map_length, !combine_length, C1, C2, C3; lia|rewrite (T m)] end.
  match goal with |- context [basis_gradient iamax cur ?ms false m] => destruct (basis_exists iamax ord OK n cur RS ms false m) as (g & ->); [rewrite map_length, !combine_length, C1, C2, C3; lia|] end.
  match goal with |- context [basis_gradient iamax cur ?ms true m] => destruct (basis_exists iamax ord OK n cur RS ms true m) as (g' & ->); [exact C1|] end.
  match goal with |- context [jac_jacobian_triplets ord ?c ?inv ?ms m] => destruct (jj_some ord OK (fs_contact cur) n SH inv ms) as (A' & B' & _ & _ & _ & _ & T') end.
  - assert (D3 : reverse_map (length (ct_points (fs_contact cur))) (filled (ct_topo (fs_contact cur))) = Some (fs_constraints cur)) by apply D.
    destruct (reverse_map_spec (length (ct_points (fs_contact cur))) (filled (ct_topo (fs_contact cur))) (filled_nodup _) (filled_range _ n SH)) as (inv & EI & LI & _). rewrite D3 in EI. injection EI as ->. exact LI.
  - rewrite map_length, <- (LSV _ n SH). apply Nat.le_refl.
  - rewrite (T' m). destruct (values_exist iamax ord OK n cur RS (map snd (jj_blocks (fs_contact cur) (fs_constraints cur) m A' B'))) as (g2 & ->). eexists. reflexivity.
Qed.
