(** Proofs about assembled friction: contacts whose vertices move, row by row. *)
From Coq Require Import Reals List Bool Lra Lia Sorting.Sorted.
From Coquelicot Require Import Coquelicot.
From Verif Require Import Vec3 Mat3 RList KernelModel KernelSpec FieldModel FieldSpec FieldProofs NeighborModel NeighborSpec NeighborProofs UpdateProps SurfJacModel SurfJacSpec SurfJacProofs HessModel HessSpec HessProofs HessProps HessMixProofs ContactModel ContactProofs ContactJacModel ContactJacSpec ContactJacProps ContactMapModel ContactMapSpec ContactMapProofs
  AssemblyModel ContactAsmModel ContactAsmSpec ContactAsmProofs ContactAsmProps ContactDerivModel ContactDerivSpec ContactDerivRowProofs ContactDerivProps BasisJacModel BasisJacSpec BasisJacProofs BasisJacProps
  ContactHessModel ContactHessSpec ContactHessProofs ContactRowProofs ContactMoveProofs JetProofs FrictionModel FricAsmModel FricAlgProofs FricCurveProofs FricStateProofs FricActProofs FricFormProofs.
Import ListNotations.
Local Open Scope R_scope.

(** ** Blocks of derivatives as operators *)
Lemma cmp_ext (L : blocks) x y r : (forall e, In e L -> fst (fst e) = r -> x (snd (fst e)) = y (snd (fst e))) -> column_major_product L x r = column_major_product L y r.
Proof. intros H. unfold column_major_product. apply vsum_ext. intros [[i j] B] I. destruct (Nat.eqb_spec i r) as [E|]; [|reflexivity]. specialize (H _ I E). cbn [fst snd] in H. rewrite H. reflexivity. Qed.
Section Operators.
Variable c : contact.
Let t := ct_topo c.
Let N := length (filled t).
Let nv := length (sb_verts (cbase c)).
Let act k := nth k (filled t) 0%nat.
Lemma jj_apply inv m (A B : blocks) W k : (forall r k, nth r inv None = Some k <-> nth_error (filled t) k = Some r) -> (k < N)%nat -> (forall i, (m <= i)%nat -> W i = v3_0) ->
  block_product (transposed (jj_blocks c inv m A B)) W k = v3_add (column_major_product A (fun v => W (sv c v)) (act k)) (column_major_product B (fun v => W (cv c v)) (act k)).
Proof.
  intros IN K Z. unfold jj_blocks, transposed, block_product. rewrite map_map, vsum_flat, vsum_filter, map_app, vsum_app, !map_map. cbn [fst snd].
  assert (G : forall (f : nat -> nat) (e : nat * nat * m3), (if Nat.ltb (f (snd (fst e))) m then vsum (map (fun x : pos * m3 => let '(row, col, B0) := let '(row, col, B0) := x in ((col, row), m3_transpose B0) in if Nat.eqb row k then m3_mulv B0 (W col) else v3_0)
      match nth (fst (fst e)) inv None with Some k0 => [((f (snd (fst e)), k0), snd e)] | None => [] end) else v3_0)
      = (let '(row, col, B0) := e in if Nat.eqb row (act k) then m3_mulv (m3_transpose B0) (W (f col)) else v3_0)).
  { intros f [[r v] M]. cbn [fst snd]. assert (AK : nth_error (filled t) k = Some (act k)) by (apply nth_error_nth'; exact K).
    assert (VZ : Nat.ltb (f v) m = false -> m3_mulv (m3_transpose M) (W (f v)) = v3_0) by (intros E; apply Nat.ltb_ge in E; rewrite (Z _ E); apply mulv_0).
    destruct (nth r inv None) as [k0|] eqn:E.
    - cbn [map]. rewrite vsum_cons. change (vsum []) with v3_0. rewrite add_0_r. apply IN in E. destruct (Nat.eqb_spec k0 k) as [->|NK].
      + assert (r = act k) by congruence. subst r. rewrite Nat.eqb_refl. destruct (Nat.ltb (f v) m); [reflexivity|symmetry; apply VZ; reflexivity].
      + destruct (Nat.eqb_spec r (act k)) as [->|]; [|destruct (Nat.ltb (f v) m); reflexivity]. destruct NK. assert (ND := filled_nodup c). fold t in ND. apply (proj1 (NoDup_nth_error (filled t)) ND); [apply nth_error_Some; rewrite E; discriminate|rewrite E, AK; reflexivity].
    - cbn [map]. change (vsum []) with v3_0. destruct (Nat.eqb_spec r (act k)) as [->|]; [|destruct (Nat.ltb (f v) m); reflexivity]. apply IN in AK. congruence. }
  f_equal; apply vsum_ext; intros e _; [exact (G (sv c) e)|exact (G (cv c) e)].
Qed.
Lemma jg_apply m (A B : blocks) W i : (forall e, In e A -> (fst (fst e) < nv)%nat) -> (forall e, In e B -> (fst (fst e) < nv)%nat) -> (i < m)%nat -> (forall i, (m <= i)%nat -> W i = v3_0) ->
  block_product (jg_blocks c m A B) W i = vsum (map (fun v => if Nat.eqb (sv c v) i then v3_add (column_major_product A (fun v => W (sv c v)) v) (column_major_product B (fun v => W (cv c v)) v) else v3_0) (seq 0 nv)).
Proof.
  intros RA RB I Z. unfold jg_blocks.
  rewrite (vsum_ext _ (fun v => v3_add (if Nat.eqb (sv c v) i then column_major_product A (fun v => W (sv c v)) v else v3_0) (if Nat.eqb (sv c v) i then column_major_product B (fun v => W (cv c v)) v else v3_0))) by (intros v _; destruct (Nat.eqb (sv c v) i); [reflexivity|symmetry; apply add_0_l]).
  rewrite vsum_plus. unfold block_product. rewrite map_map, vsum_filter, map_app, vsum_app, !map_map. cbn [fst snd].
  assert (G : forall (f : nat -> nat) (L : blocks), (forall e, In e L -> (fst (fst e) < nv)%nat) ->
    vsum (map (fun x : nat * nat * m3 => if (Nat.ltb (sv c (fst (fst x))) m && Nat.ltb (f (snd (fst x))) m)%bool then if Nat.eqb (sv c (fst (fst x))) i then m3_mulv (m3_transpose (snd x)) (W (f (snd (fst x)))) else v3_0 else v3_0) L)
    = vsum (map (fun v => if Nat.eqb (sv c v) i then column_major_product L (fun v => W (f v)) v else v3_0) (seq 0 nv))).
  { intros f L RL. unfold column_major_product.
    rewrite (vsum_ext (fun v => if Nat.eqb (sv c v) i then _ else v3_0) (fun v => vsum (map (fun e : nat * nat * m3 => if Nat.eqb (fst (fst e)) v then if Nat.eqb (sv c v) i then m3_mulv (m3_transpose (snd e)) (W (f (snd (fst e)))) else v3_0 else v3_0) L)) (seq 0 nv)).
    2:{ intros v _. destruct (Nat.eqb (sv c v) i); [apply vsum_ext; intros [[r col] M] _; reflexivity|]. symmetry. apply ContactAsmProofs.vsum_zero. intros [[r col] M] _. cbn [fst snd]. destruct (Nat.eqb r v); reflexivity. }
    rewrite vsum_swap. apply vsum_ext. intros [[r col] M] J. cbn [fst snd].
    rewrite (vsum_pick (fun v => if Nat.eqb (sv c v) i then m3_mulv (m3_transpose M) (W (f col)) else v3_0) r (seq 0 nv)); [|apply seq_NoDup|apply in_seq; split; [lia|exact (RL _ J)]].
    destruct (Nat.eqb_spec (sv c r) i) as [->|]; [|destruct (Nat.ltb _ m && Nat.ltb _ m)%bool; reflexivity]. rewrite (proj2 (Nat.ltb_lt i m) I). cbn [andb]. destruct (Nat.ltb (f col) m) eqn:E; [reflexivity|]. apply Nat.ltb_ge in E. rewrite (Z _ E). symmetry. apply mulv_0. }
  f_equal; [exact (G (sv c) A RA)|exact (G (cv c) B RB)].
Qed.
End Operators.
Section Motion.
Variable iamax : v3 -> nat.
Hypothesis PK : picks_largest iamax.
Variable ord : list nat -> list nat.
Hypothesis OK : lists_the_set ord.
Variable c : contact.
Variable n : nat.
Variable X : list v3.
Hypothesis SH : contact_shape c n.
Hypothesis PL : in_place (cbase c).
Hypothesis AT : placed c X.
Hypothesis PW : p_weighted (sb_bg (cbase c)) = false.
Hypothesis CP : forall a, In a (filled (ct_topo c)) -> contact_point (ct_topo c) (nth a (ct_points c) v3_0) (nth a (trivial_neighborhood (ct_topo c)) []).
Let t := ct_topo c.
Let b := cbase c.
Let N := length (filled t).
Let nv := length (sb_verts b).
Let act k := nth k (filled t) 0%nat.
Lemma regular_from_point : contact_regular c.
Proof.
  intros i L NE. cbv zeta. assert (I : In i (filled (ct_topo c))) by (apply filled_in; split; [rewrite <- (LPN c n SH); exact L|exact NE]). destruct (CP i I) as (cl & g & NR & RV & FD & RD & _ & _). exists cl. refine (conj NR (conj RV (conj _ _))).
  - split; [exact FD|]. fold (cbase c). rewrite PW. split; discriminate.
  - unfold quiet_background. fold (cbase c). destruct (p_type (sb_bg (cbase c))) eqn:E; [left; discriminate|left; discriminate|right]. split; [exact PW|]. destruct (k_radius (q_kernel (ct_topo c))); [apply Rlt_le; exact RD|exact Logic.I].
Qed.
Let RG := regular_from_point.
Section Curve.
Variable W : nat -> v3.
Variable rb : bool.
Definition ctau (s : R) : contact := match update_state c (mesh_line X W s) rb with Some c' => c' | None => c end.
Lemma ctau_spec s : update_state c (mesh_line X W s) rb = Some (ctau s) /\ contact_shape (ctau s) n /\ in_place (cbase (ctau s)) /\ same_setup c (ctau s) /\
  cbase (ctau s) = moved (cbase c) (mobj c W) rb s /\ ct_points (ctau s) = mesh_line (ct_points c) (mcol c W) s /\ ct_topo (ctau s) = surface_at t (mesh_line (sb_verts b) (mobj c W) s) rb.
Proof.
  destruct AT as [A1 A2]. pose proof (subset_line X _ _ W s A1) as EV. pose proof (subset_line X _ _ W s A2) as EP.
  destruct (update_state_some c n _ _ _ rb SH EV EP) as (c' & E & EB & EQ & SS). destruct (update_shape _ _ _ _ _ _ _ SH EV EP EB EQ SS) as [SH' IP'].
  unfold ctau. rewrite E. refine (conj eq_refl (conj SH' (conj IP' (conj SS (conj EB (conj EQ _)))))).
  unfold update_state in E. rewrite EV, EP in E. unfold surface_at, t, b, mobj, sv in *. destruct (update_surface (ct_topo c) _ rb) as [t' count]. destruct (andb _ _); [|discriminate]. injection E as <-. reflexivity.
Qed.
Lemma tau_filled s : filled (ct_topo (ctau s)) = filled t.
Proof. destruct (ctau_spec s) as (_ & _ & _ & (T1 & _) & _). unfold filled, t. rewrite T1. reflexivity. Qed.
Lemma tau_forms s : sv (ctau s) = sv c /\ cv (ctau s) = cv c /\ length (sb_verts (cbase (ctau s))) = nv.
Proof. destruct (ctau_spec s) as (_ & SH' & _ & SS & _). destruct SS as (_ & _ & _ & _ & _ & _ & _ & _ & T9 & T10 & _). unfold sv, cv, nv, b. rewrite T9, T10. refine (conj eq_refl (conj eq_refl _)). rewrite <- (LSV (ctau s) n SH'), <- (LSV c n SH), T9. reflexivity. Qed.
Lemma tau_push s L y i : push_form (ctau s) L y i = push_form c L y i.
Proof.
  destruct (tau_forms s) as (E1 & E2 & E3). destruct (ctau_spec s) as (_ & _ & _ & (T1 & _) & _). unfold push_form, for_filled. rewrite (tau_filled s : filled (ct_topo (ctau s)) = filled (ct_topo c)), E1, E2, E3. reflexivity.
Qed.
Lemma tau_pull s L u k : pull_form (ctau s) L u k = pull_form c L u k.
Proof. destruct (tau_forms s) as (E1 & E2 & _). unfold pull_form. rewrite (tau_filled s : filled (ct_topo (ctau s)) = filled (ct_topo c)), E1, E2. reflexivity. Qed.
Lemma mesh_nth V Z s r : (r < length V)%nat -> nth r (mesh_line V Z s) v3_0 = v3_line (nth r V v3_0) (Z r) s.
Proof.
  intros L. unfold mesh_line. apply nth_error_nth. rewrite nth_error_map. rewrite (nth_error_nth' _ (0%nat, v3_0)) by (rewrite combine_length, seq_length; lia). rewrite combine_nth by apply seq_length. cbn [option_map fst snd]. rewrite seq_nth by exact L. reflexivity.
Qed.
Lemma mesh_length V Z s : length (mesh_line V Z s) = length V.
Proof. unfold mesh_line. rewrite map_length, combine_length, seq_length. lia. Qed.
Lemma row_points s a : In a (filled t) -> row_at (ctau s) a = line_row (mcol c W) s (row_at c a).
Proof.
  intros I. destruct (ctau_spec s) as (_ & _ & _ & (T1 & _) & _ & EQ & _). unfold row_at, line_row. cbn [fst snd]. rewrite T1, EQ, mesh_nth by exact (filled_range c n SH a I). reflexivity.
Qed.
Lemma lam_line s a : In a (filled t) -> lam_at (ctau s) a = - ct_kappa c * penalty_db (ct_delta c) (pot_line c W rb (row_at c a) s).
Proof.
  intros I. unfold lam_at. rewrite (row_points s a I). destruct (ctau_spec s) as (_ & _ & _ & (T1 & _ & _ & T4 & _ & _ & T7 & _ & _ & _ & _ & _ & T13 & T14 & T15) & EB & _).
  unfold dpot, pot_line, csamples, line_row. cbn [fst snd]. rewrite T4, T7, T13, T14, T15, EB. reflexivity.
Qed.
Lemma lam_derive a : In a (filled t) -> is_derive (fun s => lam_at (ctau s) a) 0 (- ct_kappa c * penalty_ddb (ct_delta c) (dpot c (row_at c a)) * rate1 c W (row_at c a)).
Proof.
  intros I. apply (is_derive_ext (fun s => - ct_kappa c * penalty_db (ct_delta c) (pot_line c W rb (row_at c a) s))); [intros s; symmetry; apply lam_line, I|].
  destruct (row_jets c n SH PL RG W rb (row_at c a) (row_at_in c n SH a I)) as [J _]. pose proof (jet_derive _ _ _ _ J) as D. assert (E0 : pot_line c W rb (row_at c a) 0 = dpot c (row_at c a)) by apply J.
  assert (DL : 0 < ct_delta c) by apply SH. pose proof (proj2 (penalty_derive (ct_delta c) (pot_line c W rb (row_at c a) 0) DL)) as PD.
  eapply is_derive_eq; [apply is_derive_scal, (is_derive_comp (penalty_db (ct_delta c)) (pot_line c W rb (row_at c a)) 0 _ _ PD D)|]. rewrite E0. cbv [scal]. cbn. unfold mult. cbn. ring.
Qed.
(** The gradient of the potential at a query point. *)
Definition hessian_q : list (nat * m3) := map (fun p => (fst p, m3_scale 1 (hq c p))) (crows c).
Definition hessian_v : blocks := flat_map (fun p => map (fun e => (fst p, fst e, m3_scale 1 (snd e))) (hmix c p)) (crows c).
Lemma repeat_combine {A B} (l : list A) (x : B) m : (length l <= m)%nat -> combine l (repeat x m) = map (fun a => (a, x)) l.
Proof. revert m. induction l as [|a l IH]; intros [|m] L; cbn in *; try reflexivity; [lia|]. rewrite IH by lia. reflexivity. Qed.
Lemma rows_bound : (length (crows c) <= length (ct_points c))%nat.
Proof. rewrite (rows_count c n SH), <- (seq_length (length (ct_points c)) 0). apply NoDup_incl_length; [apply filled_nodup|]. intros a I. apply in_seq. split; [lia|apply (filled_range c n SH a I)]. Qed.
Lemma hessian_q_some m : (length (crows c) <= m)%nat -> query_hessian_blocks t (ct_points c) (repeat 1 m) = Some hessian_q.
Proof.
  intros L. unfold query_hessian_blocks. fold (crows c). change (hessian_rows t (ct_points c)) with (crows c). rewrite repeat_combine by exact L. rewrite map_map. unfold hessian_q. apply all_some_map. intros [i [q l]] I. pose proof (hq_some c _ I) as E. cbn [fst snd] in E. unfold csamples, cbase in E. fold t in E. rewrite E. reflexivity.
Qed.
Lemma hessian_v_some : supported (sample_query_hessian t (ct_points c) None) = Some hessian_v.
Proof.
  unfold sample_query_hessian. rewrite (TY c n SH : sb_type (q_base t) = SFace). cbn [supported]. change (hessian_rows t (ct_points c)) with (crows c). rewrite repeat_combine by apply Nat.le_refl. rewrite map_map. unfold hessian_v. apply concat_flat. intros [i [q l]] I. pose proof (hmix_some c n SH _ I) as E. cbn [fst snd] in E. fold t in E. rewrite E. reflexivity.
Qed.
Lemma pick_row (f : crow -> v3) a : In a (filled t) -> vsum (map (fun p : crow => if Nat.eqb (fst p) a then f p else v3_0) (crows c)) = f (row_at c a).
Proof.
  intros I. rewrite (rows_at c n SH), map_map. fold t. cbn [fst row_at]. rewrite (vsum_ext _ (fun r => if Nat.eqb a r then f (row_at c r) else v3_0)) by (intros r _; rewrite (Nat.eqb_sym r a); reflexivity).
  apply (vsum_pick (fun r => f (row_at c r)) a (filled t) (filled_nodup c) I).
Qed.
Lemma scale_1 A : m3_scale 1 A = A.
Proof. destruct A as [[a0 a1 a2] [b0 b1 b2] [d0 d1 d2]]. cbv [m3_scale v3_scale r0 r1 r2 vx vy vz]. rewrite !Rmult_1_l. reflexivity. Qed.
Lemma velocity_rows a : In a (filled t) -> gradient_velocity (ct_surface c) (ct_collider c) hessian_q hessian_v W a = v3_add (m3_mulv (hq c (row_at c a)) (mcol c W a)) (block_row_product (hmix c (row_at c a)) (mobj c W)).
Proof.
  intros I. unfold gradient_velocity. f_equal.
  - unfold hessian_q. rewrite map_map. cbn [fst snd]. etransitivity; [|exact (pick_row (fun p => m3_mulv (hq c p) (mcol c W a)) a I)]. apply vsum_ext. intros p _. rewrite scale_1. reflexivity.
  - unfold hessian_v. rewrite vsum_flat. etransitivity; [|exact (pick_row (fun p => block_row_product (hmix c p) (mobj c W)) a I)]. apply vsum_ext. intros p _. rewrite map_map. cbn [fst snd]. unfold block_row_product. fold (vsum (map (fun e => m3_mulv (snd e) (mobj c W (fst e))) (hmix c p))).
    destruct (Nat.eqb (fst p) a); [|apply ContactAsmProofs.vsum_zero; reflexivity]. change (fold_right v3_add v3_0 ?x) with (vsum x). apply vsum_ext. intros e _. rewrite scale_1. reflexivity.
Qed.
Lemma grad_moves a : In a (filled t) -> moves (fun s => grad_at (ctau s) a) (gradient_velocity (ct_surface c) (ct_collider c) hessian_q hessian_v W a).
Proof.
  intros I. rewrite (velocity_rows a I). pose proof (row_at_in c n SH a I) as IR. destruct (row_in c _ IR) as (LT & EQ & EN & NE). cbn [row_at fst snd] in *.
  destruct (regular_from_point a LT NE) as (cl & NR & RV & SB & QB).
  destruct (mixed_gradient_derive t (mobj c W) rb (fun s => v3_line (nth a (ct_points c) v3_0) (mcol c W a) s) (mcol c W a) (nth a (trivial_neighborhood t) []) cl (TY c n SH) (WF c n SH) (proj1 (PM c n SH)) PL (fun i => row_nbrs c n SH _ i IR) (row_nodup c n SH _ IR) (VK c n SH) (moves_line _ _)) as (H & row & J & EH & ER & _ & EJ & MJ); try (cbv beta; rewrite HessProps.line_0; assumption).
  rewrite HessProps.line_0 in EH, ER.
  pose proof (hq_some c _ IR) as A1. cbn [row_at fst snd] in A1. unfold csamples, cbase in A1. fold t in A1. rewrite EH in A1. injection A1 as A1.
  pose proof (hmix_some c n SH _ IR) as A2. cbn [row_at fst snd] in A2. fold t in A2. rewrite ER in A2. injection A2 as A2.
  rewrite <- A1, <- A2. apply (moves_ext_loc J); [|exact MJ].
  eapply filter_imp; [|exact EJ]. cbv beta. intros s E. unfold grad_at. rewrite (row_points s a I). destruct (ctau_spec s) as (_ & SH' & _ & SS & EB & _ & _).
  assert (IR' : In (line_row (mcol c W) s (row_at c a)) (crows (ctau s))) by (rewrite <- (row_points s a I); apply (row_at_in (ctau s) n SH'); rewrite (tau_filled s); exact I).
  pose proof (jcol_some (ctau s) _ IR') as JS. unfold line_row, row_at in JS |- *. cbn [fst snd] in JS |- *. destruct SS as (T1 & _ & _ & T4 & _ & _ & T7 & _). unfold csamples in JS. rewrite T4, T7, EB in JS. assert (Q := eq_trans (eq_sym E) JS). injection Q as Q. exact Q.
Qed.
End Curve.
End Motion.
