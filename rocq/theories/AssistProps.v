(** What the line-search assistance reads. *)
From Coq Require Import Reals List Arith Lra Lia.
From Verif Require Import Vec3 ProblemModel AssistModel.
From Verif Require TimeModel ShellModel.
Import ListNotations.
Local Open Scope R_scope.

Definition sized_call (m : nat) (c : assist_call) : Prop :=
  match c with ForContact r1 r2 => length r1 = m /\ length r2 = m | ForFriction v p r1 r2 => length v = m /\ length p = m /\ length r1 = m /\ length r2 = m end.
(** A buffer that was never used, or holds [m] vectors and zeros. *)
Definition padded (n m : nat) (l : list v3) : Prop := l = [] \/ exists a, length a = m /\ l = a ++ repeat v3_0 (n - m).
Lemma pad_again n m dq l : (m <= n)%nat -> length dq = m -> padded n m l -> to_vertex_velocity dq (resize_zero n l) = dq ++ repeat v3_0 (n - m).
Proof.
  intros L E [->|(a & LA & ->)]; unfold to_vertex_velocity, resize_zero.
  - rewrite firstn_nil, app_nil_l. cbn [length]. rewrite Nat.sub_0_r, repeat_length, firstn_all2 by lia. f_equal. rewrite E. replace n with (m + (n - m))%nat at 1 by lia. rewrite repeat_app, skipn_app, repeat_length, Nat.sub_diag, skipn_all2 by (rewrite repeat_length; lia). reflexivity.
  - assert (LL : length (a ++ repeat v3_0 (n - m)) = n) by (rewrite app_length, repeat_length; lia). rewrite (firstn_all2 (a ++ repeat v3_0 (n - m))) by lia. rewrite LL, Nat.sub_diag. cbn [repeat]. rewrite app_nil_r, LL, (firstn_all2 dq) by lia. f_equal. rewrite E, skipn_app, LA, Nat.sub_diag, skipn_all2 by lia. reflexivity.
Qed.
Lemma padded_after n m dq : length dq = m -> padded n m (dq ++ repeat v3_0 (n - m)).
Proof. intros L. right. exists dq. split; [exact L|reflexivity]. Qed.
Lemma calls_padded n m : (m <= n)%nat -> forall cs b, (forall c, In c cs -> sized_call m c) -> padded n m (ab_vel b) -> padded n m (ab_dir b) -> padded n m (ab_f1 b) -> padded n m (ab_f2 b) ->
  let b' := fold_left (assist_call_run n) cs b in padded n m (ab_vel b') /\ padded n m (ab_dir b') /\ padded n m (ab_f1 b') /\ padded n m (ab_f2 b').
Proof.
  intros L. induction cs as [|c cs IH]; intros b S P1 P2 P3 P4; cbn [fold_left]; [auto|]. pose proof (S c (or_introl eq_refl)) as SC. apply IH; [intros c' I; apply S; right; exact I| | | |]; destruct c as [r1 r2|v p r1 r2]; cbn [sized_call] in SC; cbn [assist_call_run contact_call friction_call ab_vel ab_dir ab_f1 ab_f2 fst snd]; try assumption;
    (rewrite (pad_again n m) by (try assumption; apply SC); apply padded_after; apply SC).
Qed.

(** C196: whatever was asked before, the assistance for friction reads the given velocities, direction and residuals at the vertices that may
    move, and zeros at the others. *)
Theorem assistance_reads : forall n m cs v p r1 r2, (m <= n)%nat -> (forall c, In c cs -> sized_call m c) -> length v = m -> length p = m -> length r1 = m -> length r2 = m ->
  assist_calls n (cs ++ [ForFriction v p r1 r2]) = AssistBuffers (v ++ repeat v3_0 (n - m)) (p ++ repeat v3_0 (n - m)) (r1 ++ repeat v3_0 (n - m)) (r2 ++ repeat v3_0 (n - m)).
Proof.
  intros n m cs v p r1 r2 L S L1 L2 L3 L4. unfold assist_calls. rewrite fold_left_app. destruct (calls_padded n m L cs no_buffers S) as (P1 & P2 & P3 & P4); [left; reflexivity..|]. cbn [fold_left assist_call_run]. unfold friction_call. rewrite !(pad_again n m) by assumption. reflexivity.
Qed.
Example assistance_reads_ex : (1 <= 2)%nat /\ sized_call 1 (ForFriction [V3 1 2 3] [V3 0 1 0] [V3 5 0 0] [V3 6 0 0]) /\ sized_call 1 (ForContact [V3 7 0 0] [V3 8 0 0]) /\
  assist_calls 2 [ForFriction [V3 1 2 3] [V3 0 1 0] [V3 5 0 0] [V3 6 0 0]; ForContact [V3 7 0 0] [V3 8 0 0]; ForFriction [V3 4 4 4] [V3 0 0 9] [V3 1 0 0] [V3 2 0 0]]
    = AssistBuffers [V3 4 4 4; v3_0] [V3 0 0 9; v3_0] [V3 1 0 0; v3_0] [V3 2 0 0; v3_0].
Proof. split; [lia|]. split; [repeat split|]. split; [repeat split|reflexivity]. Qed.
(** For contact it reads the given residuals padded alike, and leaves velocities and direction of the last call for friction. *)
Theorem assistance_reads_contact : forall n m cs r1 r2, (m <= n)%nat -> (forall c, In c cs -> sized_call m c) -> length r1 = m -> length r2 = m ->
  let b := assist_calls n (cs ++ [ForContact r1 r2]) in
  ab_f1 b = r1 ++ repeat v3_0 (n - m) /\ ab_f2 b = r2 ++ repeat v3_0 (n - m) /\ ab_vel b = ab_vel (assist_calls n cs) /\ ab_dir b = ab_dir (assist_calls n cs).
Proof.
  intros n m cs r1 r2 L S L1 L2. unfold assist_calls. rewrite fold_left_app. destruct (calls_padded n m L cs no_buffers S) as (P1 & P2 & P3 & P4); [left; reflexivity..|]. cbn [fold_left assist_call_run contact_call ab_f1 ab_f2 ab_vel ab_dir fst snd]. rewrite !(pad_again n m) by assumption. repeat split.
Qed.
Example assistance_reads_contact_ex : (1 <= 2)%nat /\ sized_call 1 (ForFriction [V3 1 2 3] [V3 0 1 0] [V3 5 0 0] [V3 6 0 0]) /\
  assist_calls 2 [ForFriction [V3 1 2 3] [V3 0 1 0] [V3 5 0 0] [V3 6 0 0]; ForContact [V3 7 0 0] [V3 8 0 0]] = AssistBuffers [V3 1 2 3; v3_0] [V3 0 1 0; v3_0] [V3 7 0 0; v3_0] [V3 8 0 0; v3_0].
Proof. split; [lia|]. split; [repeat split|reflexivity]. Qed.
Lemma nth_skipped (k : nat) : forall l i, nth i (skipn k l) v3_0 = nth (k + i) l v3_0.
Proof. induction k as [|k IH]; intros [|x l] i; [reflexivity|reflexivity|destruct i; reflexivity|apply IH]. Qed.
(** These are the velocities of the state, if fixed vertices do not move. *)
Theorem assistance_reads_state : forall p cs V P r1 r2, (pb_active p <= length (pb_vel p))%nat -> (forall c, In c cs -> sized_call (pb_active p) c) ->
  length V = pb_active p -> length P = pb_active p -> length r1 = pb_active p -> length r2 = pb_active p ->
  (forall i, (pb_active p <= i < length (pb_vel p))%nat -> nth i (pb_vel p) v3_0 = v3_0) ->
  ab_vel (assist_calls (length (pb_vel p)) (cs ++ [ForFriction V P r1 r2])) = next_vel p V.
Proof.
  intros p cs V P r1 r2 L S L1 L2 L3 L4 Z. rewrite (assistance_reads _ (pb_active p)) by assumption. cbn [ab_vel]. unfold next_vel. rewrite firstn_all2 by lia. f_equal. apply (nth_ext _ _ v3_0 v3_0); [rewrite repeat_length, skipn_length; reflexivity|]. intros i I. rewrite repeat_length in I. rewrite nth_repeat.
  rewrite nth_skipped. symmetry. apply Z. lia.
Qed.
Definition carried (u : v3) : problem := Problem [] [] (ShellModel.Shell [] [] (fun _ _ => 0%nat)) [] [] [] v3_0 (1 / 10) TimeModel.SBE [] 1 (fun _ => u) (repeat 0 6) [v3_0; v3_0] [u; u].
Example assistance_reads_state_ex : (pb_active (carried v3_0) <= length (pb_vel (carried v3_0)))%nat /\ (forall i, (pb_active (carried v3_0) <= i < length (pb_vel (carried v3_0)))%nat -> nth i (pb_vel (carried v3_0)) v3_0 = v3_0) /\
  ab_vel (assist_calls 2 [ForFriction [V3 1 2 3] [v3_0] [v3_0] [v3_0]]) = next_vel (carried v3_0) [V3 1 2 3].
Proof. split; [cbn; lia|]. split; [intros [|[|i]] I; cbn in *; [lia|reflexivity|lia]|reflexivity]. Qed.
(** Where a fixed vertex is carried with velocity [u] and a vertex rests on it, moving alike, their relative velocity is zero but the one that
    is read is [u]. *)
Theorem assistance_reads_state_refuted : exists p V, length V = pb_active p /\ forall P r1 r2, length P = 1%nat -> length r1 = 1%nat -> length r2 = 1%nat ->
  let b := assist_calls (length (pb_vel p)) [ForFriction V P r1 r2] in
  v3_sub (nth 0 (next_vel p V) v3_0) (nth 1 (next_vel p V) v3_0) = v3_0 /\ v3_sub (nth 0 (ab_vel b) v3_0) (nth 1 (ab_vel b) v3_0) = V3 1 0 0.
Proof.
  exists (carried (V3 1 0 0)), [V3 1 0 0]. split; [reflexivity|]. intros P r1 r2 L2 L3 L4 b. split; [cbn; unfold v3_sub, v3_0; cbn; f_equal; ring|].
  unfold b. change [ForFriction [V3 1 0 0] P r1 r2] with ([] ++ [ForFriction [V3 1 0 0] P r1 r2]). rewrite (assistance_reads _ 1) by (try assumption; try reflexivity; cbn; try lia; intros c []). cbn. unfold v3_sub. cbn. f_equal; ring.
Qed.
Print Assumptions assistance_reads.
Print Assumptions assistance_reads_contact.
Print Assumptions assistance_reads_state.
Print Assumptions assistance_reads_state_refuted.
