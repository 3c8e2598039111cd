(** Properties of helpers and of material parameters. *)
From Coq Require Import Reals ZArith List Arith Bool Lra Lia.
From Verif Require Import RList UtilModel UtilSpec UtilProofs.
Import ListNotations.
Local Open Scope R_scope.

(** C53: for every 64-bit pattern the sign is kept; a normal number becomes a power of two, at most the number in magnitude and more
    than half of it; zeros and infinities are kept; subnormal numbers become zero; NaNs become infinities. *)
Theorem approx_power_of_two64_correct (b : Z) : (0 <= b < 2 ^ 64)%Z ->
  let r := approx_power_of_two64 b in
  (0 <= r < 2 ^ 64)%Z /\ sign_bit 11 52 r = sign_bit 11 52 b /\
  (is_normal 11 52 b -> is_normal 11 52 r /\ (exists k : Z, normal_magnitude 11 52 r = two_to k) /\ normal_magnitude 11 52 r <= normal_magnitude 11 52 b < 2 * normal_magnitude 11 52 r) /\
  (is_zero 11 52 b -> r = b) /\ (is_infinite 11 52 b -> r = b) /\ (is_subnormal 11 52 b -> is_zero 11 52 r) /\ (is_nan 11 52 b -> is_infinite 11 52 r).
Proof.
  intros H r. unfold r. rewrite round64 by exact H. pose proof (Z.div_mod b (2 ^ 52) ltac:(discriminate)) as D. pose proof (Z.mod_pos_bound b (2 ^ 52) ltac:(reflexivity)) as M.
  pose proof (Z.div_pos b (2 ^ 52) ltac:(lia) ltac:(reflexivity)) as P. destruct (normal_bounds 11 52 b ltac:(lia) ltac:(lia)) as [N1 N2].
  split; [lia|]. split; [apply rounded_sign; lia|]. unfold is_normal, is_zero, is_subnormal, is_infinite, is_nan. rewrite rounded_exponent, rounded_mantissa by lia.
  split; [intros Hn; split; [exact Hn|split; [eexists; exact N1|exact N2]]|]. unfold mantissa_bits in *. split; [intros [_ E]; lia|]. split; [intros [_ E]; lia|]. split; intros [E _]; auto.
Qed.
Theorem approx_power_of_two32_correct (b : Z) : (0 <= b < 2 ^ 32)%Z ->
  let r := approx_power_of_two32 b in
  (0 <= r < 2 ^ 32)%Z /\ sign_bit 8 23 r = sign_bit 8 23 b /\
  (is_normal 8 23 b -> is_normal 8 23 r /\ (exists k : Z, normal_magnitude 8 23 r = two_to k) /\ normal_magnitude 8 23 r <= normal_magnitude 8 23 b < 2 * normal_magnitude 8 23 r) /\
  (is_zero 8 23 b -> r = b) /\ (is_infinite 8 23 b -> r = b) /\ (is_subnormal 8 23 b -> is_zero 8 23 r) /\ (is_nan 8 23 b -> is_infinite 8 23 r).
Proof.
  intros H r. unfold r. rewrite round32 by exact H. pose proof (Z.div_mod b (2 ^ 23) ltac:(discriminate)) as D. pose proof (Z.mod_pos_bound b (2 ^ 23) ltac:(reflexivity)) as M.
  pose proof (Z.div_pos b (2 ^ 23) ltac:(lia) ltac:(reflexivity)) as P. destruct (normal_bounds 8 23 b ltac:(lia) ltac:(lia)) as [N1 N2].
  split; [lia|]. split; [apply rounded_sign; lia|]. unfold is_normal, is_zero, is_subnormal, is_infinite, is_nan. rewrite rounded_exponent, rounded_mantissa by lia.
  split; [intros Hn; split; [exact Hn|split; [eexists; exact N1|exact N2]]|]. unfold mantissa_bits in *. split; [intros [_ E]; lia|]. split; [intros [_ E]; lia|]. split; intros [E _]; auto.
Qed.
Print Assumptions approx_power_of_two64_correct.
Print Assumptions approx_power_of_two32_correct.
(** 3.14159 (0x400921f9f01b866e) becomes 2 (0x4000000000000000). *)
Example approx_power_of_two64_ex : is_normal 11 52 0x400921f9f01b866e /\ approx_power_of_two64 0x400921f9f01b866e = 0x4000000000000000%Z.
Proof. split; [unfold is_normal; split; vm_compute; reflexivity|vm_compute; reflexivity]. Qed.
(** -3.14159 in 32 bits (0xc0490fd0) becomes -2 (0xc0000000). *)
Example approx_power_of_two32_ex : is_normal 8 23 0xc0490fd0 /\ sign_bit 8 23 0xc0490fd0 = true /\ approx_power_of_two32 0xc0490fd0 = 0xc0000000%Z.
Proof. split; [unfold is_normal; split; vm_compute; reflexivity|split; vm_compute; reflexivity]. Qed.

(** C55: the mode has the returned multiplicity, no value is more frequent, and among the most frequent values it is the largest. *)
Theorem mode_most_frequent (data : list nat) : data <> [] ->
  let (m, f) := mode_u32 data in
  f = occurrences m data /\ In m data /\ (forall x, (occurrences x data <= f)%nat) /\ (forall x, (m < x)%nat -> (occurrences x data < f)%nat).
Proof.
  intros H. destruct (mode_spec data H) as (A & B & C). destruct (mode_u32 data) as [m f]. cbn [fst snd] in *. split; [exact A|]. split; [|split; [exact B|exact C]].
  apply (count_occ_In Nat.eq_dec). destruct data as [|y data]; [congruence|]. specialize (B y). unfold occurrences in *. rewrite (count_occ_cons_eq Nat.eq_dec data (eq_refl y)) in B. lia.
Qed.
Print Assumptions mode_most_frequent.
Example mode_most_frequent_ex : mode_u32 [4; 1; 4; 2; 2; 0]%nat = (4, 2)%nat.
Proof. reflexivity. Qed.

(** C54: the exact sum of a row of the mesh Laplacian.  It exceeds one by the weight times the fraction of neighbours whose edge
    belongs to two faces, because the closure merging equal entries doubles them. *)
Theorem laplacian_row_sum (size : nat) (faces : list face) (w : R) (i : nat) :
  Forall (proper_face size) faces -> (i < size)%nat -> w <> 0 -> w <> 1 ->
  (forall j, i <> j -> (faces_at_edge faces i j <= 2)%nat) -> (0 < length (neighbours size faces i))%nat ->
  row_sum (laplacian_row size faces w i) = 1 + w * (INR (length (shared faces i (neighbours size faces i))) / INR (length (neighbours size faces i))).
Proof. exact (laplacian_sum size w faces i). Qed.
(** So rows sum to one exactly at the vertices none of whose edges belongs to two faces. *)
Theorem laplacian_row_sums_to_one_iff (size : nat) (faces : list face) (w : R) (i : nat) :
  Forall (proper_face size) faces -> (i < size)%nat -> w <> 0 -> w <> 1 ->
  (forall j, i <> j -> (faces_at_edge faces i j <= 2)%nat) -> (0 < length (neighbours size faces i))%nat ->
  row_sum (laplacian_row size faces w i) = 1 <-> (forall j, In j (neighbours size faces i) -> faces_at_edge faces i j = 1%nat).
Proof.
  intros HF Hi H0 H1 H2 Hn. rewrite laplacian_sum by assumption. assert (P : INR (length (neighbours size faces i)) <> 0) by (apply not_0_INR; lia).
  assert (E : 1 + w * (INR (length (shared faces i (neighbours size faces i))) / INR (length (neighbours size faces i))) = 1 <-> length (shared faces i (neighbours size faces i)) = 0%nat).
  { split; [|intros ->; cbn [INR]; field; exact P]. intros E. apply INR_eq. cbn [INR]. assert (Z : w * (INR (length (shared faces i (neighbours size faces i))) / INR (length (neighbours size faces i))) = 0) by lra.
    apply Rmult_integral in Z. destruct Z as [Z|Z]; [contradiction|]. unfold Rdiv in Z. apply Rmult_integral in Z. destruct Z as [Z|Z]; [exact Z|]. exfalso. revert Z. apply Rinv_neq_0_compat. exact P. }
  rewrite E. unfold shared. split.
  - intros Z j Hj. apply length_zero_iff_nil in Z. unfold neighbours in Hj. pose proof Hj as Hj'. apply filter_In in Hj'. destruct Hj' as [_ Hj']. apply andb_prop in Hj'. destruct Hj' as [_ Hj']. apply Nat.ltb_lt in Hj'.
    destruct (Nat.lt_ge_cases 1 (faces_at_edge faces i j)) as [L|L]; [|lia]. exfalso. assert (X : In j (filter (fun j => Nat.ltb 1 (faces_at_edge faces i j)) (neighbours size faces i))) by (apply filter_In; split; [exact Hj|apply Nat.ltb_lt; exact L]). rewrite Z in X. exact X.
  - intros Z. destruct (filter (fun j => Nat.ltb 1 (faces_at_edge faces i j)) (neighbours size faces i)) as [|j l] eqn:F; [reflexivity|]. exfalso. assert (X : In j (j :: l)) by (left; reflexivity). rewrite <- F in X. apply filter_In in X. destruct X as [X Y]. rewrite (Z j X) in Y. discriminate.
Qed.
Print Assumptions laplacian_row_sum.
Print Assumptions laplacian_row_sums_to_one_iff.
(** Two triangles sharing the edge 1-2, as in the first row of a strip. *)
Definition strip : list face := [(0, 1, 2); (1, 3, 2)]%nat.
Lemma strip_hyps : Forall (proper_face 4) strip /\ (forall i j, (i < 4)%nat -> i <> j -> (faces_at_edge strip i j <= 2)%nat).
Proof.
  split; [repeat constructor; simpl; lia|]. intros i j _ _. unfold faces_at_edge, strip. etransitivity; [apply filter_length_le|]. simpl. lia.
Qed.
(** Vertex 0 touches no shared edge; vertex 1 touches one, of three neighbours. *)
Example laplacian_row_sum_ex : row_sum (laplacian_row 4 strip (1/2) 0) = 1 /\ row_sum (laplacian_row 4 strip (1/2) 1) = 1 + 1/2 * (1 / 3).
Proof.
  destruct strip_hyps as [A B]. split; (rewrite laplacian_row_sum; [|exact A|lia|lra|lra|intros j Hj; apply B; [lia|exact Hj]|vm_compute; lia]).
  - change (length (shared strip 0 (neighbours 4 strip 0))) with 0%nat. cbn [INR]. lra.
  - change (length (shared strip 1 (neighbours 4 strip 1))) with 1%nat. change (length (neighbours 4 strip 1)) with 3%nat. simpl. lra.
Qed.
Theorem laplacian_row_sum_refuted : exists size faces w i, Forall (proper_face size) faces /\ (i < size)%nat /\ 0 < w < 1 /\ row_sum (laplacian_row size faces w i) <> 1.
Proof.
  exists 4%nat, strip, (1/2), 1%nat. split; [exact (proj1 strip_hyps)|]. split; [lia|]. split; [lra|]. rewrite (proj2 laplacian_row_sum_ex). lra.
Qed.
(** With weight one the diagonal entry is dropped, one neighbour too few is counted, and even a single triangle has row sum two. *)
Theorem laplacian_weight_one_refuted : exists size faces i, Forall (proper_face size) faces /\ (i < size)%nat /\ (forall j, i <> j -> (faces_at_edge faces i j <= 1)%nat) /\ row_sum (laplacian_row size faces 1 i) = 2.
Proof.
  exists 3%nat, [(0, 1, 2)%nat], 0%nat. split; [repeat constructor; simpl; lia|]. split; [lia|]. split; [intros j _; unfold faces_at_edge; etransitivity; [apply filter_length_le|]; simpl; lia|].
  unfold laplacian_row, pruned_row, laplacian_triplets. cbn. destruct (Req_EM_T (1 - 1) 0) as [_|N]; [|lra]. destruct (Req_EM_T 1 0) as [E|_]; [lra|]. unfold normalize_row, row_sum. cbn. unfold rsum. simpl. lra.
Qed.
Print Assumptions laplacian_row_sum_refuted.
Print Assumptions laplacian_weight_one_refuted.

(** C47: bulk and shear moduli, and the shear modulus of Young's modulus and Poisson's ratio, are converted by the standard relations. *)
Theorem bulk_shear_consistent (bulk shear : R) : bulk_of_lame (lambda_of (BulkShear bulk shear)) (mu_of (BulkShear bulk shear)) = bulk.
Proof. unfold bulk_of_lame. simpl. lra. Qed.
(** Young's modulus and Poisson's ratio are recovered from the parameters exactly when Poisson's ratio is zero: the divisor
    [1 - 2 * poisson] of the first parameter is multiplied instead. *)
Theorem young_poisson_consistent_iff (young poisson : R) : 0 < young -> -1 < poisson < 1 / 2 ->
  let p := YoungPoisson young poisson in
  (poisson_of_lame (lambda_of p) (mu_of p) = poisson /\ young_of_lame (lambda_of p) (mu_of p) = young) <-> poisson = 0.
Proof.
  intros Hy Hp p. unfold poisson_of_lame, young_of_lame, p, lambda_of, mu_of. replace 1.0 with 1 by lra. replace 2.0 with 2 by lra. set (A := young / (1 + poisson)). assert (PA : 0 < A) by (apply Rdiv_lt_0_compat; lra).
  replace (young * poisson / (1 + poisson) * (1 - 2 * poisson)) with (A * (poisson * (1 - 2 * poisson))) by (unfold A; field; lra).
  replace (young / (2 * (1 + poisson))) with (A * (1 / 2)) by (unfold A; field; lra).
  assert (Hy' : young = A * (1 + poisson)) by (unfold A; field; lra).
  split.
  - intros [E _]. set (q := poisson * (1 - 2 * poisson)) in *.
    assert (NZ : q + 1 / 2 <> 0). { intros Z. replace (2 * (A * q + A * (1 / 2))) with (2 * A * (q + 1/2)) in E by ring. rewrite Z, Rmult_0_r in E. unfold Rdiv in E. rewrite Rinv_0, Rmult_0_r in E. unfold q in Z. rewrite <- E in Z. lra. }
    assert (E2 : q = poisson * (2 * (q + 1 / 2))). { transitivity (A * q / (2 * (A * q + A * (1 / 2))) * (2 * (q + 1 / 2))); [|rewrite E; reflexivity]. clearbody q. replace (A * q / (2 * (A * q + A * (1 / 2)))) with (q / (2 * (q + 1 / 2))); [field; lra|]. field. repeat split; try lra. intros Z. apply NZ. nra. }
    unfold q in E2. assert (Z : poisson * poisson * (1 - poisson) = 0) by nra. apply Rmult_integral in Z. destruct Z as [Z|Z]; [apply Rmult_integral in Z; destruct Z; assumption|lra].
  - intros ->. rewrite Hy'. split; field; lra.
Qed.
Print Assumptions bulk_shear_consistent.
Print Assumptions young_poisson_consistent_iff.
Example young_poisson_consistent_ex : let p := YoungPoisson 1000 0 in poisson_of_lame (lambda_of p) (mu_of p) = 0 /\ young_of_lame (lambda_of p) (mu_of p) = 1000.
Proof. apply (proj2 (young_poisson_consistent_iff 1000 0 ltac:(lra) ltac:(lra))). reflexivity. Qed.
Example bulk_shear_consistent_ex : bulk_of_lame (lambda_of (BulkShear 1750 10)) (mu_of (BulkShear 1750 10)) = 1750.
Proof. apply bulk_shear_consistent. Qed.
Theorem young_poisson_refuted : exists young poisson, 0 < young /\ -1 < poisson < 1 / 2 /\ poisson_of_lame (lambda_of (YoungPoisson young poisson)) (mu_of (YoungPoisson young poisson)) <> poisson.
Proof. exists 1, (1/4). split; [lra|]. split; [lra|]. unfold poisson_of_lame, lambda_of, mu_of. lra. Qed.
Print Assumptions young_poisson_refuted.
