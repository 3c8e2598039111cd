(** Weight of the bending energy of an edge. *)
From Coq Require Import Reals ZArith List Arith Bool Lra Lia.
From Verif Require Import Vec3 AngleModel AngleSpec ShellModel TopoModel TopoSpec.
Local Open Scope R_scope.

Lemma norm_scale_abs k a : v3_norm (v3_scale k a) = Rabs k * v3_norm a.
Proof. unfold v3_norm. replace (v3_dot (v3_scale k a) (v3_scale k a)) with (Rsqr k * v3_dot a a) by (destruct a; unfold v3_dot, v3_scale, Rsqr; cbn; ring). rewrite sqrt_mult_alt by apply Rle_0_sqr. rewrite sqrt_Rsqr_abs. reflexivity. Qed.
Lemma height c a b : 0 < v3_norm (v3_sub b a) -> v3_norm (v3_cross (v3_sub c a) (normalized (v3_sub b a))) = 2 * tri_area (Tri3 a b c) / v3_norm (v3_sub b a).
Proof.
  intros P. unfold normalized, tri_area. cbn [q0 q1 q2]. set (l := v3_norm (v3_sub b a)) in *.
  replace (v3_cross (v3_sub c a) (v3_scale (/ l) (v3_sub b a))) with (v3_scale (- / l) (area_normal a b c)) by (unfold area_normal; destruct a, b, c; unfold v3_cross, v3_scale, v3_sub; cbn; f_equal; ring).
  rewrite norm_scale_abs, Rabs_Ropp, Rabs_pos_eq by (left; apply Rinv_0_lt_compat; exact P). field. lra.
Qed.
Lemma norm_of_square a b : v3_dot a a = v3_dot b b -> v3_norm a = v3_norm b. Proof. unfold v3_norm. intros ->. reflexivity. Qed.
Lemma tri_area_rot a b c : tri_area (Tri3 b c a) = tri_area (Tri3 a b c).
Proof. unfold tri_area. cbn [q0 q1 q2]. f_equal. apply norm_of_square. unfold area_normal. destruct a, b, c. unfold v3_dot, v3_cross, v3_sub. cbn. ring. Qed.
Lemma tri_area_swap a b c : tri_area (Tri3 b a c) = tri_area (Tri3 a b c).
Proof. unfold tri_area. cbn [q0 q1 q2]. f_equal. apply norm_of_square. unfold area_normal. destruct a, b, c. unfold v3_dot, v3_cross, v3_sub. cbn. ring. Qed.
Lemma norm_sub_swap a b : v3_norm (v3_sub a b) = v3_norm (v3_sub b a).
Proof. apply norm_of_square. destruct a, b. unfold v3_dot, v3_sub. cbn. ring. Qed.
Lemma area_of_face (rp : nat -> nat -> v3) f s : (s < 3)%nat -> tri_area (Tri3 (rp f ((s + 0) mod 3)%nat) (rp f ((s + 1) mod 3)%nat) (rp f ((s + 2) mod 3)%nat)) = tri_area (ref_tri3 rp f).
Proof.
  intros L. unfold ref_tri3. destruct s as [|[|[|]]]; [| | |lia]; cbv [Nat.add Nat.modulo Nat.divmod Nat.sub fst snd]; [reflexivity | apply tri_area_rot | rewrite tri_area_rot; apply tri_area_rot].
Qed.
Lemma weight_spec m e : let rp := in_ref_pos m in
  let l0 := v3_norm (v3_sub (face_vert0 e rp 1) (face_vert0 e rp 0)) in let l1 := v3_norm (v3_sub (face_vert1 e rp 1) (face_vert1 e rp 0)) in
  let A0 := tri_area (ref_tri3 rp (face_0 e)) in let A1 := tri_area (ref_tri3 rp (face_1 e)) in
  (start_0 e < 3)%nat -> (start_1 e < 3)%nat -> 0 < l0 -> 0 < l1 ->
  tile_span e rp = (A0 / l0 + A1 / l1) / 3 /\ ref_length e rp = (l0 + l1) / 2 /\ edge_ref_length m e = ((l0 + l1) / 2) / ((A0 / l0 + A1 / l1) / 3).
Proof.
  intros rp l0 l1 A0 A1 S0 S1 P0 P1.
  assert (T : tile_span e rp = (A0 / l0 + A1 / l1) / 3).
  { unfold tile_span. cbv zeta. rewrite (height (face_vert0 e rp 2) (face_vert0 e rp 0) (face_vert0 e rp 1)) by exact P0.
    assert (P1' : 0 < v3_norm (v3_sub (face_vert1 e rp 0) (face_vert1 e rp 1))) by (rewrite norm_sub_swap; exact P1).
    rewrite (height (face_vert1 e rp 2) (face_vert1 e rp 1) (face_vert1 e rp 0)) by exact P1'. rewrite (norm_sub_swap (face_vert1 e rp 0)). fold l0 l1.
    rewrite (tri_area_swap (face_vert1 e rp 0) (face_vert1 e rp 1)). unfold face_vert0, face_vert1. rewrite (area_of_face rp (face_0 e) (start_0 e) S0), (area_of_face rp (face_1 e) (start_1 e) S1). fold A0 A1. field. lra. }
  split; [exact T | split].
  - unfold ref_length. fold l0 l1. field.
  - unfold edge_ref_length. change (in_ref_pos m) with rp. rewrite T. unfold ref_length. fold l0 l1. f_equal. field.
Qed.
