(** Proofs about the assembled Jacobian of the residual: its layout, its symmetry, its quadratic form and its diagonal. *)
From Coq Require Import Reals List Arith Bool Lra Lia FunctionalExtensionality.
From Coquelicot Require Import Coquelicot.
From Verif Require Import Vec3 Mat3 RList ElasticModel ElasticSpec ElasticProofs ElasticMeshProofs ElasticHessProofs MassModel MassSpec MassProofs AngleModel ShellModel ShellSpec ShellMeshProofs ShellHessProofs
  VolumeModel VolumeSpec.
From Verif Require Import SurfJacSpec SurfHessSpec JetProofs ContactAsmModel ContactHessModel ContactHessSpec.
From Verif Require Import ProblemModel ProblemSpec ProblemListProofs ProblemEnergyProofs ProblemProofs.
From Verif Require ShellBalanceProofs ElasticProps ShellProofs ShellProps VolumeProofs NeighborModel ContactMoveProofs ContactHessProps ProblemContactProofs.
Import ListNotations.
Local Open Scope R_scope.
Import ProblemContactProofs.
Local Notation lower_form := ElasticSpec.lower_form.
Local Notation power := ElasticSpec.power.

(** * Lists *)
Lemma combine_flat {A B C} (f : A -> list B) (g : A -> list C) l : (forall a, In a l -> length (f a) = length (g a)) ->
  combine (flat_map f l) (flat_map g l) = flat_map (fun a => combine (f a) (g a)) l /\ length (flat_map f l) = length (flat_map g l).
Proof.
  induction l as [|a l IH]; intros H; [split; reflexivity|]. cbn [flat_map]. destruct (IH (fun b Hb => H b (or_intror Hb))) as [E L]. split; [rewrite combine_app_eq, E by (apply H; left; reflexivity); reflexivity|]. rewrite !app_length, L, (H a) by (left; reflexivity). reflexivity.
Qed.
Lemma flat_length {A B} (f : A -> list B) l : length (flat_map f l) = list_sum (map (fun a => length (f a)) l).
Proof. induction l as [|a l IH]; [reflexivity|]. cbn [flat_map map]. rewrite app_length, IH. reflexivity. Qed.
Lemma list_sum_le {A} (f g : A -> nat) l : (forall a, In a l -> (f a <= g a)%nat) -> (list_sum (map f l) <= list_sum (map g l))%nat.
Proof. intros H. induction l as [|a l IH]; [apply le_n|]. cbn [map]. change (f a + list_sum (map f l) <= g a + list_sum (map g l))%nat. apply Nat.add_le_mono; [apply H; left; reflexivity|apply IH; intros b Hb; apply H; right; exact Hb]. Qed.
Lemma entry_flat {A} (f : A -> list (nat * nat * R)) l i j : matrix_entry (flat_map f l) i j = rsum (map (fun a => matrix_entry (f a) i j) l).
Proof. induction l as [|a l IH]; [cbn [flat_map map]; rewrite entry_nil, rsum_nil; reflexivity|]. cbn [flat_map map]. rewrite entry_app, IH, rsum_cons. reflexivity. Qed.
Lemma matrix_form_ext k L a b : (forall i, (i < k)%nat -> a i = b i) -> matrix_form k L a = matrix_form k L b.
Proof. intros H. unfold matrix_form. apply rsum_ext. intros i Hi. apply in_seq in Hi. apply rsum_ext. intros j Hj. apply in_seq in Hj. rewrite !H by lia. reflexivity. Qed.
Lemma sparse_form_scaled L (c : R) (U : nat -> v3) : sparse_form L (coords (fun i => v3_scale c (U i))) (coords (fun i => v3_scale c (U i))) = c * c * sparse_form L (coords U) (coords U).
Proof. unfold sparse_form. rewrite <- rsum_scale. apply rsum_ext. intros [[r k] a] _. rewrite !coords_scale. ring. Qed.
Lemma lower_app a b y z : lower_form (a ++ b) y z = lower_form a y z + lower_form b y z.
Proof. unfold ElasticSpec.lower_form. rewrite map_app, rsum_app. reflexivity. Qed.
Lemma coords_zero m (U : nat -> v3) : (forall i, (m <= i)%nat -> U i = v3_0) -> forall k, (3 * m <= k)%nat -> coords U k = 0.
Proof. intros Z k K. unfold coords. rewrite Z by (apply Nat.div_le_lower_bound; lia). unfold v3_get, v3_0. destruct (k mod 3) as [|[|q]]; reflexivity. Qed.
Lemma coords_cut m W k : (k < 3 * m)%nat -> coords (cut_at m W) k = coordinate W k.
Proof. intros K. rewrite (coordinate_coords W k). unfold coords, cut_at. destruct (Nat.ltb_spec (k / 3) m) as [_|G]; [reflexivity|]. exfalso. assert (k / 3 < m)%nat by (apply Nat.div_lt_upper_bound; lia). lia. Qed.
Lemma cells_length {A} (f : A -> melem) (k : nat) share sc l : (forall a, length (cell (f a)) = k) ->
  length (inertia_indices (map f l) 0 0) = (3 * k * length l)%nat /\ length (inertia_values share (map f l) sc) = (3 * k * length l)%nat.
Proof.
  intros H. unfold inertia_indices, inertia_values. induction l as [|a l [I1 I2]]; [cbn; lia|]. cbn [map flat_map length]. rewrite !app_length, I1, I2, map_length, repeat_length, H.
  assert (Q : length (cell_coords (cell (f a))) = (3 * k)%nat) by (rewrite <- (H a); unfold cell_coords; induction (cell (f a)) as [|c cs IH]; [reflexivity|]; cbn [flat_map]; rewrite app_length, IH, map_length, seq_length; cbn [length]; lia). rewrite Q. lia.
Qed.
Lemma bil_sym z pos u w : VolumeProofs.bil z pos u w = VolumeProofs.bil z pos w u.
Proof.
  unfold VolumeProofs.bil. apply rsum_ext. intros t _. unfold VolumeProofs.tri_bil. destruct t as [a b c]. cbn [ta tb tc].
  destruct (pos a) as [a1 a2 a3], (pos b) as [b1 b2 b3], (pos c) as [g1 g2 g3], (u a) as [u1 u2 u3], (u b) as [u4 u5 u6], (u c) as [u7 u8 u9], (w a) as [w1 w2 w3], (w b) as [w4 w5 w6], (w c) as [w7 w8 w9].
  unfold v3_dot, v3_add, v3_cross. cbn [vx vy vz]. ring.
Qed.
(** * The entries *)
Definition lower_ij (p : problem) : list (nat * nat) :=
  (hessian_indices (nh_tets p) 0 0 ++ hessian_indices (snh_tets p) 0 0) ++ shell_hessian_indices (pb_shell p) 0 0 ++
  (if is_static p then [] else (inertia_indices (nh_masses p) 0 0 ++ inertia_indices (snh_masses p) 0 0) ++ inertia_indices (shell_masses p) 0 0).
Definition lower_vals (p : problem) : list R :=
  let x := at_ (pb_pos p) in let v := at_ (pb_vel p) in let h := dqdv p in let scale := h * h * 1 in
  (hessian_values neo_hookean (nh_tets p) scale h x v ++ hessian_values stable_neo_hookean (snh_tets p) scale h x v) ++ shell_hessian_values (pb_shell p) scale x ++
  (if is_static p then [] else (inertia_values (1 / 4) (nh_masses p) 1 ++ inertia_values (1 / 4) (snh_masses p) 1) ++ inertia_values (1 / 3) (shell_masses p) 1).
Definition lower_entries (p : problem) : list (nat * nat * R) := combine (lower_ij p) (lower_vals p).
Definition zone_entries (p : problem) (z : zone) : list (nat * nat * R) := combine (vol_hessian_indices z) (vol_hessian_values z (at_ (pb_pos p)) 1).
Definition contact_entries (m : nat) (cg : contact * mapped v3) : list (nat * nat * R) :=
  match distance_potential (fst cg), contact_multipliers (fst cg) with
  | Some dist, Some lambda => match constraint_hessian_values (fst cg) (snd cg) dist lambda m with Some vals => vals | None => [] end
  | _, _ => []
  end.
Definition scaled_entries (c : R) (L : list (nat * nat * R)) : list (nat * nat * R) := map (fun e => (fst e, c * snd e)) L.
Lemma concat_parts {A} (b : bool) (l1 l2 l3 l4 : list A) : concat ([l1; l2] ++ if b then [] else [l3; l4]) = l1 ++ l2 ++ (if b then [] else l3 ++ l4).
Proof. destruct b; cbn [app concat]; rewrite ?app_nil_r; reflexivity. Qed.
Section Lengths.
Variable p : problem.
Hypothesis OK : problem_ok p.
Lemma masses_length : length (nh_masses p) = length (pb_nh p) /\ length (snh_masses p) = length (pb_snh p) /\ length (combine (sh_tris (pb_shell p)) (pb_shell_density p)) = length (sh_tris (pb_shell p)).
Proof. unfold nh_masses, snh_masses. rewrite !map_length, combine_length. split; [reflexivity|]. split; [reflexivity|]. assert (E : length (pb_shell_density p) = length (sh_tris (pb_shell p))) by apply OK. lia. Qed.
Lemma tet_cell e : length (cell (tet_mass e)) = 4%nat. Proof. destruct e; reflexivity. Qed.
Lemma tri_cell e : length (cell (tri_mass e)) = 3%nat. Proof. destruct e; reflexivity. Qed.
Lemma part_lengths : length (hessian_indices (nh_tets p) 0 0) = (78 * length (pb_nh p))%nat /\ length (hessian_indices (snh_tets p) 0 0) = (78 * length (pb_snh p))%nat /\
  length (shell_hessian_indices (pb_shell p) 0 0) = shell_hessian_size (pb_shell p) /\ length (inertia_indices (nh_masses p) 0 0) = (12 * length (pb_nh p))%nat /\
  length (inertia_indices (snh_masses p) 0 0) = (12 * length (pb_snh p))%nat /\ length (inertia_indices (shell_masses p) 0 0) = (9 * length (sh_tris (pb_shell p)))%nat.
Proof.
  rewrite !indices_length. unfold nh_tets, snh_tets, nh_masses, snh_masses, shell_masses. rewrite !map_length. destruct masses_length as (_ & _ & M).
  destruct (cells_length tet_mass 4 0 0 (pb_nh p) tet_cell) as [-> _]. destruct (cells_length tet_mass 4 0 0 (pb_snh p) tet_cell) as [-> _]. destruct (cells_length tri_mass 3 0 0 (combine (sh_tris (pb_shell p)) (pb_shell_density p)) tri_cell) as [-> _]. rewrite M.
  rewrite ShellBalanceProofs.shell_indices_length. repeat split; lia.
Qed.
Lemma value_lengths sc h x v : length (hessian_values neo_hookean (nh_tets p) sc h x v) = (78 * length (pb_nh p))%nat /\ length (hessian_values stable_neo_hookean (snh_tets p) sc h x v) = (78 * length (pb_snh p))%nat /\
  length (shell_hessian_values (pb_shell p) sc x) = shell_hessian_size (pb_shell p) /\ length (inertia_values (1 / 4) (nh_masses p) 1) = (12 * length (pb_nh p))%nat /\
  length (inertia_values (1 / 4) (snh_masses p) 1) = (12 * length (pb_snh p))%nat /\ length (inertia_values (1 / 3) (shell_masses p) 1) = (9 * length (sh_tris (pb_shell p)))%nat.
Proof.
  rewrite !values_length. unfold nh_tets, snh_tets, nh_masses, snh_masses, shell_masses. rewrite !map_length. destruct masses_length as (_ & _ & M).
  destruct (cells_length tet_mass 4 (1 / 4) 1 (pb_nh p) tet_cell) as [_ ->]. destruct (cells_length tet_mass 4 (1 / 4) 1 (pb_snh p) tet_cell) as [_ ->]. destruct (cells_length tri_mass 3 (1 / 3) 1 (combine (sh_tris (pb_shell p)) (pb_shell_density p)) tri_cell) as [_ ->]. rewrite M.
  rewrite ShellBalanceProofs.shell_values_length. repeat split; lia.
Qed.
Lemma lower_lengths : length (lower_ij p) = length (lower_vals p).
Proof.
  unfold lower_ij, lower_vals. cbv zeta. destruct part_lengths as (A1 & A2 & A3 & A4 & A5 & A6). destruct (value_lengths (dqdv p * dqdv p * 1) (dqdv p) (at_ (pb_pos p)) (at_ (pb_vel p))) as (B1 & B2 & B3 & B4 & B5 & B6).
  destruct (is_static p); rewrite !app_length; cbn [length]; congruence || lia.
Qed.
Definition fem_room : nat :=
  let moving := fun n : nat => if is_static p then 0%nat else n in
  (2 * (tets_size (pb_nh p) + tets_size (pb_snh p)) - (tets_diagonal (pb_nh p) + tets_diagonal (pb_snh p))
    + moving (2 * (tets_inertia_size (pb_nh p) + tets_inertia_size (pb_snh p)) - (tets_inertia_size (pb_nh p) + tets_inertia_size (pb_snh p)))
    + (2 * shell_hessian_size (pb_shell p) - shell_diagonal_size (pb_shell p)
    + moving (2 * shell_inertia_size (pb_shell p) - shell_inertia_size (pb_shell p))))%nat.
Lemma fem_fits : (length (lower_ij p) + length (filter off_diagonal (lower_ij p)) <= fem_room)%nat.
Proof.
  destruct part_lengths as (A1 & A2 & A3 & A4 & A5 & A6). pose proof (tets_off (nh_tets p)) as O1. pose proof (tets_off (snh_tets p)) as O2. pose proof (shell_off (pb_shell p)) as O3. unfold nh_tets, snh_tets in O1, O2. rewrite map_length in O1, O2.
  unfold lower_ij, fem_room, tets_size, tets_diagonal, tets_inertia_size, shell_inertia_size, shell_diagonal_size. cbv zeta. unfold shell_hessian_size in *. unfold nh_tets, snh_tets in *.
  destruct (is_static p); rewrite !filter_app, !app_length, ?filter_app, ?app_length, ?inertia_diagonal; cbn [length filter]; rewrite A1, A2, A3, ?A4, ?A5, ?A6; lia.
Qed.
Definition mirrored_ij : list (nat * nat) := map (fun q => (snd q, fst q)) (filter off_diagonal (lower_ij p)).
Definition mirrored_vals : list R := map snd (filter (fun e => off_diagonal (fst e)) (lower_entries p)).
Lemma fem_indices_ok room : (fem_room <= room)%nat -> fem_indices p room = Some (lower_ij p ++ mirrored_ij).
Proof.
  intros L. pose proof fem_fits as F. unfold fem_indices. rewrite fill_all_enough.
  - cbn [bind]. rewrite app_nil_l, concat_parts. change (_ ++ _ ++ _) with (lower_ij p) at 1 2. rewrite zip_enough; [reflexivity|]. rewrite map_length. exact (Nat.le_trans _ _ _ F L).
  - rewrite concat_parts. change (_ ++ _ ++ _) with (lower_ij p). cbn [length]. lia.
Qed.
Lemma mirrored_lengths : length mirrored_ij = length mirrored_vals.
Proof. unfold mirrored_ij, mirrored_vals. rewrite !map_length. apply (combine_off (lower_ij p) (lower_vals p) lower_lengths). Qed.
Lemma fem_values_ok tail : let ij := (lower_ij p ++ mirrored_ij) ++ tail in let x := at_ (pb_pos p) in let v := at_ (pb_vel p) in let h := dqdv p in let scale := h * h * 1 in
  fill_all (length ij) [] ([hessian_values neo_hookean (nh_tets p) scale h x v ++ hessian_values stable_neo_hookean (snh_tets p) scale h x v; shell_hessian_values (pb_shell p) scale x] ++
      if is_static p then [] else [inertia_values (1 / 4) (nh_masses p) 1 ++ inertia_values (1 / 4) (snh_masses p) 1; inertia_values (1 / 3) (shell_masses p) 1]) = Some (lower_vals p) /\
  zip_fill (length ij) (lower_vals p) (map snd (filter (fun e => off_diagonal (fst e)) (combine ij (lower_vals p)))) = lower_vals p ++ mirrored_vals.
Proof.
  cbv zeta. pose proof lower_lengths as L. pose proof mirrored_lengths as M. split.
  - rewrite fill_all_enough; [rewrite app_nil_l, concat_parts; reflexivity|]. rewrite concat_parts. change (_ ++ _ ++ _) with (lower_vals p). rewrite !app_length. cbn [length]. lia.
  - rewrite <- (app_assoc (lower_ij p)), combine_prefix by exact L. fold (lower_entries p). fold mirrored_vals. apply zip_enough. rewrite !app_length. lia.
Qed.
Lemma fem_entries : combine (lower_ij p ++ mirrored_ij) (lower_vals p ++ mirrored_vals) = lower_entries p ++ off_entries (lower_entries p).
Proof. rewrite combine_app_eq by apply lower_lengths. unfold lower_entries at 1. f_equal. apply (combine_off (lower_ij p) (lower_vals p) lower_lengths). Qed.
Lemma lower_range q : In q (lower_ij p) -> (fst q < 3 * length (pb_pos p))%nat /\ (snd q < 3 * length (pb_pos p))%nat.
Proof.
  destruct OK as (H1 & H2 & H3 & H4 & H5 & H6 & H7 & H8 & H9 & H10). set (n := length (pb_pos p)) in *.
  assert (TR : forall es : list (solid_tet * R), (forall e, In e es -> in_range n (fst e) /\ distinct_vertices (fst e)) -> In q (hessian_indices (map fst es) 0 0) -> (fst q < 3 * n)%nat /\ (snd q < 3 * n)%nat).
  { intros es H Hq. unfold hessian_indices in Hq. apply in_flat_map in Hq. destruct Hq as (s & Hs & Hq). apply in_map_iff in Hs. destruct Hs as ((s' & d) & <- & He). destruct (H _ He) as [IR DV]. cbn [fst] in *. apply in_map_iff in Hq. destruct Hq as (t & <- & Ht).
    pose proof (entries_bounds t Ht) as Hb. destruct t as [[[a k] row] col]. destruct Hb as (Ha & Hk & Hr & Hc & _). unfold hessian_index. destruct IR as (I0 & I1 & I2 & I3).
    assert (CV : forall i, (i < 4)%nat -> (cell_vertex s' i < n)%nat) by (intros i Li; destruct i as [|[|[|i]]]; assumption). pose proof (CV a Ha). pose proof (CV k Hk). destruct (Nat.ltb (cell_vertex s' a) (cell_vertex s' k)); cbn [fst snd]; lia. }
  assert (MR : forall es, cells_in_range n es -> In q (inertia_indices es 0 0) -> (fst q < 3 * n)%nat /\ (snd q < 3 * n)%nat).
  { intros es H Hq. unfold inertia_indices in Hq. apply in_flat_map in Hq. destruct Hq as (e & He & Hq). apply in_map_iff in Hq. destruct Hq as (k & <- & Hk). unfold cell_coords in Hk. apply in_flat_map in Hk. destruct Hk as (c & Hc & Hk). apply in_map_iff in Hk. destruct Hk as (j & <- & Hj). apply in_seq in Hj. pose proof (H e c He Hc). cbn [fst snd]. lia. }
  unfold lower_ij. intros Hq. apply in_app_or in Hq. destruct Hq as [Hq|Hq]; [apply in_app_or in Hq; destruct Hq as [Hq|Hq]|apply in_app_or in Hq; destruct Hq as [Hq|Hq]].
  - apply (TR (pb_nh p)); [intros e He; apply H5; left; exact He|exact Hq].
  - apply (TR (pb_snh p)); [intros e He; apply H5; right; exact He|exact Hq].
  - destruct (ShellProps.shell_hessian_pattern (pb_shell p) 0 (at_ (pb_pos p)) n 0 0 H6 H7) as (_ & _ & P). destruct (P q Hq) as (r & c & -> & L). cbn [fst snd]. lia.
  - destruct (is_static p); [destruct Hq|]. apply in_app_or in Hq. destruct Hq as [Hq|Hq]; [apply in_app_or in Hq; destruct Hq as [Hq|Hq]|].
    + apply (MR (nh_masses p)); [apply nh_cells, OK|exact Hq].
    + apply (MR (snh_masses p)); [apply snh_cells, OK|exact Hq].
    + apply (MR (shell_masses p)); [apply shell_cells, OK|exact Hq].
Qed.
Lemma zone_range z q : In z (pb_zones p) -> In q (vol_hessian_indices z) -> (fst q < 3 * length (pb_pos p))%nat /\ (snd q < 3 * length (pb_pos p))%nat.
Proof.
  intros Hz. assert (HT : tris_in_range (length (pb_pos p)) (topo z)) by (apply OK, Hz). set (n := length (pb_pos p)) in *. unfold vol_hessian_indices. intros Hq. apply in_flat_map in Hq. destruct Hq as (t & Ht & Hq).
  assert (IX : forall t i, In t (topo z) -> (tri_ix t i < n)%nat) by (intros t' i Ht'; destruct (HT t' Ht') as (A & B & C); destruct i as [|[|i]]; assumption).
  apply in_app_or in Hq. destruct Hq as [Hq|Hq].
  - apply in_map_iff in Hq. destruct Hq as ([[[vi off] c] r] & <- & Hi).
    assert (B : (c < 3)%nat /\ (r < 3)%nat) by (clear - Hi; cbv in Hi; repeat (destruct Hi as [Hi|Hi]; [injection Hi as <- <- <- <-; lia|]); destruct Hi).
    unfold vol_local_index. cbn [fst snd]. pose proof (IX t vi Ht). pose proof (IX t (Nat.modulo (vi + off) 3) Ht). cbv zeta. lia.
  - destruct (hessian_approximation z); [destruct Hq|]. apply in_flat_map in Hq. destruct Hq as (t' & Ht' & Hq). unfold vol_outer_indices in Hq. apply in_flat_map in Hq. destruct Hq as (vi & _ & Hq). apply in_flat_map in Hq. destruct Hq as (vj & _ & Hq). apply in_flat_map in Hq. destruct Hq as (i & Hi & Hq).
    apply in_map_iff in Hq. destruct Hq as (j & <- & Hj). apply in_seq in Hi. apply in_seq in Hj. pose proof (IX t vi Ht). pose proof (IX t' vj Ht'). cbn [fst snd]. lia.
Qed.
(** The diagonal. *)
Lemma diagonal_entry L k : diagonal_sum L k = matrix_entry L k k.
Proof.
  unfold diagonal_sum. induction L as [|[[r c] a] L IH]; [rewrite entry_nil; apply rsum_nil|]. cbn [map]. rewrite rsum_cons, IH, entry_cons. cbn [fst snd]. reflexivity.
Qed.
Lemma off_entry L k : matrix_entry (off_entries L) k k = 0.
Proof.
  unfold off_entries. induction L as [|[[r c] a] L IH]; [apply entry_nil|]. cbn [filter fst snd]. unfold off_diagonal at 1. cbn [fst snd]. destruct (Nat.eqb_spec r c) as [E|E]; cbn [negb map]; [exact IH|]. rewrite entry_cons, IH. cbn [mirror fst snd].
  destruct (Nat.eqb_spec c k), (Nat.eqb_spec r k); cbn [andb]; try ring. congruence.
Qed.
Lemma mesh_diagonal_length M ss sc h x v : forall l, length (add_mesh_diagonal M ss sc h x v l) = length l.
Proof. unfold add_mesh_diagonal. induction ss as [|s ss IH]; intros l; [reflexivity|]. cbn [fold_left]. rewrite IH. apply tet_diagonal_length. Qed.
Lemma shell_diagonal_length S sc x l : length (add_shell_hessian_diagonal S sc x l) = length l.
Proof.
  unfold add_shell_hessian_diagonal, scatter_guarded. match goal with |- length (fold_left _ ?ps _) = _ => generalize ps end. intros ps. revert l. induction ps as [|q ps IH]; intros l; [reflexivity|]. cbn [fold_left]. rewrite IH. apply add_if_present_length.
Qed.
Lemma unstack_zeros k : unstack (repeat 0 (3 * k)) = repeat v3_0 k.
Proof. induction k as [|k IH]; [reflexivity|]. replace (3 * Datatypes.S k)%nat with (Datatypes.S (Datatypes.S (Datatypes.S (3 * k)))) by lia. cbn [repeat unstack]. rewrite IH. reflexivity. Qed.
Lemma coords_stacked l k : nth k (stack l) 0 = v3_get (nth (k / 3) l v3_0) (k mod 3).
Proof. apply nth_stack. Qed.
Lemma diagonal_ok : exists d, jacobian_diagonal p (repeat 0 (3 * length (pb_pos p))) = Some d /\ length d = (3 * length (pb_pos p))%nat /\
  forall k, (k < 3 * length (pb_pos p))%nat -> nth k d 0 = matrix_entry (lower_entries p) k k.
Proof.
  destruct OK as (H1 & H2 & H3 & H4 & H5 & H6 & H7 & H8 & H9 & H10). unfold jacobian_diagonal. rewrite unstack_zeros. set (n := length (pb_pos p)) in *. set (x := at_ (pb_pos p)). set (v := at_ (pb_vel p)). set (h := dqdv p). cbv zeta.
  set (l1 := add_mesh_diagonal neo_hookean _ _ _ _ _ _). set (l2 := add_mesh_diagonal stable_neo_hookean _ _ _ _ _ _). set (l3 := add_shell_hessian_diagonal _ _ _ _).
  assert (L1 : length l1 = n) by (unfold l1; rewrite mesh_diagonal_length; apply repeat_length). assert (L2 : length l2 = n) by (unfold l2; rewrite mesh_diagonal_length; exact L1). assert (L3 : length l3 = n) by (unfold l3; rewrite shell_diagonal_length; exact L2).
  assert (T1 : forall s, In s (nh_tets p) -> distinct_vertices s) by (intros s Hs; apply in_map_iff in Hs; destruct Hs as (e & <- & He); apply (H5 e); left; exact He).
  assert (T2 : forall s, In s (snh_tets p) -> distinct_vertices s) by (intros s Hs; apply in_map_iff in Hs; destruct Hs as (e & <- & He); apply (H5 e); right; exact He).
  set (E1 := combine (hessian_indices (nh_tets p) 0 0) (hessian_values neo_hookean (nh_tets p) (h * h * 1) h x v)). set (E2 := combine (hessian_indices (snh_tets p) 0 0) (hessian_values stable_neo_hookean (snh_tets p) (h * h * 1) h x v)).
  set (E3 := combine (shell_hessian_indices (pb_shell p) 0 0) (shell_hessian_values (pb_shell p) (h * h * 1) x)).
  assert (D : forall k, (k < 3 * n)%nat -> nth k (stack l3) 0 = matrix_entry E1 k k + matrix_entry E2 k k + matrix_entry E3 k k).
  { intros k K. rewrite coords_stacked. assert (K3 : (k / 3 < n)%nat) by (apply Nat.div_lt_upper_bound; lia). assert (KM : (k mod 3 < 3)%nat) by (apply Nat.mod_upper_bound; lia). assert (KE : (3 * (k / 3) + k mod 3 = k)%nat) by (symmetry; apply Nat.div_mod; lia).
    unfold l3. rewrite ShellProps.shell_diagonal_matches by (try assumption; rewrite L2; exact K3). unfold l2. rewrite mesh_diagonal by (try assumption; rewrite L1; exact K3). unfold l1. rewrite mesh_diagonal by (try assumption; rewrite repeat_length; exact K3).
    rewrite KE, !diagonal_entry. fold E1 E2 E3. rewrite nth_repeat. unfold v3_0, v3_get. destruct (k mod 3) as [|[|j]]; cbn [vx vy vz]; ring. }
  destruct part_lengths as (A1 & A2 & A3 & A4 & A5 & A6). destruct (value_lengths (h * h * 1) h x v) as (B1 & B2 & B3 & B4 & B5 & B6).
  assert (LE : forall k, matrix_entry (lower_entries p) k k = matrix_entry E1 k k + matrix_entry E2 k k + matrix_entry E3 k k + if is_static p then 0 else
    diagonal_sum (combine (inertia_indices (nh_masses p) 0 0) (inertia_values (1 / 4) (nh_masses p) 1)) k + diagonal_sum (combine (inertia_indices (snh_masses p) 0 0) (inertia_values (1 / 4) (snh_masses p) 1)) k
    + diagonal_sum (combine (inertia_indices (shell_masses p) 0 0) (inertia_values (1 / 3) (shell_masses p) 1)) k).
  { intros k. unfold lower_entries, lower_ij, lower_vals. cbv zeta. fold x v h. rewrite !combine_app_eq by (rewrite ?app_length; lia). fold E1 E2 E3. rewrite !entry_app. destruct (is_static p).
    - cbn [combine]. rewrite entry_nil. ring.
    - rewrite !combine_app_eq by (rewrite ?app_length; lia). rewrite !entry_app, !diagonal_entry. ring. }
  assert (CR : forall es, cells_in_range n es -> forall e c, In e es -> In c (cell e) -> (c < n)%nat \/ (3 * n <= c)%nat) by (intros es H e c He Hc; left; exact (H e c He Hc)).
  destruct (is_static p).
  - exists (stack l3). split; [reflexivity|]. split; [rewrite stack_length, L3; reflexivity|]. intros k K. rewrite (D k K), LE. ring.
  - assert (LS : length (stack l3) = (3 * n)%nat) by (rewrite stack_length, L3; reflexivity).
    destruct (solid_diagonal_at (1 / 4) (nh_masses p) 1 n 0 (CR _ (nh_cells p OK)) (stack l3) LS) as (d1 & F1 & M1 & _). rewrite F1. cbn [bind].
    destruct (solid_diagonal_at (1 / 4) (snh_masses p) 1 n 0 (CR _ (snh_cells p OK)) d1 M1) as (d2 & F2 & M2 & _). rewrite F2. cbn [bind].
    destruct (MassProofs.shell_diagonal_at (1 / 3) (shell_masses p) 1 n 0 (shell_cells p OK) d2 M2) as (d3 & F3 & M3 & _). exists d3. split; [exact F3|]. split; [exact M3|]. intros k K.
    destruct (solid_diagonal_at (1 / 4) (nh_masses p) 1 n k (CR _ (nh_cells p OK)) (stack l3) LS) as (d1' & F1' & _ & N1). rewrite F1 in F1'. injection F1' as <-.
    destruct (solid_diagonal_at (1 / 4) (snh_masses p) 1 n k (CR _ (snh_cells p OK)) d1 M1) as (d2' & F2' & _ & N2). rewrite F2 in F2'. injection F2' as <-.
    destruct (MassProofs.shell_diagonal_at (1 / 3) (shell_masses p) 1 n k (shell_cells p OK) d2 M2) as (d3' & F3' & _ & N3). rewrite F3 in F3'. injection F3' as <-.
    rewrite N3, (N2 K), (N1 K), (D k K), LE. ring.
Qed.
Lemma without_constraints : exists ij vals, jacobian_indices p false = Some ij /\ jacobian_values p false ij = Some vals /\ length vals = length ij /\ combine ij vals = lower_entries p ++ off_entries (lower_entries p) /\
  ij = lower_ij p ++ mirrored_ij.
Proof.
  exists (lower_ij p ++ mirrored_ij), (lower_vals p ++ mirrored_vals). unfold jacobian_indices, jacobian_nnz. cbv zeta. cbn [bind]. change (2 * _ - _ + _ + _)%nat with fem_room. unfold compute_jacobian_indices. rewrite fem_indices_ok by apply le_n. cbn [bind].
  split; [reflexivity|]. split; [|split; [rewrite !app_length, lower_lengths, mirrored_lengths; reflexivity|split; [exact fem_entries|reflexivity]]].
  destruct (fem_values_ok []) as [F1 F2]. rewrite app_nil_r in F1, F2. unfold jacobian_values. cbv zeta in *. rewrite F1. cbn [bind]. rewrite F2. reflexivity.
Qed.
End Lengths.
(** * With constraints *)
Section Matrix.
Variables (p0 : problem) (V : list v3) (rb : bool).
Let p := updated p0 V rb.
Let n := length (pb_pos p0).
Let m := pb_active p0.
Let h := dqdv p0.
Hypothesis OK : problem_ok p0.
Hypothesis LV : length V = pb_active p0.
Let up := upd (next_pos p0 V) rb.
Let centries cg := contact_entries m (up cg).
Lemma contacts_ok cg : In cg (pb_contacts p0) ->
  constraint_hessian_indices (fst cg) (snd cg) m = Some (map fst (centries cg)) /\ constraint_hessian_indices (fst (up cg)) (snd (up cg)) m = Some (map fst (centries cg)) /\
  contact_values p (up cg) = Some (map (fun e => - dqdv p * dqdv p * 1 * snd e) (centries cg)) /\
  (forall e, In e (centries cg) -> (fst (fst e) < 3 * m)%nat /\ (snd (fst e) < 3 * m)%nat) /\
  (exists r, contact_room m cg = Some r /\ contact_room m (up cg) = Some r /\ (length (centries cg) <= r)%nat) /\
  (contact_regular (fst (up cg)) -> (forall v, In v (ct_surface (fst (up cg))) -> ~ In v (ct_collider (fst (up cg)))) ->
      (forall i j, matrix_entry (centries cg) i j = matrix_entry (centries cg) j i) /\
      (forall U, (forall v, (m <= v)%nat -> U v = v3_0) -> matrix_form (3 * m) (centries cg) (coordinate U) = - contact_curve (fst (up cg)) U)).
Proof.
  intros Hc. destruct (update_ok p0 V rb OK LV) as (_ & _ & UC & _). pose proof (UC cg Hc) as U. fold up in U. assert (LX : length (next_pos p0 V) = n) by (apply next_pos_length, OK).
  assert (RD : contact_ready (length (next_pos p0 V)) m cg) by (rewrite LX; apply OK, Hc). unfold centries, contact_entries. destruct cg as [c0 g0]. destruct (up (c0, g0)) as [c g]. cbn [fst snd].
  destruct (contact_matrix c0 g0 (next_pos p0 V) rb c g m RD U) as (dist & lambda & vals & E1 & E2 & E3 & E4 & E5 & E6 & E7). rewrite E1, E2, E3.
  split; [exact E4|]. split; [exact E5|]. split; [unfold contact_values; cbn [fst snd]; rewrite E1, E2; change (pb_active p) with m; rewrite E3; reflexivity|]. split; [exact E6|]. split; [|exact E7].
  destruct RD as (SH & PL & EG & FX). unfold update_contact in U. cbn [fst snd] in U. destruct (update_state c0 (next_pos p0 V) rb) as [c1|] eqn:EU; [|discriminate].
  destruct (ContactHessProps.contact_hessian_layout c0 (next_pos p0 V) rb c1 m g0 SH PL EG EU) as (g' & dist' & lambda' & vals' & _ & _ & _ & _ & E5' & _ & _ & S1 & d & S2 & _ & S3).
  assert (LL : length vals' = length vals) by (rewrite E4 in E5'; injection E5' as E5'; apply (f_equal (@length _)) in E5'; rewrite !map_length in E5'; symmetry; exact E5').
  exists (2 * length vals - d)%nat. rewrite LL in S1, S3. unfold contact_room. cbn [fst snd]. rewrite S1, S2. split; [reflexivity|]. split; [|exact S3].
  unfold constraint_hessian_size, num_hessian_diagonal in *. rewrite E4 in S1, S2. rewrite E5. rewrite S1, S2. reflexivity.
Qed.
Definition all_ij : list (nat * nat) := (lower_ij p ++ mirrored_ij p) ++ flat_map vol_hessian_indices (pb_zones p0) ++ flat_map (fun cg => map fst (centries cg)) (pb_contacts p0).
Definition zone_values (z : zone) : list R := map (fun a => a * (h * h * 1)) (vol_hessian_values z (at_ (pb_pos p)) 1).
Definition all_vals : list R := (lower_vals p ++ mirrored_vals p) ++ flat_map zone_values (pb_zones p0) ++ flat_map (fun cg => map (fun e => - h * h * 1 * snd e) (centries cg)) (pb_contacts p0).
Let OKp : problem_ok p := proj1 (proj2 (update_ok p0 V rb OK LV)).
Lemma room_of cg : In cg (pb_contacts p0) -> contact_room m cg = Some (match contact_room m cg with Some r => r | None => 0%nat end) /\ contact_room m (up cg) = contact_room m cg /\ (length (centries cg) <= match contact_room m cg with Some r => r | None => 0%nat end)%nat.
Proof. intros Hc. destruct (contacts_ok cg Hc) as (_ & _ & _ & _ & (r & E1 & E2 & L) & _). rewrite E1, E2. auto. Qed.
Lemma nnz_ok : exists room, jacobian_nnz p0 true = Some room /\ jacobian_nnz p true = Some room /\ (fem_room p + length (flat_map vol_hessian_indices (pb_zones p0)) + length (flat_map (fun cg => map fst (centries cg)) (pb_contacts p0)) <= room)%nat.
Proof.
  set (rm := fun cg => match contact_room m cg with Some r => r | None => 0%nat end). exists (fem_room p + list_sum (map vol_hessian_size (pb_zones p0)) + list_sum (map rm (pb_contacts p0)))%nat. unfold jacobian_nnz. cbv zeta.
  change (pb_active p) with m. change (pb_contacts p) with (map up (pb_contacts p0)). change (pb_active p0) with m. rewrite map_map.
  rewrite (all_some_ok (contact_room m) rm) by (intros cg Hc; apply (room_of cg Hc)). rewrite (all_some_ok (fun cg => contact_room m (up cg)) rm) by (intros cg Hc; rewrite (proj1 (proj2 (room_of cg Hc))); apply (room_of cg Hc)).
  cbn [option_map]. split; [reflexivity|]. split; [reflexivity|]. rewrite !flat_length.
  assert (Z : list_sum (map (fun a => length (vol_hessian_indices a)) (pb_zones p0)) = list_sum (map vol_hessian_size (pb_zones p0))) by (f_equal; apply map_ext; intros z; apply (VolumeProofs.hessian_lengths z (fun _ => v3_0) 0)). rewrite Z.
  pose proof (list_sum_le (fun cg => length (map fst (centries cg))) rm (pb_contacts p0)) as Q. assert (QL : forall a, In a (pb_contacts p0) -> (length (map fst (centries a)) <= rm a)%nat) by (intros cg Hc; rewrite map_length; apply (room_of cg Hc)). specialize (Q QL). lia.
Qed.
Lemma indices_of room : (fem_room p + length (flat_map vol_hessian_indices (pb_zones p0)) + length (flat_map (fun cg => map fst (centries cg)) (pb_contacts p0)) <= room)%nat ->
  compute_jacobian_indices p0 true room = Some all_ij /\ compute_jacobian_indices p true room = Some all_ij.
Proof.
  intros L. assert (F : (length (lower_ij p ++ mirrored_ij p) <= fem_room p)%nat) by (unfold mirrored_ij; rewrite app_length, map_length; apply fem_fits, OKp).
  assert (G : forall q, problem_ok q -> lower_ij q = lower_ij p -> fem_room q = fem_room p -> pb_zones q = pb_zones p0 -> NeighborModel.all_some (map (fun c => constraint_hessian_indices (fst c) (snd c) (pb_active q)) (pb_contacts q)) = Some (map (fun cg => map fst (centries cg)) (pb_contacts p0)) ->
    compute_jacobian_indices q true room = Some all_ij).
  { intros q Hq E1 E2 E3 E4. unfold compute_jacobian_indices. rewrite fem_indices_ok by (try assumption; lia). unfold mirrored_ij. rewrite E1. fold (mirrored_ij p). cbn [bind]. rewrite E3, E4.
    rewrite fill_all_enough by (rewrite <- flat_map_concat_map; lia). cbn [bind option_map]. rewrite <- flat_map_concat_map. f_equal. rewrite zip_all_enough by (rewrite <- flat_map_concat_map, app_length; lia). rewrite <- flat_map_concat_map. unfold all_ij. rewrite <- app_assoc. reflexivity. }
  split; (apply G; [assumption|reflexivity|reflexivity|reflexivity|]).
  - apply all_some_ok. intros cg Hc. apply (contacts_ok cg Hc).
  - change (pb_contacts p) with (map up (pb_contacts p0)). rewrite map_map. apply all_some_ok. intros cg Hc. apply (contacts_ok cg Hc).
Qed.
Lemma zone_values_length z : length (vol_hessian_indices z) = length (zone_values z).
Proof. unfold zone_values. rewrite map_length. destruct (VolumeProofs.hessian_lengths z (at_ (pb_pos p)) 1) as [-> ->]. reflexivity. Qed.
Lemma all_lengths : length all_ij = length all_vals.
Proof.
  unfold all_ij, all_vals. rewrite !app_length, (lower_lengths p OKp), (mirrored_lengths p OKp). destruct (combine_flat vol_hessian_indices zone_values (pb_zones p0) (fun z _ => zone_values_length z)) as [_ ->].
  destruct (combine_flat (fun cg => map fst (centries cg)) (fun cg => map (fun e => - h * h * 1 * snd e) (centries cg)) (pb_contacts p0)) as [_ ->]; [intros cg _; rewrite !map_length; reflexivity|reflexivity].
Qed.
Lemma values_with extra : jacobian_values p true (all_ij ++ extra) = Some all_vals.
Proof.
  destruct (fem_values_ok p OKp ((flat_map vol_hessian_indices (pb_zones p0) ++ flat_map (fun cg => map fst (centries cg)) (pb_contacts p0)) ++ extra)) as [F1 F2]. rewrite (app_assoc (lower_ij p ++ mirrored_ij p)) in F1, F2. fold all_ij in F1, F2. unfold jacobian_values. cbv zeta in *. rewrite F1. cbn [bind]. rewrite F2.
  change (dqdv p) with h. change (pb_zones p) with (pb_zones p0). pose proof all_lengths as L. unfold all_vals in L. rewrite !app_length in L. assert (LE : (length all_ij <= length (all_ij ++ extra))%nat) by (rewrite app_length; lia). revert LE. generalize (length (all_ij ++ extra)). intros room LE.
  rewrite (fill_all_enough room); [|rewrite <- flat_map_concat_map; fold zone_values; change (fun z => map (fun a => a * (h * h * 1)) (vol_hessian_values z (at_ (pb_pos p)) 1)) with zone_values; rewrite app_length; lia].
  cbn [bind]. change (pb_contacts p) with (map up (pb_contacts p0)). rewrite map_map. rewrite (all_some_ok (fun c => contact_values p (up c)) (fun cg => map (fun e => - h * h * 1 * snd e) (centries cg))) by (intros cg Hc; apply (contacts_ok cg Hc)). cbn [option_map]. f_equal.
  rewrite <- flat_map_concat_map. change (fun z => map (fun a => a * (h * h * 1)) (vol_hessian_values z (at_ (pb_pos p)) 1)) with zone_values.
  rewrite zip_all_enough by (rewrite <- flat_map_concat_map, !app_length; lia). rewrite <- flat_map_concat_map. unfold all_vals. rewrite <- app_assoc. reflexivity.
Qed.
Lemma values_of : jacobian_values p true all_ij = Some all_vals.
Proof. pose proof (values_with []) as E. rewrite app_nil_r in E. exact E. Qed.
Lemma all_entries : combine all_ij all_vals = (lower_entries p ++ off_entries (lower_entries p)) ++ flat_map (fun z => scaled_entries (h * h) (zone_entries p z)) (pb_zones p0) ++ flat_map (fun cg => scaled_entries (- (h * h)) (centries cg)) (pb_contacts p0).
Proof.
  unfold all_ij, all_vals. rewrite combine_app_eq by (rewrite !app_length, (lower_lengths p OKp), (mirrored_lengths p OKp); reflexivity). rewrite (fem_entries p OKp). f_equal.
  destruct (combine_flat vol_hessian_indices zone_values (pb_zones p0) (fun z _ => zone_values_length z)) as [E1 L1]. rewrite combine_app_eq by exact L1. rewrite E1.
  destruct (combine_flat (fun cg => map fst (centries cg)) (fun cg => map (fun e => - h * h * 1 * snd e) (centries cg)) (pb_contacts p0)) as [-> _]; [intros cg _; rewrite !map_length; reflexivity|]. f_equal.
  - apply flat_map_ext. intros z. unfold zone_values, zone_entries, scaled_entries. generalize (vol_hessian_values z (at_ (pb_pos p)) 1). generalize (vol_hessian_indices z). intros l. induction l as [|a l IH]; intros [|b r]; try reflexivity. cbn [map combine fst snd]. rewrite IH. f_equal. f_equal. ring.
  - apply flat_map_ext. intros cg. unfold scaled_entries. induction (centries cg) as [|e l IH]; [reflexivity|]. cbn [map combine]. rewrite IH. f_equal. f_equal. ring.
Qed.
Lemma all_range q : In q all_ij -> (fst q < 3 * n)%nat /\ (snd q < 3 * n)%nat.
Proof.
  assert (LP : length (pb_pos p) = n) by (apply next_pos_length, OK). assert (LM : (m <= n)%nat) by apply OK. unfold all_ij. intros Hq. apply in_app_or in Hq. destruct Hq as [Hq|Hq]; [apply in_app_or in Hq; destruct Hq as [Hq|Hq]|apply in_app_or in Hq; destruct Hq as [Hq|Hq]].
  - rewrite <- LP. apply (lower_range p OKp q Hq).
  - unfold mirrored_ij in Hq. apply in_map_iff in Hq. destruct Hq as (q' & <- & Hq). apply filter_In in Hq. destruct (lower_range p OKp q' (proj1 Hq)). rewrite LP in *. cbn [fst snd]. split; assumption.
  - apply in_flat_map in Hq. destruct Hq as (z & Hz & Hq). rewrite <- LP. exact (zone_range p OKp z q Hz Hq).
  - apply in_flat_map in Hq. destruct Hq as (cg & Hc & Hq). apply in_map_iff in Hq. destruct Hq as (e & <- & He). destruct (contacts_ok cg Hc) as (_ & _ & _ & RG & _). destruct (RG e He). lia.
Qed.
(** Symmetry and quadratic form. *)
Hypothesis ZE : zones_exact p0.
Hypothesis CA : contacts_apart p0.
Hypothesis RG : regular_state p.
Lemma apart cg : In cg (pb_contacts p0) -> contact_regular (fst (up cg)) /\ forall v, In v (ct_surface (fst (up cg))) -> ~ In v (ct_collider (fst (up cg))).
Proof.
  intros Hc. split; [apply RG, in_map, Hc|]. assert (LX : length (next_pos p0 V) = n) by (apply next_pos_length, OK). assert (RD : contact_ready n m cg) by (apply OK, Hc).
  destruct (contact_updates cg _ _ _ rb RD LX) as (c' & g' & E & _ & _ & _ & _ & SS). unfold up, upd. rewrite E. cbn [fst]. destruct SS as (_ & _ & _ & _ & _ & _ & _ & _ & E1 & E2 & _). rewrite E1, E2. apply CA, Hc.
Qed.
Lemma entries_symmetric i j : matrix_entry (combine all_ij all_vals) i j = matrix_entry (combine all_ij all_vals) j i.
Proof.
  rewrite all_entries, !(entry_app (lower_entries p ++ off_entries (lower_entries p))), (mirrored_entries (lower_entries p) i j). f_equal. rewrite !entry_app, !entry_flat. f_equal; apply rsum_ext.
  - intros z Hz. unfold scaled_entries. rewrite !entry_scale, !entry_form. f_equal. destruct (unit_coords i) as [U HU]. destruct (unit_coords j) as [U' HU']. rewrite (sparse_ext _ _ _ _ _ HU HU'), (sparse_ext _ _ _ _ _ HU' HU).
    unfold zone_entries. rewrite !VolumeProofs.hessian_form by exact (ZE z Hz). rewrite (bil_sym z _ U U'). unfold Rdiv. ring.
  - intros cg Hc. unfold scaled_entries. rewrite !entry_scale. f_equal. destruct (apart cg Hc) as [A B]. destruct (contacts_ok cg Hc) as (_ & _ & _ & _ & _ & Q). apply (Q A B).
Qed.
Variable W : nat -> v3.
Let w := cut_at m W.
Let hw : nat -> v3 := fun i => v3_scale h (w i).
Lemma form_of : matrix_form (3 * m) (combine all_ij all_vals) (coordinate W) = objective_curve p W.
Proof.
  rewrite (matrix_form_ext _ _ (coordinate W) (coords w)) by (intros k K; symmetry; apply coords_cut, K). assert (Zw : forall i, (m <= i)%nat -> w i = v3_0) by apply cut_zero. assert (Zhw : forall i, (m <= i)%nat -> hw i = v3_0) by (intros i L; unfold hw; rewrite Zw by exact L; apply scale_zero).
  rewrite matrix_form_sparse by (apply coords_zero, Zw). rewrite all_entries, (VolumeProofs.sparse_form_app (lower_entries p ++ off_entries (lower_entries p))), mirrored_form, VolumeProofs.sparse_form_app, !VolumeProofs.sparse_form_flat.
  unfold objective_curve, energy_curve. change (pb_active p) with m. change (dqdv p) with h. fold w. change (fun i => v3_scale h (w i)) with hw. change (pb_zones p) with (pb_zones p0). change (pb_contacts p) with (map up (pb_contacts p0)). rewrite map_map.
  assert (EZ : rsum (map (fun z => sparse_form (scaled_entries (h * h) (zone_entries p z)) (coords w) (coords w)) (pb_zones p0)) = rsum (map (fun z => zone_curve (at_ (pb_pos p)) z hw) (pb_zones p0))).
  { apply rsum_ext. intros z Hz. unfold scaled_entries. rewrite sparse_scale, <- sparse_form_scaled. fold hw. unfold zone_entries. rewrite VolumeProofs.hessian_form by exact (ZE z Hz). unfold zone_curve. ring. }
  assert (EC : rsum (map (fun cg => sparse_form (scaled_entries (- (h * h)) (centries cg)) (coords w) (coords w)) (pb_contacts p0)) = rsum (map (fun cg => contact_curve (fst (up cg)) hw) (pb_contacts p0))).
  { apply rsum_ext. intros cg Hc. unfold scaled_entries. rewrite sparse_scale. replace (- (h * h) * _) with (- (h * h * sparse_form (centries cg) (coords w) (coords w))) by ring. rewrite <- sparse_form_scaled. fold hw.
    destruct (apart cg Hc) as [A B]. destruct (contacts_ok cg Hc) as (_ & _ & _ & _ & _ & Q). destruct (Q A B) as [_ F]. specialize (F hw Zhw). rewrite (matrix_form_ext _ _ (coordinate hw) (coords hw)) in F by (intros k _; apply coordinate_coords). rewrite matrix_form_sparse in F by (apply coords_zero, Zhw). rewrite F. ring. }
  rewrite EZ, EC. destruct OKp as (H1 & H2 & H3 & H4 & H5 & H6 & H7 & _). destruct (part_lengths p OKp) as (A1 & A2 & A3 & A4 & A5 & A6). destruct (value_lengths p OKp (h * h * 1) h (at_ (pb_pos p)) (at_ (pb_vel p))) as (B1 & B2 & B3 & B4 & B5 & B6).
  assert (T1 : forall s, In s (nh_tets p) -> distinct_vertices s) by (intros s Hs; apply in_map_iff in Hs; destruct Hs as (e & <- & He); apply (H5 e); left; exact He).
  assert (T2 : forall s, In s (snh_tets p) -> distinct_vertices s) by (intros s Hs; apply in_map_iff in Hs; destruct Hs as (e & <- & He); apply (H5 e); right; exact He).
  assert (EL : lower_form (lower_entries p) (coords w) (coords w) = h * h * (mesh_curve neo_hookean (nh_tets p) h (at_ (pb_pos p)) (at_ (pb_vel p)) w w + mesh_curve stable_neo_hookean (snh_tets p) h (at_ (pb_pos p)) (at_ (pb_vel p)) w w + shell_curve (pb_shell p) (at_ (pb_pos p)) w w)
    + if is_static p then 0 else lower_form (inertia_matrix p) (coords w) (coords w)).
  { unfold lower_entries, lower_ij, lower_vals. cbv zeta. change (dqdv p) with h. rewrite !combine_app_eq by (rewrite ?app_length; lia). rewrite !lower_app. rewrite (mesh_form_tets neo_hookean _ _ _ _ _ _ _ nh_block T1), (mesh_form_tets stable_neo_hookean _ _ _ _ _ _ _ snh_block T2).
    rewrite shell_form; [|exact H7|intros t Ht; apply ShellProofs.proper_gram; destruct RG as (_ & _ & [SM _] & _); exact (SM t Ht)]. unfold mesh_curve, shell_curve, inertia_matrix. destruct (is_static p).
    - unfold ElasticSpec.lower_form. cbn [combine map]. rewrite rsum_nil. ring.
    - rewrite !combine_app_eq by (rewrite ?app_length; lia). rewrite !lower_app. ring. }
  rewrite EL. ring.
Qed.
End Matrix.
