(** C35-C38, C76-C78: state history, prescribed vertices, vertex order, types and lumped quantities. *)
From Coq Require Import Reals List Arith Bool Permutation Sorted Lra Lia.
From Verif Require Import RList StateModel StateSpec StateProofs.
Import ListNotations.
Local Open Scope R_scope.

(** C35. After any history of commits, one more commit makes the current state the previous one and the committed one the current one. *)
Theorem advance_shifts_history (upd : dof -> R -> R) (vs : list (list R)) (v : list R) (s : state) (i : nat) (d : dof) (w : R) :
  length v = length (dofs s) -> nth_error (dofs (commits upd vs s)) i = Some d -> nth_error v i = Some w ->
  exists d', nth_error (dofs (commits upd (vs ++ [v]) s)) i = Some d' /\
    d_prev_q d' = d_cur_q d /\ d_prev_dq d' = d_cur_dq d /\ d_cur_q d' = upd d w /\ d_cur_dq d' = w.
Proof.
  intros Hl Hd Hw. exists (Dof (d_cur_q d) (d_cur_dq d) (upd d w) w (upd d w)). rewrite commits_app, problem_advance_dofs.
  split; [apply advance_integrate_nth; [rewrite commits_length; exact Hl|exact Hd|exact Hw]|]. repeat split; reflexivity.
Qed.
Print Assumptions advance_shifts_history.
(** The vertices driven by degrees of freedom carry the committed state; all other vertices stay as they were before the first commit. *)
Theorem advance_updates_vertices (upd : dof -> R -> R) (vs : list (list R)) (v : list R) (s : state) :
  (forall u, In u (vs ++ [v]) -> length u = length (dofs s)) -> (length (dofs s) <= length (next_pos s))%nat -> (length (dofs s) <= length (next_vel s))%nat ->
  next_pos (commits upd (vs ++ [v]) s) = map d_cur_q (dofs (commits upd (vs ++ [v]) s)) ++ skipn (length (dofs s)) (next_pos s) /\
  next_vel (commits upd (vs ++ [v]) s) = v ++ skipn (length (dofs s)) (next_vel s).
Proof.
  intros Hv Hp Hq. destruct (commits_plen upd vs s) as [P1 P2].
  destruct (commits_rest upd vs s) as [R1 R2]; [intros u Hu; apply Hv, in_or_app; left; exact Hu|exact Hp|exact Hq|].
  assert (Lv : length v = length (dofs s)) by (apply Hv, in_or_app; right; left; reflexivity).
  rewrite commits_app. rewrite problem_advance_pos, problem_advance_vel by (rewrite commits_length; lia). rewrite commits_length, R1, R2. split; reflexivity.
Qed.
Print Assumptions advance_updates_vertices.
Example advance_nonvacuous : let s := State [Dof 0 0 0 1 0] [0; 7] [1; 9] in
  commits (fun d v => d_cur_q d + v) ([[2]] ++ [[3]]) s = State [Dof 2 2 5 3 5] [5; 7] [3; 9].
Proof. cbv [commits app fold_left problem_advance state_advance update_vertices integrate advance_dofs overwrite map combine fst snd dofs next_pos next_vel d_cur_q d_cur_dq d_prev_q d_prev_dq d_next_q]. repeat f_equal; ring. Qed.

(** C36. A fixed vertex for which a new position is given ends there, its velocity accounts for the displacement, its previous position and
    velocity are those of the step before, the copies used for differentiation agree, and vertices of any other type are untouched. *)
Theorem fixed_vertices_follow_partial (new : list R) (dt : R) (types : list vtype) (order : list nat) (xs : list vertex) (i o : nat) (t : vtype) (x : vertex) :
  0 < dt -> nth_error types i = Some t -> nth_error order i = Some o -> nth_error xs i = Some x ->
  exists y, nth_error (update_fixed_vertices new dt types order xs) i = Some y /\ (t <> Fixed -> y = x) /\
    (t = Fixed -> cur_p y = next_p x /\ cur_p x + dt * cur_v y = next_p x /\
       forall p, nth_error new o = Some p -> next_p y = p /\ cur_p y + dt * next_v y = p /\ ad_p y = next_p y /\ ad_v y = next_v y).
Proof.
  intros Hdt Ht Ho Hx. exists (update_fixed_vertex new dt t o x). split; [exact (update_fixed_nth new dt types order xs i t o x Ht Ho Hx)|]. split.
  - destruct t; intros H; [reflexivity|reflexivity|elim H; reflexivity|reflexivity].
  - intros ->. unfold update_fixed_vertex. cbv zeta. destruct (nth_error new o) as [p|]; cbn.
    + split; [reflexivity|]. split; [field; lra|]. intros p' E. injection E as <-. split; [reflexivity|]. split; [field; lra|]. split; reflexivity.
    + split; [reflexivity|]. split; [field; lra|]. intros p E. discriminate E.
Qed.
Print Assumptions fixed_vertices_follow_partial.
Example fixed_vertices_nonvacuous : update_fixed_vertices [10; 3] (1 / 2) [Free; Fixed] [1%nat; 0%nat] [Vertex 0 0 1 1 0 0; Vertex 2 0 4 9 0 0]
  = [Vertex 0 0 1 1 0 0; Vertex 4 ((4 - 2) * (1 / (1 / 2))) 10 ((10 - 4) * (1 / (1 / 2))) 10 ((10 - 4) * (1 / (1 / 2)))].
Proof. reflexivity. Qed.
(** Finding: when the supplied array is too short a fixed vertex stays in place but keeps the velocity of its last displacement. *)
Theorem fixed_vertices_stale_velocity_refuted : exists (new : list R) (dt : R) (x y : vertex), 0 < dt /\
  update_fixed_vertices new dt [Fixed] [0%nat] [x] = [y] /\ next_p y = cur_p y /\ next_v y <> 0.
Proof. exists [], 1, (Vertex 0 0 1 1 1 1), (Vertex 1 ((1 - 0) * (1 / 1)) 1 1 1 1). split; [lra|]. split; [reflexivity|]. split; [reflexivity|]. cbn. lra. Qed.
Print Assumptions fixed_vertices_stale_velocity_refuted.

(** C37. The internal order lists every vertex once, by type; data arranged in it is read back at the user's index, whatever it is;
    and the table from user to internal indices inverts the order. *)
Theorem internal_order_sorts (types : list vtype) : sorts types (orig_index types).
Proof. exact (orig_index_sorts types). Qed.
Print Assumptions internal_order_sorts.
Theorem positions_in_user_order {A} (zero : A) (types : list vtype) (user : list A) : length user = length types ->
  vertex_positions zero (orig_index types) (map (fun i => nth i user zero) (orig_index types)) = Some user.
Proof. intros H. apply round_trip. rewrite H. exact (proj1 (orig_index_sorts types)). Qed.
Print Assumptions positions_in_user_order.
(** The same for the simulated positions, which are not a rearrangement of any user data. *)
Theorem positions_at_user_index {A} (zero : A) (types : list vtype) (pos : list A) : length pos = length types ->
  exists out, vertex_positions zero (orig_index types) pos = Some out /\ length out = length types /\
    forall j i x, nth_error (orig_index types) j = Some i -> nth_error pos j = Some x -> nth_error out i = Some x.
Proof.
  intros H. unfold vertex_positions. apply write_back_spec; [exact zero|exact (proj1 (orig_index_sorts types))|exact H|rewrite repeat_length; exact H].
Qed.
Print Assumptions positions_at_user_index.
Theorem state_indices_invert_order (types : list vtype) : exists inv, state_vertex_indices (orig_index types) = Some inv /\ length inv = length types /\
  forall j i, nth_error (orig_index types) j = Some i -> nth_error inv i = Some (Some j).
Proof. exact (inverse_indices _ _ (proj1 (orig_index_sorts types))). Qed.
Print Assumptions state_indices_invert_order.
Example user_order_nonvacuous : orig_index [Ignored; Free; Fixed; Free; Rigid] = [1; 3; 4; 2; 0]%nat /\
  vertex_positions 0%nat (orig_index [Ignored; Free; Fixed; Free; Rigid]) [11; 13; 14; 12; 10]%nat = Some [10; 11; 12; 13; 14]%nat /\
  state_vertex_indices (orig_index [Ignored; Free; Fixed; Free; Rigid]) = Some [Some 4; Some 0; Some 3; Some 1; Some 2]%nat.
Proof. split; [reflexivity|]. split; reflexivity. Qed.
(** Finding: a mesh that already carries the source index attribute keeps it unchecked (objects.rs:26-42).  A repeated index loses a vertex
    silently and an index that is out of range panics. *)
Theorem supplied_source_index_loses_vertex_refuted :
  (exists out, vertex_positions 0%nat [0; 0]%nat [5; 6]%nat = Some out /\ ~ In 5%nat out) /\ vertex_positions 0%nat [0; 2]%nat [5; 6]%nat = None.
Proof. split; [|reflexivity]. exists [6; 0]%nat. split; [reflexivity|]. simpl. lia. Qed.
Print Assumptions supplied_source_index_loses_vertex_refuted.

(** C76. Fixed flags win over rigid cells and rigid cells over soft ones; vertices of no usable cell are ignored; in-range meshes never panic. *)
Theorem vertex_types_by_precedence (fixed : list bool) (cells : list cell) :
  (forall c i, In c cells -> In i (c_verts c) -> (i < length fixed)%nat) ->
  exists ts, classify fixed cells = Some ts /\ length ts = length fixed /\ forall i, (i < length fixed)%nat ->
    (nth i ts Ignored = Fixed <-> nth i fixed false = true) /\
    (nth i ts Ignored = Rigid <-> nth i fixed false = false /\ in_rigid_cell cells i) /\
    (nth i ts Ignored = Free <-> nth i fixed false = false /\ ~ in_rigid_cell cells i /\ in_soft_cell cells i).
Proof. exact (classify_spec fixed cells). Qed.
Print Assumptions vertex_types_by_precedence.
Example vertex_types_nonvacuous :
  classify [false; false; true; false; false] [Cell [0; 1; 2]%nat MSoft true; Cell [1; 2]%nat MRigid true; Cell [3]%nat MSoft false; Cell [4]%nat MFixed true]
  = Some [Free; Rigid; Fixed; Ignored; Ignored].
Proof. reflexivity. Qed.

(** C77. The sorted types belong to the sorted vertices, and the leading vertices that have degrees of freedom are exactly the free and rigid ones. *)
Theorem degrees_of_freedom_are_leading (types : list vtype) :
  sort_types types = map (fun i => nth i types Ignored) (orig_index types) /\ (num_dof_vertices (sort_types types) <= length types)%nat /\
  forall j i, nth_error (orig_index types) j = Some i ->
    ((j < num_dof_vertices (sort_types types))%nat <-> nth i types Ignored = Free \/ nth i types Ignored = Rigid).
Proof.
  pose proof (sorts_aligned _ _ (orig_index_sorts types)) as Ha. split; [exact Ha|].
  destruct (num_dof_spec _ (sort_types_sorted types)) as [L N]. rewrite (Permutation_length (sort_types_perm types)) in L, N. split; [exact L|].
  intros j i Hj. assert (Lo : length (orig_index types) = length types) by (rewrite (Permutation_length (proj1 (orig_index_sorts types))); apply seq_length).
  assert (Hlt : (j < length types)%nat) by (rewrite <- Lo; exact (nth_error_lt _ _ _ Hj)). rewrite (N j Hlt).
  rewrite Ha. rewrite (nth_error_nth (map (fun i => nth i types Ignored) (orig_index types)) j Ignored (map_nth_error (fun i => nth i types Ignored) _ _ Hj)).
  destruct (nth i types Ignored); simpl; split; intros H; try lia; try tauto; destruct H; discriminate.
Qed.
Print Assumptions degrees_of_freedom_are_leading.
Example degrees_of_freedom_nonvacuous : sort_types [Ignored; Free; Fixed; Free; Rigid] = [Free; Free; Rigid; Fixed; Ignored] /\
  num_dof_vertices (sort_types [Ignored; Free; Fixed; Free; Rigid]) = 3%nat.
Proof. split; reflexivity. Qed.

(** C38. *)
Theorem lumped_masses_add_up (tets tris : list element) (n : nat) :
  (forall e, In e tets -> length (el_verts e) = 4%nat /\ forall i, In i (el_verts e) -> (i < n)%nat) ->
  (forall e, In e tris -> length (el_verts e) = 3%nat /\ forall i, In i (el_verts e) -> (i < n)%nat) ->
  exists m, compute_vertex_masses tets tris n = Some m /\ length m = n /\ rsum m = total_mass tets + total_mass tris /\
    ((forall e, In e (tets ++ tris) -> 0 <= el_measure e /\ 0 <= el_density e) -> forall x, In x m -> 0 <= x).
Proof. exact (masses_spec tets tris n). Qed.
Print Assumptions lumped_masses_add_up.
Example lumped_masses_nonvacuous : compute_vertex_masses [Element 2 10 [0; 1; 2; 3]%nat] [Element 3 1 [1; 2; 4]%nat] 5
  = Some [0 + 25 / 100 * 2 * 10; 0 + 25 / 100 * 2 * 10 + 3 * 1 / 3; 0 + 25 / 100 * 2 * 10 + 3 * 1 / 3; 0 + 25 / 100 * 2 * 10; 0 + 3 * 1 / 3].
Proof. reflexivity. Qed.

(** C78. The inverse mass is the reciprocal for free vertices and zero for all others; the lumped stiffness of a vertex is the largest Lame
    parameter of its elements, and zero when it has none. *)
Theorem inverse_masses (types : list vtype) (masses : list R) : length masses = length types ->
  length (mass_inv (sort_types types) masses) = length types /\ forall i, (i < length types)%nat ->
    (nth i (sort_types types) Ignored = Free -> nth i masses 0 <> 0 -> nth i masses 0 * nth i (mass_inv (sort_types types) masses) 0 = 1) /\
    (nth i (sort_types types) Ignored <> Free -> nth i (mass_inv (sort_types types) masses) 0 = 0).
Proof.
  intros H. pose proof (Permutation_length (sort_types_perm types)) as L. destruct (mass_inv_spec (sort_types types) masses (sort_types_sorted types)) as [A B]; [congruence|].
  rewrite L in A, B. split; [exact A|]. intros i Hi. rewrite (B i Hi). split.
  - intros -> Hm. simpl. field. exact Hm.
  - intros Hf. destruct (nth i (sort_types types) Ignored); try reflexivity. elim Hf. reflexivity.
Qed.
Print Assumptions inverse_masses.
Theorem lumped_stiffness_is_maximum (es : list (R * R * list nat)) (n : nat) :
  (forall lam mu vs i, In (lam, mu, vs) es -> In i vs -> (i < n)%nat) -> exists m, lumped_stiffness es (repeat 0 n) = Some m /\ length m = n /\
  forall j, 0 <= nth j m 0 /\ (forall lam mu vs, In (lam, mu, vs) es -> In j vs -> lam <= nth j m 0 /\ mu <= nth j m 0) /\
    (nth j m 0 = 0 \/ exists lam mu vs, In (lam, mu, vs) es /\ In j vs /\ (nth j m 0 = lam \/ nth j m 0 = mu)).
Proof.
  intros Hr. destruct (lumped_spec es (repeat 0 n)) as (m & E & L & N). { intros a b c i H Hi. rewrite repeat_length. exact (Hr a b c i H Hi). }
  exists m. split; [exact E|]. split; [rewrite L; apply repeat_length|]. intros j. specialize (N j). rewrite (nth_repeat 0 n j) in N. exact N.
Qed.
Print Assumptions lumped_stiffness_is_maximum.
Example inverse_masses_nonvacuous : mass_inv (sort_types [Fixed; Free]) [2; 3] = [1 / 2; 0] /\
  lumped_stiffness [(1, 2, [0; 1]%nat)] (repeat 0 2) = Some [Rmax (Rmax 0 1) 2; Rmax (Rmax 0 1) 2].
Proof. split; reflexivity. Qed.
