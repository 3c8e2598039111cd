(** Energy, forces and second derivatives of a contact, assembled over the vertices of the simulated mesh:
    /repo/softy/src/constraints/penalty_point_contact.rs:1151-1173, 1207-1268, 1292-1338, 1409-1437, 2223-2246 and 3424-3775, and
    /repo/softy/src/constraints/point_contact.rs:335-371, 571-599, 1046-1101, 1203-1372 and 1397-1440.

    Exact reals.  The linearised constraint is never filled by a penalty contact (penalty_point_contact.rs:1118) and is left out.  An
    index out of range, a failed assertion or an [unwrap] is [None].  [SubsetView] (flatk) reads the vertices of its index list.  The
    product of two sparse rows (tensr) has one term for every column that both rows store, in the order of the columns; parallel
    iterators keep the order of the sequential ones. *)
From Coq Require Import Reals List Bool.
From Verif Require Import Vec3 Mat3 RList KernelModel FieldModel NeighborModel SurfJacModel ContactModel ContactAsmModel HessModel SurfHessModel.
From Verif Require ElasticModel.
Local Notation m3_get := ElasticModel.m3_get.
Import ListNotations.
Local Open Scope R_scope.

(** The implicit surface, the positions of the collider, the vertices of the mesh they are made of, whether they are fixed
    (point_contact.rs:239-244) and the parameters. *)
Record contact := Contact {
  ct_topo : query_topo; ct_points : list v3; ct_surface : list nat; ct_collider : list nat;
  ct_object_fixed : bool; ct_collider_fixed : bool; ct_offset : R; ct_delta : R; ct_kappa : R }.

(** update_state_with_rebuild, 1246-1268: both subsets of the positions [X], and the assertion on the number of vertices. *)
Definition subset {A} (X : list A) (ids : list nat) : option (list A) := all_some (map (nth_error X) ids).
Definition update_state (c : contact) (X : list v3) (rebuild : bool) : option contact :=
  match subset X (ct_surface c), subset X (ct_collider c) with
  | Some vs, Some ps =>
      let (t, count) := update_surface (ct_topo c) vs rebuild in
      if andb (Nat.eqb count (length (sb_verts (q_base t)))) (Nat.eqb (length ps) (length (ct_points c))) then
        Some (Contact t ps (ct_surface c) (ct_collider c) (ct_object_fixed c) (ct_collider_fixed c) (ct_offset c) (ct_delta c) (ct_kappa c))
      else None
  | _, _ => None
  end.

(** constraint_size, point_contact.rs:1046-1048, and update_distance_potential with compute_nonlinear_constraint, 1053-1101: the
    potential over a buffer of zeros, without the points that have no neighbours. *)
Definition constraint_size (c : contact) : nat := num_neighborhoods (ct_topo c).
Definition distance_potential (c : contact) : option (list R) :=
  option_map (fun values =>
      zip_update (fun _ v => v - ct_offset c) (repeat 0 (constraint_size c))
        (map snd (filter (fun p => negb (Nat.eqb (fst p) 0)) (combine (neighborhood_sizes (ct_topo c)) values))))
    (potential (ct_topo c) (ct_points c) (repeat 0 (length (ct_points c)))).
(** update_multipliers and contact_constraint. *)
Definition contact_multipliers (c : contact) : option (list R) := option_map (multipliers (ct_delta c) (ct_kappa c)) (distance_potential c).
Definition contact_constraint (c : contact) : option R := option_map (contact_energy (ct_delta c) (ct_kappa c)) (distance_potential c).

(** enumerate_nonempty_neighborhoods_inplace, point_contact.rs:571-599. *)
Fixpoint number_nonempty (next : nat) (sizes : list nat) : list (option nat) :=
  match sizes with
  | [] => []
  | O :: r => None :: number_nonempty next r
  | Datatypes.S _ :: r => Some next :: number_nonempty (Datatypes.S next) r
  end.
Definition neighborhood_numbers (t : query_topo) : list (option nat) := number_nonempty 0 (neighborhood_sizes t).
(** The rows of a Jacobian renumbered, with the assertion that they are valid, and its columns replaced by vertices of the mesh. *)
Definition renumber (numbers : list (option nat)) (vertices : list nat) (L : list (nat * nat * v3)) : option (list (nat * nat * v3)) :=
  all_some (map (fun e => let '(row, col, b) := e in
    match nth_error numbers row, nth_error vertices col with Some (Some r), Some v => Some (r, v, b) | _, _ => None end) L).
(** query_jacobian_indexed_block_par_iter with [full = false], /repo/implicits/src/field/jacobian.rs:57-67 and 246-284. *)
Definition query_jacobian_triplets (t : query_topo) (qs : list v3) : option (list (nat * nat * v3)) :=
  all_some (map (fun p => let '(row, (q, (nbrs, cl))) := p in
      option_map (fun J => (row, row, J)) (query_jacobian_at q (sb_samples (q_base t)) nbrs (Some cl) (q_kernel t) (sb_bg (q_base t))))
    (filter (fun p => negb (is_nil (fst (snd (snd p))))) (enumerate (combine qs (combine (trivial_neighborhood t) (closest_samples t)))))).
(** object_constraint_jacobian_blocks_iter and collider_constraint_jacobian_blocks_iter with distance_jacobian_blocks_iter_fn. *)
Definition object_jacobian (c : contact) : option (list (nat * nat * v3)) :=
  if ct_object_fixed c then Some [] else
  match surface_jacobian_triplets (ct_topo c) (ct_points c) with
  | None => None
  | Some L => renumber (neighborhood_numbers (ct_topo c)) (ct_surface c) L
  end.
Definition collider_jacobian (c : contact) : option (list (nat * nat * v3)) :=
  if ct_collider_fixed c then Some [] else
  match query_jacobian_triplets (ct_topo c) (ct_points c) with
  | None => None
  | Some L => renumber (neighborhood_numbers (ct_topo c)) (ct_collider c) L
  end.
Definition distance_jacobian (c : contact) : option (list (nat * nat * v3)) :=
  match object_jacobian c, collider_jacobian c with Some a, Some b => Some (a ++ b) | _, _ => None end.
(** reset_distance_gradient, 1207-1227, and update_constraint_gradient, 1292-1327. *)
Definition reset_distance_gradient (c : contact) (num_vertices : nat) : option (mapped v3) :=
  option_map (fun J => build_distance_gradient J num_vertices (constraint_size c)) (distance_jacobian c).
Definition update_constraint_gradient (g : mapped v3) (c : contact) : option (mapped v3) :=
  match distance_jacobian c with None => None | Some J => update_distance_gradient g J end.
(** subtract_constraint_force, 2223-2235. *)
Definition subtract_constraint_force (c : contact) (f : list v3) : option (list v3) :=
  match contact_multipliers c, distance_jacobian c with Some l, Some J => subtract_force l J f | _, _ => None end.

(** [.ok()] of an iterator that may be unsupported: nothing. *)
Definition ok_or_empty {A} (o : outcome (option (list A))) : option (list A) := match o with Unsupported => Some [] | Result r => r end.
(** Indices of blocks replaced by vertices of the mesh. *)
Definition relabel {A} (rows cols : list nat) (L : list (nat * nat * A)) : option (list (nat * nat * A)) :=
  all_some (map (fun h => let '(row, col, A) := h in
    match nth_error rows row, nth_error cols col with Some r, Some c => Some (r, c, A) | _, _ => None end) L).
Definition bind_relabel {A} (rows cols : list nat) (o : option (list (nat * nat * A))) : option (list (nat * nat * A)) :=
  match o with None => None | Some L => relabel rows cols L end.
(** object_, object_collider_ and collider_distance_potential_hessian_indexed_blocks_iter, 3477-3567. *)
Definition object_hessian (c : contact) (lambda : list R) : option (list (nat * nat * m3)) :=
  if ct_object_fixed c then Some [] else
  bind_relabel (ct_surface c) (ct_surface c) (ok_or_empty (surface_hessian_blocks (ct_topo c) (ct_points c) lambda)).
Definition object_collider_hessian (c : contact) (lambda : list R) : option (list (nat * nat * m3)) :=
  if ct_object_fixed c then Some [] else
  bind_relabel (ct_collider c) (ct_surface c) (ok_or_empty (sample_query_hessian (ct_topo c) (ct_points c) (Some lambda))).
Definition collider_hessian (c : contact) (lambda : list R) : option (list (nat * nat * m3)) :=
  if ct_collider_fixed c then Some [] else
  bind_relabel (ct_collider c) (ct_collider c)
    (option_map (map (fun p => (fst p, fst p, snd p))) (query_hessian_blocks (ct_topo c) (ct_points c) lambda)).
(** The transposed blocks of the upper triangle, 3697-3711. *)
Definition mirrored (h : nat * nat * m3) : list (nat * nat * m3) :=
  let '(row, col, A) := h in (row, col, A) :: (if Nat.eqb row col then [] else [(col, row, m3_transpose A)]).
Definition active (m : nat) (row : nat) : bool := Nat.ltb row m.
(** The product of the distance gradient with its transpose, 3720-3749, with a factor for every constraint. *)
Definition stored_rows (g : mapped v3) : list nat := unseen [] (map fst (mp_pattern g)).
Definition row_entries (g : mapped v3) (row : nat) : list (nat * v3) :=
  map (fun e => (snd (fst e), snd e)) (filter (fun e => Nat.eqb (fst (fst e)) row) (combine (mp_pattern g) (mp_blocks g))).
Definition common_columns (l r : list (nat * v3)) : list (nat * (v3 * v3)) :=
  flat_map (fun a => map (fun b => (fst a, (snd a, snd b))) (filter (fun b => Nat.eqb (fst a) (fst b)) r)) l.
Definition gradient_product (g : mapped v3) (factor : nat -> R) (m : nat) : list (nat * nat * m3) :=
  let rows := filter (active m) (stored_rows g) in
  flat_map (fun row => flat_map (fun col =>
      map (fun e => let '(j, (a, b)) := e in (row, col, m3_scale (factor j) (outer a b))) (common_columns (row_entries g row) (row_entries g col)))
    rows) rows.
(** The entries of a block, 3766-3770. *)
Definition scalar_entries (h : nat * nat * m3) : list (nat * nat * R) :=
  let '(row, col, A) := h in
  flat_map (fun r => map (fun k => ((3 * row + r)%nat, (3 * col + k)%nat, m3_get A r k)) [0; 1; 2]%nat) [0; 1; 2]%nat.
(** constraint_hessian_indexed_values_iter, 3688-3774; [dist] and [lambda] are cached; a row shares its columns with
    itself, so that [dist[index]] is read at every column of an active row. *)
Definition constraint_hessian_blocks (c : contact) (g : mapped v3) (dist lambda : list R) (m : nat) : option (list (nat * nat * m3)) :=
  match object_hessian c lambda, object_collider_hessian c lambda, collider_hessian c lambda with
  | Some o, Some oc, Some cc =>
      if forallb (fun p => orb (negb (active m (fst p))) (Nat.ltb (snd p) (length dist))) (mp_pattern g) then
        Some (filter (fun h => andb (active m (fst (fst h))) (active m (snd (fst h)))) (flat_map mirrored (o ++ oc) ++ cc) ++
          gradient_product g (fun j => - ct_kappa c * penalty_ddb (ct_delta c) (nth j dist 0)) m)
      else None
  | _, _, _ => None
  end.
Definition constraint_hessian_values (c : contact) (g : mapped v3) (dist lambda : list R) (m : nat) : option (list (nat * nat * R)) :=
  option_map (flat_map scalar_entries) (constraint_hessian_blocks c g dist lambda m).

(** object_, object_collider_ and collider_distance_potential_hessian_block_indices_iter, 3570-3639. *)
Definition relabel_indices (rows cols : list nat) (swap : bool) (L : list (nat * nat)) : option (list (nat * nat)) :=
  all_some (map (fun h => match nth_error rows (fst h), nth_error cols (snd h) with
    | Some r, Some c => Some (if andb swap (Nat.ltb r c) then (c, r) else (r, c)) | _, _ => None end) L).
Definition bind_indices (rows cols : list nat) (swap : bool) (o : option (list (nat * nat))) : option (list (nat * nat)) :=
  match o with None => None | Some L => relabel_indices rows cols swap L end.
Definition object_hessian_indices (c : contact) : option (list (nat * nat)) :=
  if ct_object_fixed c then Some [] else
  bind_indices (ct_surface c) (ct_surface c) true (ok_or_empty (surface_hessian_block_indices (ct_topo c))).
Definition object_collider_hessian_indices (c : contact) : option (list (nat * nat)) :=
  if ct_object_fixed c then Some [] else
  bind_indices (ct_collider c) (ct_surface c) false (ok_or_empty (sample_query_hessian_indices (ct_topo c))).
Definition collider_hessian_indices (c : contact) : option (list (nat * nat)) :=
  if ct_collider_fixed c then Some [] else
  bind_indices (ct_collider c) (ct_collider c) false (Some (map (fun i => (i, i)) (query_hessian_block_indices (ct_topo c)))).
Definition mirrored_indices (p : nat * nat) : list (nat * nat) :=
  let '(row, col) := p in (row, col) :: (if Nat.eqb row col then [] else [(col, row)]).
Definition gradient_product_indices (g : mapped v3) (m : nat) : list (nat * nat) :=
  let rows := filter (active m) (stored_rows g) in
  flat_map (fun row => flat_map (fun col => map (fun _ => (row, col)) (common_columns (row_entries g row) (row_entries g col))) rows) rows.
Definition scalar_positions (p : nat * nat) : list (nat * nat) :=
  flat_map (fun r => map (fun k => ((3 * fst p + r)%nat, (3 * snd p + k)%nat)) [0; 1; 2]%nat) [0; 1; 2]%nat.
(** constraint_hessian_indices_iter, 3641-3686; constraint_hessian_size, 3434-3437; num_hessian_diagonal_nnz, 3469-3473. *)
Definition constraint_hessian_indices (c : contact) (g : mapped v3) (m : nat) : option (list (nat * nat)) :=
  match object_hessian_indices c, object_collider_hessian_indices c, collider_hessian_indices c with
  | Some o, Some oc, Some cc =>
      Some (flat_map scalar_positions
        (filter (fun p => andb (active m (fst p)) (active m (snd p))) (flat_map mirrored_indices (o ++ oc) ++ cc) ++ gradient_product_indices g m))
  | _, _, _ => None
  end.
Definition constraint_hessian_size (c : contact) (g : mapped v3) (m : nat) : option nat := option_map (@length _) (constraint_hessian_indices c g m).
Definition num_hessian_diagonal (c : contact) (g : mapped v3) (m : nat) : option nat :=
  option_map (fun l => length (filter (fun p => Nat.eqb (snd p) (fst p)) l)) (constraint_hessian_indices c g m).
