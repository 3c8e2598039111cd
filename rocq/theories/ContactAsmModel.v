(** Assembly of the sparse contact matrices from indexed blocks, and the refresh of their values:
    /repo/softy/src/contact.rs:499-590, /repo/softy/src/constraints/penalty_point_contact.rs:134-301, 402-549, 1207-1227,
    1292-1327, 1362-1384 and 1842-1955.

    Exact arithmetic.  The compression of tensr ([from_block_triplets_iter_uncompressed] with [pruned] or [pruned_with]) is external:
    blocks of equal neighbours are added, and the callback learns the stored place of every source.  Parallel iterators keep the
    order of the sequential ones.  The optional index [Index] is [option nat].  [None] is a panic. *)
From Coq Require Import Reals List Bool.
From Verif Require Import Vec3 Mat3 RList KernelModel FieldModel NeighborModel SurfJacModel ContactMapModel AssemblyModel.
Import ListNotations.
Local Open Scope R_scope.

(** The reverse map from query points to active contacts, contact.rs:560-566, and collider_vertex_constraints,
    penalty_point_contact.rs:1869-1878. *)
Definition reverse_map (n : nat) (active : list nat) : option (list (option nat)) :=
  if forallb (fun a => Nat.ltb a n) active then
    Some (fold_left (fun m p => set_nth m (snd p) (Some (fst p))) (enumerate active) (repeat None n))
  else None.
(** The filter at the end of both selections, contact.rs:538-540 and 576-578. *)
Definition within_size (rows cols : nat) (e : nat * nat * m3) : bool := Nat.ltb (fst (fst e)) rows && Nat.ltb (snd (fst e)) cols.
(** from_selection, contact.rs:546-589; [active] are the indices of the selection, [qs] its target. *)
Definition from_selection (t : query_topo) (qs : list v3) (active : list nat) : option (list (nat * nat * m3)) :=
  match reverse_map (length qs) active, contact_matrices t qs with
  | Some inv, Some L =>
      option_map (fun ls => filter (within_size (length active) (length (sb_verts (q_base t)))) (concat ls))
        (all_some (map (fun e => let '(row, col, B) := e in
          match nth_error inv row with None => None | Some None => Some [] | Some (Some i) => Some [(i, col, B)] end) L))
  | _, _ => None
  end.
(** from_selection_reindexed_full, contact.rs:509-543. *)
Definition from_selection_full (t : query_topo) (qs : list v3) (active : list nat) (constraints : list (option nat))
    (surface collider : list nat) (num_vertices : nat) : option (list (nat * nat * m3)) :=
  match contact_matrices t qs with
  | None => None
  | Some L =>
      match all_some (map (fun e => let '(row, col, B) := e in
              match nth_error constraints row with
              | None => None
              | Some None => Some []
              | Some (Some i) => option_map (fun v => [(i, v, B)]) (nth_error surface col)
              end) L),
            all_some (map (fun p => option_map (fun v => (fst p, v, m3_scale (-1) m3_I)) (nth_error collider (snd p))) (enumerate active)) with
      | Some ls, Some cs => Some (filter (within_size (length active) num_vertices) (concat ls ++ cs))
      | _, _ => None
      end
  end.

(** A sparse block matrix with the stored place of every source block: MappedDistanceGradient, MappedContactJacobian,
    MappedContactGradient and MappedSSBlockMatrix3 (penalty_point_contact.rs:98-105, 219-226, 393-400, 478-484). *)
Record mapped (A : Type) := Mapped { mp_pattern : list pos; mp_blocks : list A; mp_mapping : list (option nat) }.
Arguments Mapped {A}. Arguments mp_pattern {A}. Arguments mp_blocks {A}. Arguments mp_mapping {A}.
(** Adding blocks at their places. *)
Definition put {A} (add : A -> A -> A) (zero : A) (s : list A) (d : nat) (x : A) : list A := set_nth s d (add (nth d s zero) x).
Definition accumulate {A} (add : A -> A -> A) (zero : A) (n : nat) (l : list (option nat * A)) : list A :=
  fold_left (fun s p => match fst p with Some d => put add zero s d (snd p) | None => s end) l (repeat zero n).
(** MappedDistanceGradient::new (134-214), MappedContactJacobian::from_triplets (229-281) and MappedSSBlockMatrix3::from_triplets
    (487-528): sort by row and column, keep what fits, compress.  Only the first one drops anything. *)
Definition from_triplets {A} (add : A -> A -> A) (zero : A) (keep : pos -> bool) (T : list (pos * A)) : mapped A :=
  let key := fun i => nth i (map fst T) (0, 0)%nat in
  let entries := filter (fun i => keep (key i)) (sort_entries key (seq 0 (length T))) in
  let (pattern, dst) := compress (map key entries) in
  Mapped pattern
    (accumulate add zero (length pattern) (combine (map Some dst) (map (fun i => nth i (map snd T) zero) entries)))
    (fold_left (fun m p => set_nth m (fst p) (Some (snd p))) (combine entries dst) (repeat None (length T))).
(** update_values (283-301, 455-474, 530-548) and update_constraint_gradient (1292-1327): zero the storage, then add the blocks
    at the places found before. *)
Definition update_values {A} (add : A -> A -> A) (zero : A) (m : mapped A) (bs : list A) : option (mapped A) :=
  let l := combine (mp_mapping m) bs in
  if forallb (fun p => match fst p with Some d => Nat.ltb d (length (mp_blocks m)) | None => true end) l
  then Some (Mapped (mp_pattern m) (accumulate add zero (length (mp_blocks m)) l) (mp_mapping m))
  else None.

Definition m3_zero : m3 := M3 v3_0 v3_0 v3_0.
(** The contact Jacobian: built (precompute_contact_jacobian, 1859-1865) and refreshed (update_contact_jacobian, 1362-1384). *)
Definition jacobian_triplets (L : list (nat * nat * m3)) : list (pos * m3) := L.
Definition build_jacobian (t : query_topo) (qs : list v3) (active : list nat) : option (mapped m3) :=
  option_map (fun L => from_triplets m3_add m3_zero (fun _ => true) (jacobian_triplets L)) (from_selection t qs active).
Definition update_jacobian (m : mapped m3) (t : query_topo) (qs : list v3) (active : list nat) : option (mapped m3) :=
  match from_selection t qs active with
  | None => None
  | Some L => update_values m3_add m3_zero m (map snd (jacobian_triplets L))
  end.
(** The contact gradient: rows and columns exchanged, blocks transposed (MappedContactGradient, 404-475); built (1893-1903) and
    refreshed (update_contact_gradient, 1932-1955). *)
Definition gradient_triplets (L : list (nat * nat * m3)) : list (pos * m3) :=
  map (fun e => let '(row, col, B) := e in ((col, row), m3_transpose B)) L.
Definition build_gradient (t : query_topo) (qs : list v3) (active : list nat) (surface collider : list nat) (num_vertices : nat) : option (mapped m3) :=
  match reverse_map (length qs) active with
  | None => None
  | Some inv => option_map (fun L => from_triplets m3_add m3_zero (fun _ => true) (gradient_triplets L))
      (from_selection_full t qs active inv surface collider num_vertices)
  end.
Definition update_gradient (m : mapped m3) (t : query_topo) (qs : list v3) (active : list nat) (constraints : list (option nat))
    (surface collider : list nat) (num_vertices : nat) : option (mapped m3) :=
  match from_selection_full t qs active constraints surface collider num_vertices with
  | None => None
  | Some L => update_values m3_add m3_zero m (map snd (gradient_triplets L))
  end.

(** The distance gradient, 1207-1227 and 1292-1327: [J] are the blocks of distance_jacobian_blocks_par_iter_fn (1409-1422) as
    (constraint, vertex, block), exchanged on the way in. *)
Definition distance_triplets (J : list (nat * nat * v3)) : list (pos * v3) := map (fun e => let '(row, col, b) := e in ((col, row), b)) J.
Definition build_distance_gradient (J : list (nat * nat * v3)) (num_vertices num_constraints : nat) : mapped v3 :=
  from_triplets v3_add v3_0 (fun p => Nat.ltb (fst p) num_vertices && Nat.ltb (snd p) num_constraints) (distance_triplets J).
Definition update_distance_gradient (m : mapped v3) (J : list (nat * nat * v3)) : option (mapped v3) :=
  update_values v3_add v3_0 m (map snd J).
