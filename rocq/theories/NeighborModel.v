(** Surfaces of the implicit surface crate, their samples, the search tree, and the cached neighbourhoods of query points:
    /repo/implicits/src/field.rs, field/samples.rs, field/spatial_tree.rs, field/neighbor_cache.rs, field/query.rs and the index
    lists of field/jacobian.rs.

    Exact reals.  The search tree ([rstar], external) is a pair of oracles, [tree_ops]; a tree remembers the positions it was
    built from (its envelopes) and the samples it holds.  The hash of an index list ([DefaultHasher], external) is an oracle.
    Parallel iterators keep the order of the sequential ones.  [None] is a panic. *)
From Coq Require Import Reals List ZArith Bool.
From Verif Require Import Vec3 RList KernelModel FieldModel.
Import ListNotations.
Local Open Scope R_scope.

(** SampleType, field.rs:107-111. *)
Inductive sample_type := SVertex | SFace.
(** RTree<Sample>, spatial_tree.rs:7-13: entry [i] is a copy of sample [i]; its envelope is the position at [bulk_load]. *)
Record tree := Tree { t_boxes : list v3; t_data : list sample }.
(** RTree::locate_within_distance and RTree::nearest_neighbor (external). *)
Record tree_ops := TreeOps { t_locate : tree -> v3 -> R -> list nat; t_nearest : tree -> v3 -> option nat }.
(** build_rtree_from_samples, spatial_tree.rs:34-39. *)
Definition build_tree (S : list sample) : tree := Tree (map s_pos S) S.
(** The [iter_mut] loop of update, field.rs:393-404: data without envelopes. *)
Definition refresh_tree (t : tree) (S : list sample) : tree := Tree (t_boxes t) S.

(** LocalKernel, kernel.rs:34-50, and its multiplier, 58-84. *)
Inductive local_kernel := LInterpolating (m : R) | LSmooth (tolerance m : R) | LApproximate (m tolerance : R) | LCubic (m : R).
Definition radius_multiplier (k : local_kernel) : R :=
  match k with LInterpolating m | LSmooth _ m | LApproximate m _ | LCubic m => m end.
Definition with_radius_multiplier (k : local_kernel) (m : R) : local_kernel :=
  match k with
  | LInterpolating _ => LInterpolating m | LSmooth t _ => LSmooth t m | LApproximate _ t => LApproximate m t | LCubic _ => LCubic m
  end.
(** apply_as_spherical!, kernel.rs:91-123; LocalInterpolating::new, kernel.rs:344-350, starts with its radius as closest distance. *)
Definition as_spherical (k : local_kernel) (base_radius : R) : kernel :=
  match k with
  | LInterpolating m => Interpolating (base_radius * m) (base_radius * m)
  | LSmooth t m => Smooth (base_radius * m) t
  | LApproximate m t => Approximate (base_radius * m) t
  | LCubic m => Cubic (base_radius * m)
  end.

(** ImplicitSurfaceBase, field.rs:124-155. *)
Definition triangle := (nat * nat * nat)%type.
Definition tri_verts (t : triangle) : list nat := let '(a, b, c) := t in [a; b; c].
Record base := Base { sb_bg : bg_params; sb_topo : list triangle; sb_verts : list v3; sb_samples : list sample;
  sb_dual : list (list nat); sb_type : sample_type; sb_tree : tree }.
(** LocalMLS, field.rs:168-187, and its radius, 192-194. *)
Record local_mls := LocalMls { lm_kernel : local_kernel; lm_base_radius : R; lm_max_step : R; lm_base : base }.
Definition lm_radius (s : local_mls) : R := lm_base_radius s * radius_multiplier (lm_kernel s).

(** Triangle::centroid and Triangle::area_normal (external): mean of the corners, cross product of two edges. *)
Definition pt (V : list v3) (i : nat) : v3 := nth i V v3_0.
Definition centroid (a b c : v3) : v3 := v3_scale (1 / 3) (v3_add (v3_add a b) c).
Definition area_normal (a b c : v3) : v3 := v3_cross (v3_sub b a) (v3_sub c a).
Definition tri_centroid (V : list v3) (t : triangle) : v3 := let '(a, b, c) := t in centroid (pt V a) (pt V b) (pt V c).
Definition tri_normal (V : list v3) (t : triangle) : v3 := let '(a, b, c) := t in area_normal (pt V a) (pt V b) (pt V c).
Definition tri_tangent (V : list v3) (t : triangle) : v3 :=
  let '(a, b, c) := t in let v := v3_sub (pt V b) (pt V a) in v3_scale (1 / v3_norm v) v.
(** geo::algo::compute_vertex_area_weighted_normals (external): every triangle adds its area normal to its corners. *)
Definition vertex_normal (V : list v3) (topo : list triangle) (i : nat) : v3 :=
  vsum (flat_map (fun t => map (fun _ => tri_normal V t) (filter (Nat.eqb i) (tri_verts t))) topo).

(** Iterator::zip of samples with new data, the samples without a partner being left alone. *)
Fixpoint zip_update {A B} (f : A -> B -> A) (l : list A) (m : list B) : list A :=
  match l, m with a :: l', b :: m' => f a b :: zip_update f l' m' | _, _ => l end.
(** update_samples, field.rs:298-331, with update_triangle_samples, samples.rs:191-220. *)
Definition set_pos (s : sample) (p : v3) : sample := Sample p (s_nml s) (s_vel s) (s_value s).
Definition set_nml (s : sample) (n : v3) : sample := Sample (s_pos s) n (s_vel s) (s_value s).
Definition update_samples (b : base) : list sample :=
  match sb_type b with
  | SVertex =>
      let moved := zip_update set_pos (sb_samples b) (sb_verts b) in
      let positions := map s_pos moved in
      zip_update (fun s i => set_nml s (vertex_normal positions (sb_topo b) i)) moved (seq 0 (length moved))
  | SFace =>
      zip_update (fun s t => Sample (tri_centroid (sb_verts b) t) (tri_normal (sb_verts b) t) (tri_tangent (sb_verts b) t) (s_value s))
        (sb_samples b) (sb_topo b)
  end.
(** ImplicitSurfaceBase::update, field.rs:375-407 (update_par, 413-446, the same); the count of updated vertices. *)
Definition update_base (b : base) (new : list v3) (rebuild : bool) : base * nat :=
  let verts := zip_update (fun _ p => p) (sb_verts b) new in
  let S := update_samples (Base (sb_bg b) (sb_topo b) verts (sb_samples b) (sb_dual b) (sb_type b) (sb_tree b)) in
  let t := if rebuild then build_tree S else refresh_tree (sb_tree b) S in
  (Base (sb_bg b) (sb_topo b) verts S (sb_dual b) (sb_type b) t, Nat.min (length (sb_verts b)) (length new)).

(** Vec::resize. *)
Definition resize {A} (d : A) (n : nat) (l : list A) : list A := firstn n (l ++ repeat d (n - length l)).
Fixpoint all_some {A} (l : list (option A)) : option (list A) :=
  match l with
  | [] => Some []
  | None :: _ => None
  | Some a :: r => match all_some r with Some l' => Some (a :: l') | None => None end
  end.
(** Neighborhood, neighbor_cache.rs:43-52, and Neighborhood::new. *)
Record neighborhood := Nbh { n_closest : list nat; n_trivial : list (list nat); n_extended : list (list nat) }.
Definition nbh_new : neighborhood := Nbh [] [] [].
(** compute_closest_set, neighbor_cache.rs:6-33. *)
Definition compute_closest_set (closest : v3 -> option nat) (qs : list v3) (set : list nat) : option (list nat * bool) :=
  match all_some (map closest qs) with
  | None => None
  | Some new =>
      let resized := resize 0%nat (length qs) set in
      Some (new, orb (negb (Nat.eqb (length qs) (length set))) (existsb (fun p => negb (Nat.eqb (fst p) (snd p))) (combine resized new)))
  end.
(** Change of one cached list, neighbor_cache.rs:115-124 and 169-182: the hashes before and after are compared. *)
Definition lists_changed (hash : list nat -> Z) (old new : list (list nat)) : bool :=
  orb (negb (Nat.eqb (length new) (length old)))
      (existsb (fun p => negb (Z.eqb (hash (fst p)) (hash (snd p)))) (combine (resize [] (length new) old) new)).
(** compute_trivial_set, neighbor_cache.rs:95-128. *)
Definition compute_trivial_set (hash : list nat -> Z) (neigh : v3 -> list nat) (qs : list v3) (cache : list (list nat))
  : list (list nat) * bool :=
  let new := map neigh qs in (new, lists_changed hash cache new).
(** BTreeSet of indices, iterated in ascending order. *)
Fixpoint insert (x : nat) (l : list nat) : list nat :=
  match l with [] => [x] | y :: r => if Nat.ltb x y then x :: l else if Nat.eqb x y then l else y :: insert x r end.
Definition btree_set (l : list nat) : list nat := fold_right insert [] l.
(** Corners of the triangles around the given samples, neighbor_cache.rs:173-177; indexing may panic. *)
Definition ring (topo : list triangle) (dual : list (list nat)) (pts : list nat) : option (list nat) :=
  match all_some (map (fun pt =>
    match nth_error dual pt with
    | None => None
    | Some tris => option_map (@concat nat) (all_some (map (fun t => option_map tri_verts (nth_error topo t)) tris))
    end) pts) with
  | None => None
  | Some l => Some (concat l)
  end.
Definition is_vertex (t : sample_type) : bool := match t with SVertex => true | SFace => false end.
Definition is_nil {A} (l : list A) : bool := match l with [] => true | _ => false end.
Definition extend (topo : list triangle) (dual : list (list nat)) (type : sample_type) (pts : list nat) : option (list nat) :=
  if andb (is_vertex type) (negb (is_nil dual)) then option_map (fun r => btree_set (pts ++ r)) (ring topo dual pts)
  else Some (btree_set pts).
(** compute_extended_set, neighbor_cache.rs:140-186; the inner option is the invalid trivial set. *)
Definition compute_extended_set (hash : list nat -> Z) (qs : list v3) (topo : list triangle) (dual : list (list nat)) (type : sample_type)
  (trivial cache : list (list nat)) : option (option (list (list nat) * bool)) :=
  if negb (Nat.eqb (length trivial) (length qs)) then Some None else
  match all_some (map (extend topo dual type) trivial) with
  | None => None
  | Some new => Some (Some (new, lists_changed hash cache new))
  end.
(** compute_neighborhoods, neighbor_cache.rs:190-210: the three sets are always all computed. *)
Definition compute_neighborhoods (hash : list nat -> Z) (neigh : v3 -> list nat) (closest : v3 -> option nat) (qs : list v3)
  (topo : list triangle) (dual : list (list nat)) (type : sample_type) (n : neighborhood) : option (neighborhood * bool) :=
  match compute_closest_set closest qs (n_closest n) with
  | None => None
  | Some (cl, ch1) =>
      let (tr, ch2) := compute_trivial_set hash neigh qs (n_trivial n) in
      match compute_extended_set hash qs topo dual type tr (n_extended n) with
      | Some (Some (ex, ch3)) => Some (Nbh cl tr ex, orb (orb ch1 ch2) ch3)
      | _ => None
      end
  end.

(** QueryTopo, query.rs:11-31. *)
Inductive query_topo :=
| QLocal (surf : local_mls) (n : neighborhood)
| QGlobal (tolerance : R) (surf : base) (closest : list nat) (sample_indices : list nat).
Definition q_base (t : query_topo) : base := match t with QLocal s _ => lm_base s | QGlobal _ b _ _ => b end.
(** reset, query.rs:56-105. *)
Definition reset (o : tree_ops) (hash : list nat -> Z) (qs : list v3) (t : query_topo) : option (query_topo * bool) :=
  match t with
  | QLocal s n =>
      let b := lm_base s in
      let radius_ext := lm_radius s + lm_max_step s in
      match compute_neighborhoods hash (fun q => t_locate o (sb_tree b) q (radius_ext * radius_ext)) (t_nearest o (sb_tree b)) qs
              (sb_topo b) (sb_dual b) (sb_type b) n with
      | None => None
      | Some (n', changed) => Some (QLocal s n', changed)
      end
  | QGlobal tol b cl si =>
      match compute_closest_set (t_nearest o (sb_tree b)) qs cl with
      | None => None
      | Some (cl', changed) => Some (QGlobal tol b cl' si, changed)
      end
  end.
(** QueryTopo::new, query.rs:36-53. *)
Inductive mls := MLocal (s : local_mls) | MGlobal (tolerance : R) (b : base).
Definition query_new (o : tree_ops) (hash : list nat -> Z) (qs : list v3) (m : mls) : option query_topo :=
  let t := match m with MLocal s => QLocal s nbh_new | MGlobal tol b => QGlobal tol b [] (seq 0 (length (sb_samples b))) end in
  option_map fst (reset o hash qs t).

(** update_max_step, query.rs:275-279; update_radius_multiplier, 281-289; update_surface, 299-307. *)
Definition update_max_step (t : query_topo) (step : R) : query_topo :=
  match t with QLocal s n => QLocal (LocalMls (lm_kernel s) (lm_base_radius s) step (lm_base s)) n | _ => t end.
Definition update_radius_multiplier (t : query_topo) (m : R) : query_topo :=
  match t with
  | QLocal s n => QLocal (LocalMls (with_radius_multiplier (lm_kernel s) m) (lm_base_radius s) (lm_max_step s) (lm_base s)) n
  | _ => t
  end.
Definition update_surface (t : query_topo) (new : list v3) (rebuild : bool) : query_topo * nat :=
  match t with
  | QLocal s n => let (b, k) := update_base (lm_base s) new rebuild in (QLocal (LocalMls (lm_kernel s) (lm_base_radius s) (lm_max_step s) b) n, k)
  | QGlobal tol b cl si => let (b', k) := update_base b new rebuild in (QGlobal tol b' cl si, k)
  end.

(** Accessors of the caches, query.rs:321-359 and 441-475. *)
Definition trivial_neighborhood (t : query_topo) : list (list nat) :=
  match t with QLocal _ n => n_trivial n | QGlobal _ _ cl si => map (fun _ => si) cl end.
Definition closest_samples (t : query_topo) : list nat := match t with QLocal _ n => n_closest n | QGlobal _ _ cl _ => cl end.
Definition extended_neighborhood (t : query_topo) : list (list nat) :=
  match t with QLocal _ n => n_extended n | QGlobal _ _ _ _ => trivial_neighborhood t end.
(** The kernel given to every computation, apply_kernel_query_fn!, field.rs:55-72. *)
Definition q_kernel (t : query_topo) : kernel :=
  match t with QLocal s _ => as_spherical (lm_kernel s) (lm_base_radius s) | QGlobal tol _ _ _ => Global tol end.
(** compute_potential, query.rs:852-878 (and compute_potential_par, 881-916): the assertion, then one evaluation per point. *)
Fixpoint potentials (k : kernel) (P : bg_params) (S : list sample) (qs : list v3) (ns : list (list nat)) (out : list R) : list R :=
  match qs, ns, out with
  | q :: qs', n :: ns', v :: out' => potential_at q S n k P v :: potentials k P S qs' ns' out'
  | _, _, _ => out
  end.
Definition potential (t : query_topo) (qs : list v3) (out : list R) : option (list R) :=
  if Nat.eqb (length (trivial_neighborhood t)) (length out) then
    Some (potentials (q_kernel t) (sb_bg (q_base t)) (sb_samples (q_base t)) qs (trivial_neighborhood t) out)
  else None.

(** Iterator::enumerate. *)
Definition enumerate {A} (l : list A) : list (nat * A) := combine (seq 0 (length l)) l.
Definition nonempty (l : list (list nat)) : list (nat * list nat) := filter (fun p => negb (is_nil (snd p))) (enumerate l).
(** num_neighborhoods, query.rs:199-203; nonempty_neighborhood_indices, 206-215; neighborhood_sizes, 218-223. *)
Definition num_neighborhoods (t : query_topo) : nat := length (filter (fun x => negb (is_nil x)) (trivial_neighborhood t)).
Definition by_type (t : query_topo) : list (list nat) :=
  match sb_type (q_base t) with SVertex => extended_neighborhood t | SFace => trivial_neighborhood t end.
Definition nonempty_neighborhood_indices (t : query_topo) : list nat := map fst (nonempty (by_type t)).
Definition neighborhood_sizes (t : query_topo) : list nat := map (@length nat) (by_type t).
(** neighborhood_vertex_indices, query.rs:226-249 (a set, in any order); indexing may panic. *)
Definition corners_of (topo : list triangle) (l : list nat) : option (list nat) :=
  option_map (@concat nat) (all_some (map (fun j => option_map tri_verts (nth_error topo j)) l)).
Definition neighborhood_vertex_indices (t : query_topo) : option (list nat) :=
  let indices := concat (trivial_neighborhood t) in
  match sb_type (q_base t) with SVertex => Some (btree_set indices) | SFace => option_map btree_set (corners_of (sb_topo (q_base t)) indices) end.

(** Index lists of the Jacobian in the query points, jacobian.rs:10-12, 117-122, 137-140. *)
Definition num_query_jacobian_entries (t : query_topo) : nat := num_neighborhoods t * 3.
Definition query_jacobian_block_indices (t : query_topo) : list (nat * nat) := map (fun p => (fst p, fst p)) (nonempty (trivial_neighborhood t)).
Definition scalar_indices (l : list (nat * nat)) : list (nat * nat) := flat_map (fun p => map (fun j => (fst p, 3 * snd p + j)%nat) [0; 1; 2]%nat) l.
Definition query_jacobian_indices (t : query_topo) : list (nat * nat) := scalar_indices (query_jacobian_block_indices t).
(** Index lists of the Jacobian in the surface vertices, jacobian.rs:325-342, 430-463. *)
Definition total_size (l : list (list nat)) : nat := list_sum (map (@length nat) l).
Definition per_sample (t : sample_type) : nat := match t with SVertex => 1 | SFace => 3 end.
Definition num_surface_jacobian_entries (t : query_topo) : nat := total_size (by_type t) * 3 * per_sample (sb_type (q_base t)).
Definition rows_of (f : nat -> option (list nat)) (l : list (nat * list nat)) : option (list (nat * nat)) :=
  option_map (@concat (nat * nat)) (all_some (map (fun p =>
    option_map (fun cols => map (fun c => (fst p, c)) (concat cols)) (all_some (map f (snd p)))) l)).
Definition columns (b : base) (j : nat) : option (list nat) :=
  match sb_type b with SVertex => Some [j] | SFace => option_map tri_verts (nth_error (sb_topo b) j) end.
Definition surface_jacobian_block_indices (t : query_topo) : option (list (nat * nat)) :=
  rows_of (columns (q_base t)) (nonempty (by_type t)).
Definition surface_jacobian_indices (t : query_topo) : option (list (nat * nat)) := option_map scalar_indices (surface_jacobian_block_indices t).
(** Index lists of the contact Jacobian, jacobian.rs:731-733, 744-749, 787-821. *)
Definition num_contact_jacobian_matrices (t : query_topo) : nat := total_size (trivial_neighborhood t) * per_sample (sb_type (q_base t)).
Definition num_contact_jacobian_entries (t : query_topo) : nat := num_contact_jacobian_matrices t * 9.
Definition contact_jacobian_matrix_indices (t : query_topo) : option (list (nat * nat)) :=
  rows_of (columns (q_base t)) (nonempty (trivial_neighborhood t)).
Definition matrix_indices (l : list (nat * nat)) : list (nat * nat) :=
  flat_map (fun p => flat_map (fun j => map (fun i => (3 * fst p + j, 3 * snd p + i)%nat) [0; 1; 2]%nat) [0; 1; 2]%nat) l.
Definition contact_jacobian_indices (t : query_topo) : option (list (nat * nat)) := option_map matrix_indices (contact_jacobian_matrix_indices t).

(** Slice::chunks (and rayon's [par_chunks]): consecutive pieces of [n] elements, the last one shorter; zero panics. *)
Fixpoint chunks_fuel {A} (fuel n : nat) (l : list A) : list (list A) :=
  match fuel, l with
  | _, [] => []
  | O, _ => []
  | S f, _ => firstn n l :: chunks_fuel f n (skipn n l)
  end.
Definition chunks {A} (n : nat) (l : list A) : option (list (list A)) :=
  match n with O => None | _ => Some (chunks_fuel (length l) n l) end.
(** query_jacobian_indexed_block_par_chunks_impl, jacobian.rs:176-239: the rows and neighbourhoods given to each of [ws]
    workspaces (the block computed from them is a function of them); a global surface panics, and no workspace at all divides by zero. *)
Definition chunk_size (len ws : nat) : nat := Nat.div (len + ws - 1) ws.
Definition chunk_rows {A} (size : nat) (ws : nat) (qs : list A) (ns : list (list nat)) : option (list (list (nat * (A * list nat)))) :=
  match chunks size qs, chunks size ns with
  | Some qc, Some nc =>
      Some (map (fun p => map (fun x => (fst p * size + fst x, snd x)%nat)
                   (filter (fun x => negb (is_nil (snd (snd x)))) (enumerate (combine (fst (snd p)) (snd (snd p))))))
              (firstn ws (enumerate (combine qc nc))))
  | _, _ => None
  end.
Definition query_jacobian_chunks (t : query_topo) (qs : list v3) (ws : nat) : option (list (list (nat * (v3 * list nat)))) :=
  match t, ws with
  | QGlobal _ _ _ _, _ | _, O => None
  | QLocal _ n, _ => chunk_rows (chunk_size (length qs) ws) ws qs (n_trivial n)
  end.
(** split_range_into_chunks, query.rs:1010-1035 (unused); [start <= end], a zero chunk size divides by zero. *)
Definition split_range_into_chunks (start fin chunk : nat) : option (list (nat * nat)) :=
  match chunk with
  | O => None
  | _ =>
      let len := (fin - start)%nat in
      let uniform := Nat.div len chunk in
      let ranges := map (fun i => (i * chunk + start, (i + 1) * chunk + start)%nat) (seq 0 uniform) in
      Some (if Nat.ltb (length ranges * chunk) len then ranges ++ [(uniform * chunk + start, fin)%nat] else ranges)
  end.
