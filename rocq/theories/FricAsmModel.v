(** Friction assembled over the vertices of the simulated mesh: potential, force and Jacobian,
    /repo/softy/src/constraints/penalty_point_contact.rs:487-548, 1350-1354, 1842-1999, 2248-2289, 2335-2346, 2401-2549 and 2724-3420.

    Exact reals.  [None] is a panic (an index out of range, a failed assertion, an [unwrap]) or an unsupported kind of sample.  The
    product of sparse block matrices, their transposes and their products with block diagonal matrices are tensr's: the blocks of a
    product are built like those of any assembled matrix (ContactAsmModel), blocks of equal place being added.  The columns of the
    distance Jacobian are the rows of the distance gradient.  [iamax] is tensr's index of a component of largest absolute value, [ord]
    the order in which a hash set lists its members (ContactDerivModel).  Timings and debug output are left out. *)
From Coq Require Import Reals List Bool.
From Verif Require Import Vec3 Mat3 RList KernelModel FieldModel NeighborModel FrictionModel ContactModel ContactJacModel ContactMapModel AssemblyModel ContactAsmModel
  HessModel ContactDerivModel BasisJacModel ContactHessModel.
Import ListNotations.
Local Open Scope R_scope.

(** The blocks stored in a matrix, with their places. *)
Definition entries {A} (m : mapped A) : list (nat * nat * A) := combine (mp_pattern m) (mp_blocks m).
Definition supported {A} (o : outcome (option A)) : option A := match o with Unsupported => None | Result r => r end.

(** FrictionParams, 1443-1462: the profile, its coefficients and the two switches. *)
Record friction_options := FrictionOptions { fo_profile : profile_kind; fo_params : friction_params; fo_lagged : bool; fo_incomplete : bool }.

(** What friction reads of a ContactState (1090-1130) and of the constraint (jac_contact_jacobian, jac_contact_gradient and
    collider_vertex_constraints, 1542-1553); only the places of the blocks of jac_contact_gradient are read later. *)
Record friction_state := FrictionState {
  fs_contact : contact; fs_active : list nat; fs_constraints : list (option nat);
  fs_jacobian : mapped m3; fs_gradient : mapped m3; fs_jac_jacobian : mapped m3; fs_jac_gradient : list pos;
  fs_distance : mapped v3; fs_dist : list R; fs_lambda : list R; fs_frames : list frame }.

(** query_jacobian_full, /repo/implicits/src/field/jacobian.rs:95-102: the gradient at every query point. *)
Definition query_gradients (t : query_topo) (qs : list v3) : option (list v3) :=
  all_some (map (fun p => let '(q, (nbrs, cl)) := p in query_jacobian_at q (sb_samples (q_base t)) nbrs (Some cl) (q_kernel t) (sb_bg (q_base t)))
    (combine qs (combine (trivial_neighborhood t) (closest_samples t)))).
(** update_contact_basis, 1350-1354: the gradients at the query points that have neighbours, normalised and completed. *)
Definition contact_frames (iamax : v3 -> nat) (c : contact) (lambda : list R) : option (list frame) :=
  match query_jacobian_triplets (ct_topo c) (ct_points c) with
  | None => None
  | Some L => if Nat.eqb (length L) (length lambda) then Some (map (fun e => contact_frame iamax (snd e)) L) else None
  end.

(** build_contact_jacobian_gradient_product, 2724-2773. *)
Definition jac_jacobian_triplets (ord : list nat -> list nat) (c : contact) (constraints : list (option nat)) (mults : list v3) (n : nat) : option (list (pos * m3)) :=
  match supported (contact_jacobian_jacobian ord (ct_topo c) (ct_points c) mults), supported (contact_query_jacobian_jacobian (ct_topo c) (ct_points c) mults) with
  | Some a, Some b =>
      let columns vertices L := all_some (map (fun e => let '(row, col, M) := e in option_map (fun v => (row, v, M)) (nth_error vertices col)) L) in
      match columns (ct_surface c) a, columns (ct_collider c) b with
      | Some a', Some b' =>
          option_map (@concat _) (all_some (map (fun e => let '(row, col, M) := e in
              match nth_error constraints row with None => None | Some None => Some [] | Some (Some k) => Some [((col, k), M)] end)
            (filter (fun e : nat * nat * m3 => Nat.ltb (snd (fst e)) n) (a' ++ b'))))
      | _, _ => None
      end
  | _, _ => None
  end.
(** build_contact_jacobian_jacobian_product, 2780-2825. *)
Definition jac_gradient_triplets (ord : list nat -> list nat) (c : contact) (mults : list v3) (n : nat) : option (list (pos * m3)) :=
  match supported (contact_hessian ord (ct_topo c) (ct_points c) mults), supported (contact_query_hessian (ct_topo c) (ct_points c) mults) with
  | Some a, Some b =>
      match relabel (ct_surface c) (ct_surface c) a, relabel (ct_surface c) (ct_collider c) b with
      | Some a', Some b' =>
          Some (map (fun e => let '(row, col, M) := e in ((row, col), m3_transpose M))
            (filter (fun e : nat * nat * m3 => andb (Nat.ltb (fst (fst e)) n) (Nat.ltb (snd (fst e)) n)) (a' ++ b')))
      | _, _ => None
      end
  | _, _ => None
  end.

(** precompute_contact_jacobian with [and_hessian], 1842-1929, and the updates that follow it in [new] (1666-1670) and
    update_neighbors (2027-2033); [n] is the number of all vertices. *)
Definition precompute_friction (iamax : v3 -> nat) (ord : list nat -> list nat) (c : contact) (n : nat) : option friction_state :=
  let t := ct_topo c in let qs := ct_points c in
  let active := nonempty_neighborhood_indices t in
  match reverse_map (length qs) active, build_jacobian t qs active, build_gradient t qs active (ct_surface c) (ct_collider c) n with
  | Some constraints, Some J, Some G =>
      match jac_jacobian_triplets ord c constraints (repeat v3_0 n) n, jac_gradient_triplets ord c (repeat v3_0 (length active)) n,
            distance_potential c, contact_multipliers c, reset_distance_gradient c n with
      | Some JJ, Some JG, Some dist, Some lambda, Some D =>
          option_map (FrictionState c active constraints J G (from_triplets m3_add m3_zero (fun _ => true) JJ) (map fst JG) D dist lambda)
            (contact_frames iamax c lambda)
      | _, _, _, _, _ => None
      end
  | _, _, _ => None
  end.
(** The state after the positions have changed: update_distance_potential, update_constraint_gradient, update_multipliers and
    update_sliding_basis with [and_gradient] (2445-2487), as in /repo/softy/src/fem/nl/problem.rs:2877-2886. *)
Definition refresh_friction (iamax : v3 -> nat) (s : friction_state) (c : contact) (n : nat) : option friction_state :=
  let t := ct_topo c in let qs := ct_points c in
  match update_jacobian (fs_jacobian s) t qs (fs_active s),
        update_gradient (fs_gradient s) t qs (fs_active s) (fs_constraints s) (ct_surface c) (ct_collider c) n,
        update_constraint_gradient (fs_distance s) c, distance_potential c, contact_multipliers c with
  | Some J, Some G, Some D, Some dist, Some lambda =>
      option_map (FrictionState c (fs_active s) (fs_constraints s) J G (fs_jac_jacobian s) (fs_jac_gradient s) D dist lambda) (contact_frames iamax c lambda)
  | _, _, _, _, _ => None
  end.
Definition friction_maps (s : friction_state) : contact_maps :=
  {| cm_matrix := entries (fs_jacobian s); cm_constrained := fs_active s; cm_surface := ct_surface (fs_contact s); cm_collider := ct_collider (fs_contact s) |}.

(** lagged_friction_potential, 2248-2289. *)
Definition friction_energy (o : friction_options) (s : friction_state) (v : list v3) (dqdv : R) : R :=
  rsum (map (fun p => let '(vc, (lambda, f)) := p in
      friction_potential (fo_profile o) (to_tangent_space f vc) lambda (fo_params o))
    (combine (contact_mul (friction_maps s) v) (combine (fs_lambda s) (fs_frames s)))) * dqdv.
(** compute_friction_force, 2494-2543, and subtract_friction_force, 2335-2346. *)
Definition compute_friction_force (o : friction_options) (s : friction_state) (v : list v3) : list v3 :=
  friction_force (fo_profile o) (fo_params o) (friction_maps s) (fs_lambda s) (fs_frames s) v.
Definition subtract_friction_force (o : option friction_options) (prev cur : friction_state) (f v : list v3) (lagged : bool) : option (list v3) :=
  match o with
  | None => Some f
  | Some o =>
      if Nat.eqb (length f) (length v) then
        Some (map (fun p => v3_sub (fst p) (snd p)) (combine f (compute_friction_force o (if orb lagged (fo_lagged o) then prev else cur) v)))
      else None
  end.

(** ** The Jacobian *)
(** compute_constraint_friction_force, 2401-2441, for one contact. *)
Definition contact_space_friction (k : profile_kind) (fp : friction_params) (p : v3 * (R * frame)) : v3 :=
  let '(vc, (lambda, f)) := p in let c := friction_profile k (to_tangent_space f vc) lambda fp in V3 0 (v2x c) (v2y c).
(** A block of the matrix dH, 3044-3060; the entries of the 2x2 matrix are its products with the unit vectors. *)
Definition eta_block (k : profile_kind) (fp : friction_params) (p : v3 * (R * frame)) : m3 :=
  let '(vc, (lambda, f)) := p in
  let c0 := friction_jacobian_mul k (to_tangent_space f vc) lambda fp (V2 1 0) in
  let c1 := friction_jacobian_mul k (to_tangent_space f vc) lambda fp (V2 0 1) in
  M3 v3_0 (V3 0 (v2x c0) (v2x c1)) (V3 0 (v2y c0) (v2y c1)).
(** full_basis_matrix and full_basis_matrix_transpose, contact.rs:361-387. *)
Definition full_basis (frames : list frame) : list m3 := map (fun f => m3_transpose (contact_basis_matrix f)) frames.
Definition full_basis_transpose (frames : list frame) : list m3 := map contact_basis_matrix frames.
(** premultiply_block_diagonal_mtx, the transpose and the product of sparse block matrices (tensr). *)
Definition premultiply (D : list m3) (L : list (nat * nat * m3)) : list (nat * nat * m3) :=
  map (fun e => let '(row, col, B) := e in (row, col, m3_mul (nth row D m3_zero) B)) L.
Definition transposed (L : list (nat * nat * m3)) : list (nat * nat * m3) := map (fun e => let '(row, col, B) := e in ((col, row), m3_transpose B)) L.
Definition product_terms (L M : list (nat * nat * m3)) : list (nat * nat * m3) :=
  flat_map (fun a => map (fun b => (fst (fst a), snd (fst b), m3_mul (snd a) (snd b))) (filter (fun b => Nat.eqb (snd (fst a)) (fst (fst b))) M)) L.
Definition matrix_product (L M : list (nat * nat * m3)) : list (nat * nat * m3) := entries (from_triplets m3_add m3_zero (fun _ => true) (product_terms L M)).

(** The loop over a row and a column that are sorted by constraint, 2875-2906: the left iterator is advanced past smaller constraints. *)
Fixpoint merge_rows {A B} (l : list (nat * A)) : list (nat * B) -> list (nat * (A * B)) :=
  match l with
  | [] => fun _ => []
  | (i, a) :: l' =>
      fix scan (r : list (nat * B)) : list (nat * (A * B)) :=
        match r with
        | [] => []
        | (j, b) :: r' => match Nat.compare j i with Lt => scan r' | Gt => merge_rows l' r | Eq => (i, (a, b)) :: merge_rows l' r' end
        end
  end.
Definition rows_of {A} (m : mapped A) : list nat := unseen [] (map fst (mp_pattern m)).
Definition row_of {A} (m : mapped A) (row : nat) : list (nat * A) :=
  map (fun e => (snd (fst e), snd e)) (filter (fun e => Nat.eqb (fst (fst e)) row) (entries m)).
(** contact_constraint_jac_product_map, 2831-2912; [vcs] are the relative velocities. *)
Definition lambda_product (o : friction_options) (s : friction_state) (vcs : list v3) (n : nat) (dqdv : R) : list (nat * nat * m3) :=
  let c := fs_contact s in
  let ys := map (fun p => let c := friction_profile (fo_profile o) (to_tangent_space (snd p) (fst p)) 1 (fo_params o) in from_contact_coordinates (snd p) (V3 0 (v2x c) (v2y c)))
    (combine vcs (fs_frames s)) in
  flat_map (fun row => flat_map (fun col =>
      map (fun e => let '(j, (lhs, rhs)) := e in
          (row, col, m3_mul lhs (m3_outer (nth j ys v3_0) (v3_scale (- dqdv * ct_kappa c * penalty_ddb (ct_delta c) (nth j (fs_dist s) 0)) rhs))))
        (merge_rows (row_of (fs_gradient s) row) (row_of (fs_distance s) col)))
    (filter (fun v => Nat.ltb v n) (rows_of (fs_distance s)))) (filter (fun v => Nat.ltb v n) (rows_of (fs_gradient s))).
Definition scaled (a : R) (L : list (nat * nat * m3)) : list (nat * nat * m3) := map (fun e => (fst e, m3_scale a (snd e))) L.
(** The second derivatives of the implicit function that contact_basis_matrix_jacobian_product reads, 2569-2589. *)
Definition basis_gradient (iamax : v3 -> nat) (s : friction_state) (mults : list v3) (transpose : bool) (n : nat) : option (mapped m3) :=
  let c := fs_contact s in let t := ct_topo c in let qs := ct_points c in
  match query_gradients t qs, query_hessian_blocks t qs (repeat 1 (length (fs_constraints s))), supported (sample_query_hessian t qs None) with
  | Some grads, Some Q, Some L => basis_gradient_product iamax (fs_constraints s) (ct_surface c) (ct_collider c) (map fr_normal (fs_frames s)) grads mults transpose Q L n
  | _, _, _ => None
  end.
(** The blocks of friction_jacobian_indexed_value_iter, 2914-3420; [cur] is the current contact state, whose basis is used at 3163-3180. *)
Definition friction_jacobian_blocks (iamax : v3 -> nat) (ord : list nat -> list nat) (o : friction_options) (prev cur : friction_state) (v : list v3) (dqdv : R) (m : nat)
    : option (list (nat * nat * m3)) :=
  let s := if fo_lagged o then prev else cur in
  let c := fs_contact s in
  let vcs := contact_mul (friction_maps s) v in
  let cs := map (contact_space_friction (fo_profile o) (fo_params o)) (combine vcs (combine (fs_lambda s) (fs_frames s))) in
  let dh := map (eta_block (fo_profile o) (fo_params o)) (combine vcs (combine (fs_lambda s) (fs_frames s))) in
  let b := full_basis (fs_frames s) in
  let bt := full_basis_transpose (fs_frames s) in
  let G := entries (fs_gradient s) in
  let E := matrix_product G (premultiply b (premultiply dh (premultiply bt (transposed G)))) in
  let within (e : nat * nat * m3) := andb (Nat.ltb (fst (fst e)) m) (Nat.ltb (snd (fst e)) m) in
  if fo_lagged o then Some (filter within E) else
  let FL := lambda_product o s vcs m dqdv in
  if fo_incomplete o then Some (filter within (FL ++ E)) else
  let bc := map (fun p => v3_scale dqdv (from_contact_coordinates (snd p) (fst p))) (combine cs (fs_frames cur)) in
  match jac_gradient_triplets ord c bc m, basis_gradient iamax s cs false m, basis_gradient iamax s vcs true m,
        match jac_jacobian_triplets ord c (fs_constraints s) (map (at3 v) (ct_surface c)) m with
        | None => None
        | Some T => update_values m3_add m3_zero (fs_jac_jacobian s) (map snd T)
        end with
  | Some A, Some jb, Some jbt, Some JJ =>
      let B := matrix_product G (transposed (entries jb)) in
      let C := matrix_product G (premultiply b (premultiply dh (transposed (entries jbt)))) in
      let D := matrix_product G (premultiply b (premultiply dh (premultiply bt (transposed (entries JJ))))) in
      Some (filter within (FL ++ combine (fs_jac_gradient s) (map snd A) ++ scaled dqdv B ++ scaled dqdv C ++ scaled dqdv D ++ E))
  | _, _, _, _ => None
  end.
(** The values, 3395-3420. *)
Definition friction_jacobian (iamax : v3 -> nat) (ord : list nat -> list nat) (o : friction_options) (prev cur : friction_state) (v : list v3) (dqdv : R) (m : nat)
    : option (list (nat * nat * R)) :=
  option_map (flat_map scalar_entries) (friction_jacobian_blocks iamax ord o prev cur v dqdv m).
