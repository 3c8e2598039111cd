(** Contact Jacobian and contact frames:
    /repo/softy/src/constraints/penalty_point_contact.rs:353-385 (MappedContactJacobian) and /repo/softy/src/contact.rs. *)
From Coq Require Import Reals List Arith.
From Verif Require Import Vec3 Mat3 FrictionModel.
Import ListNotations.
Local Open Scope R_scope.

(** Indexing [Chunked3<&[T]>]; out of range panics in the code, theorems assume indices in range. *)
Definition at3 (l : list v3) (i : nat) : v3 := nth i l v3_0.
(** [v\[i\] = w]. *)
Fixpoint set_at (l : list v3) (i : nat) (w : v3) : list v3 :=
  match l, i with
  | [], _ => []
  | _ :: l', O => w :: l'
  | x :: l', S i' => x :: set_at l' i' w
  end.
Definition v3_sum (l : list v3) : v3 := fold_right v3_add v3_0 l.

(** The sparse block matrix [matrix: ContactJacobian<T>] as the list of its blocks (row, column, block);
    products are those of the external tensr crate. *)
Definition block := (nat * nat * m3)%type.
Definition sparse_mul (m : list block) (num_rows : nat) (x : list v3) : list v3 :=
  map (fun r => v3_sum (map (fun b => match b with (i, j, B) => if Nat.eqb i r then m3_mulv B (at3 x j) else v3_0 end) m))
      (seq 0 num_rows).
Definition sparse_tmul (m : list block) (num_cols : nat) (x : list v3) : list v3 :=
  map (fun c => v3_sum (map (fun b => match b with (i, j, B) => if Nat.eqb j c then m3_mulv (m3_transpose B) (at3 x i) else v3_0 end) m))
      (seq 0 num_cols).

(** The arguments shared by [mul] and [transpose_mul]. *)
Record contact_maps := {
  cm_matrix : list block;
  cm_constrained : list nat;   (* constrained_collider_vertices *)
  cm_surface : list nat;       (* implicit_surface_vertex_indices *)
  cm_collider : list nat       (* collider_vertex_indices *)
}.
(** MappedContactJacobian::mul, penalty_point_contact.rs:353-367. *)
Definition contact_mul (c : contact_maps) (v : list v3) : list v3 :=
  let surf_v := map (at3 v) (cm_surface c) in
  let vc := sparse_mul (cm_matrix c) (length (cm_constrained c)) surf_v in
  let col_v := map (at3 v) (cm_collider c) in
  map (fun p => v3_sub (fst p) (snd p)) (combine vc (map (at3 col_v) (cm_constrained c))).
(** MappedContactJacobian::transpose_mul, penalty_point_contact.rs:369-385; the two loops assign. *)
Definition contact_tmul (c : contact_maps) (vc : list v3) (num_vertices : nat) : list v3 :=
  let surf_v := sparse_tmul (cm_matrix c) (length (cm_surface c)) vc in
  let v := repeat v3_0 num_vertices in
  let v := fold_left (fun v p => set_at v (fst p) (snd p)) (combine (cm_surface c) surf_v) v in
  fold_left (fun v p => set_at v (nth (fst p) (cm_collider c) O) (v3_neg (snd p))) (combine (cm_constrained c) vc) v.

(** ** Contact frames, contact.rs *)
Record frame := { fr_normal : v3; fr_tangent : v3 }.
(** contact_basis_matrix, contact.rs:209-215. *)
Definition contact_basis_matrix (f : frame) : m3 :=
  M3 (fr_normal f) (fr_tangent f) (v3_cross (fr_normal f) (fr_tangent f)).
(** to_contact_coordinates, 219-227; from_contact_coordinates, 239-244. *)
Definition to_contact_coordinates (f : frame) (v : v3) : v3 := m3_mulv (contact_basis_matrix f) v.
Definition from_contact_coordinates (f : frame) (v : v3) : v3 := m3_mulv (m3_transpose (contact_basis_matrix f)) v.
(** to_tangent_space, 248-256; from_tangent_space, 259-267; normal space, 270-282 (one contact). *)
Definition to_tangent_space (f : frame) (v : v3) : v2 := let c := to_contact_coordinates f v in V2 (vy c) (vz c).
Definition from_tangent_space (f : frame) (v : v2) : v3 := from_contact_coordinates f (V3 0 (v2x v) (v2y v)).
Definition to_normal_space (f : frame) (v : v3) : R := vx (to_contact_coordinates f v).
Definition from_normal_space (f : frame) (x : R) : v3 := from_contact_coordinates f (V3 x 0 0).
(** project_out_normal_component, 470-483. *)
Definition project_out_normal (n v : v3) : v3 := v3_sub v (v3_scale (v3_dot n v) n).

(** Component and unit axis by index. *)
Definition v3_get (v : v3) (i : nat) : R := match i with O => vx v | 1%nat => vy v | _ => vz v end.
Definition axis (i : nat) : v3 := match i with O => V3 1 0 0 | 1%nat => V3 0 1 0 | _ => V3 0 0 1 end.
(** update_from_normals, 429-445, for one normal: [imax] is the result of tensr's [iamax] (an index of a component of largest
    absolute value; ties are left open and theorems hold for every choice). *)
Definition tangent_from_normal (n : v3) (imax : nat) : v3 :=
  let a := Nat.modulo (imax + 1) 3 in
  let t := v3_sub (axis a) (v3_scale (v3_get n a) n) in
  v3_scale (/ v3_norm t) t.
Definition frame_from_normal (n : v3) (imax : nat) : frame := {| fr_normal := n; fr_tangent := tangent_from_normal n imax |}.

(** Scalar triplets (row, column, value) and the product of the matrix they build ([sprs::TriMat] sums duplicates). *)
Definition triplet := (nat * nat * R)%type.
Definition triplets_row (m : list triplet) (x : nat -> R) (r : nat) : R :=
  fold_right Rplus 0 (map (fun t => match t with (i, j, a) => if Nat.eqb i r then a * x j else 0 end) m).
(** normal_basis_matrix_sprs, 300-328: triplets of contact number [k]. *)
Definition normal_basis_triplets (k : nat) (f : frame) : list triplet :=
  let n := fr_normal f in [((0 + 3 * k)%nat, k, vx n); ((1 + 3 * k)%nat, k, vy n); ((2 + 3 * k)%nat, k, vz n)].
(** tangent_basis_matrix_sprs, 330-359: stencil rows [[0,0,1],[1,2,2]], columns [[0,1,0],[1,0,1]], values [t; b] flattened. *)
Definition tangent_basis_triplets (k : nat) (f : frame) : list triplet :=
  let t := r1 (contact_basis_matrix f) in let b := r2 (contact_basis_matrix f) in
  [((0 + 3 * k)%nat, (0 + 2 * k)%nat, vx t); ((0 + 3 * k)%nat, (1 + 2 * k)%nat, vy t); ((1 + 3 * k)%nat, (0 + 2 * k)%nat, vz t);
   ((1 + 3 * k)%nat, (1 + 2 * k)%nat, vx b); ((2 + 3 * k)%nat, (0 + 2 * k)%nat, vy b); ((2 + 3 * k)%nat, (1 + 2 * k)%nat, vz b)].
Fixpoint all_triplets (g : nat -> frame -> list triplet) (k : nat) (fs : list frame) : list triplet :=
  match fs with [] => [] | f :: fs' => g k f ++ all_triplets g (S k) fs' end.
(** tangent_basis_matrix, 406-425: the 3x2 diagonal block of one contact, applied to a 2-vector. *)
Definition tangent_block_mul (f : frame) (v : v2) : v3 :=
  let t := r1 (contact_basis_matrix f) in let b := r2 (contact_basis_matrix f) in
  V3 (vx t * v2x v + vx b * v2y v) (vy t * v2x v + vy b * v2y v) (vz t * v2x v + vz b * v2y v).

(** ** Friction force on vertices *)
(** compute_constraint_friction_force, penalty_point_contact.rs:2401-2441, followed by the rotation back and negation and the
    transposed Jacobian, compute_friction_force, 2494-2543.  [lambda] and the frames are those of the contact state. *)
Definition contact_friction (k : profile_kind) (fp : friction_params) (p : v3 * (R * frame)) : v3 :=
  match p with (vc, (lambda, f)) =>
    let c := to_contact_coordinates f vc in
    let fc := friction_profile k (V2 (vy c) (vz c)) lambda fp in
    from_contact_coordinates f (v3_scale (- 1) (V3 0 (v2x fc) (v2y fc)))
  end.
Definition friction_force (k : profile_kind) (fp : friction_params) (c : contact_maps) (lambda : list R) (frames : list frame)
    (v : list v3) : list v3 :=
  let vc := contact_mul c v in
  let fc := map (contact_friction k fp) (combine vc (combine lambda frames)) in
  contact_tmul c fc (length v).
