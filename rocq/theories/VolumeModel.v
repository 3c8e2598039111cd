(** Volume constraints: /repo/softy/src/constraints/volume_change_penalty.rs (VolumeChangePenalty, used by the solver) and volume.rs
    (VolumeConstraint), over exact reals.  Positions are a function of the vertex index; indices are assumed in range.
    [Tetrahedron::signed_volume] (external crate meshx) is taken to be a sixth of the determinant of the shape matrix
    [v0 - v3; v1 - v3; v2 - v3]. *)
From Coq Require Import Reals List Arith Bool.
From Verif Require Import Vec3 Mat3 RList ElasticModel MassModel.
Import ListNotations.
Local Open Scope R_scope.

(** One triangle of surface_topo and [tri[i]]. *)
Record tri := Tri { ta : nat; tb : nat; tc : nat }.
Definition tri_ix (t : tri) (i : nat) : nat := match i with O => ta t | 1%nat => tb t | _ => tc t end.
Definition pick {A} (a b c : A) (i : nat) : A := match i with O => a | 1%nat => b | _ => c end.
Definition get3 (v : v3) (j : nat) : R := pick (vx v) (vy v) (vz v) j.
(** The fields of VolumeChangePenalty, l.17-43. *)
Record zone := Zone { topo : list tri; rest_volume : R; pressurization : R; compression : R; hessian_approximation : bool }.
(** PRESSURE_ATM, l.15. *)
Definition pressure_atm : R := 101325.
(** [p[0].dot(p[1].cross(p[2]))] with [p = tri_at(pos, tri)], l.203-208; volume.rs:121-123. *)
Definition tri_det (pos : nat -> v3) (t : tri) : R := v3_dot (pos (ta t)) (v3_cross (pos (tb t)) (pos (tc t))).
(** compute_signed_volume_from_topo, l.201-210. *)
Definition signed_volume (ts : list tri) (pos : nat -> v3) : R := rsum (map (tri_det pos) ts) / 6.
(** [dv], l.235, 342 and 429. *)
Definition volume_change (z : zone) (pos : nat -> v3) : R := signed_volume (topo z) pos / (pressurization z * rest_volume z) - 1.
(** compute_penalty, l.226-238. *)
Definition volume_penalty (z : zone) (pos : nat -> v3) : R :=
  let dv := volume_change z pos in let dv2 := dv * dv in
  pressure_atm * rest_volume z * (dv2 * pressurization z / (compression z * 2) + 1).
(** penalty_jacobian_size, l.258-260. *)
Definition vol_jacobian_size (z : zone) : nat := (3 * 3 * length (topo z))%nat.
(** penalty_jacobian_indices_iter, l.315-327: the columns. *)
Definition vol_jacobian_cols (z : zone) : list nat :=
  flat_map (fun t => flat_map (fun vi => map (fun j => (3 * tri_ix t vi + j)%nat) (seq 0 3)) (seq 0 3)) (topo z).
(** [c], l.347 and l.435. *)
Definition corner_grad (pos : nat -> v3) (t : tri) (vi : nat) : v3 :=
  pick (v3_cross (pos (tb t)) (pos (tc t))) (v3_cross (pos (tc t)) (pos (ta t))) (v3_cross (pos (ta t)) (pos (tb t))) vi.
(** penalty_jacobian_values_iter, l.330-353. *)
Definition vol_jacobian_values (z : zone) (pos : nat -> v3) : list R :=
  let factor := pressure_atm * volume_change z pos / (compression z * 6) in
  flat_map (fun t => flat_map (fun vi => map (fun j => get3 (corner_grad pos t vi) j * factor) (seq 0 3)) (seq 0 3)) (topo z).
(** subtract_pressure_force, l.245-255; [None] is an index out of range. *)
Fixpoint add_at_cols (cvs : list (nat * R)) (f : list R) : option (list R) :=
  match cvs with [] => Some f | (c, v) :: r => bind (upd_at f c (fun a => a + v)) (add_at_cols r) end.
Definition subtract_pressure_force (z : zone) (pos : nat -> v3) (f : list R) : option (list R) :=
  add_at_cols (combine (vol_jacobian_cols z) (vol_jacobian_values z pos)) f.
(** penalty_hessian_size, l.277-284. *)
Definition vol_hessian_size (z : zone) : nat :=
  (6 * 2 * 3 * length (topo z) + if hessian_approximation z then 0 else vol_jacobian_size z * vol_jacobian_size z)%nat.
(** skew, l.363-369. *)
Definition skew (x : v3) : m3 := M3 (V3 0 (vz x) (- vy x)) (V3 (- vz x) 0 (vx x)) (V3 (vy x) (- vx x) 0).
(** penalty_hessian_iter, l.375-393: [(vi, off, c, r)]; the vertices are [tri[(vi + off) % 3]] and [tri[vi]]. *)
Definition vol_hessian_iter : list (nat * nat * nat * nat) :=
  flat_map (fun vi => flat_map (fun off => flat_map (fun c => map (fun r => (vi, off, c, r)) (filter (fun r => negb (Nat.eqb r c)) (seq 0 3))) (seq 0 3)) (seq 1 2)) (seq 0 3).
(** penalty_hessian_indices_iter, l.395-421. *)
Definition vol_local_index (t : tri) (q : nat * nat * nat * nat) : nat * nat :=
  let '(vi, off, c, r) := q in ((3 * tri_ix t (Nat.modulo (vi + off) 3) + r)%nat, (3 * tri_ix t vi + c)%nat).
Definition vol_outer_indices (t t' : tri) : list (nat * nat) :=
  flat_map (fun vi => flat_map (fun vj => flat_map (fun i => map (fun j => ((3 * tri_ix t vi + i)%nat, (3 * tri_ix t' vj + j)%nat)) (seq 0 3)) (seq 0 3)) (seq 0 3)) (seq 0 3).
Definition vol_hessian_indices (z : zone) : list (nat * nat) :=
  flat_map (fun t => map (vol_local_index t) vol_hessian_iter ++ if hessian_approximation z then [] else flat_map (vol_outer_indices t) (topo z)) (topo z).
(** penalty_hessian_values_iter, l.423-467, with [lambda[0]]. *)
Definition vol_local_value (pos : nat -> v3) (t : tri) (factor lambda dv : R) (q : nat * nat * nat * nat) : R :=
  let '(vi, off, c, r) := q in
  (if Nat.eqb off 1 then factor else - factor) * lambda * m3_get (skew (pos (tri_ix t (Nat.modulo (vi + off + off) 3)))) c r * dv.
Definition vol_outer_values (z : zone) (pos : nat -> v3) (factor lambda : R) (t t' : tri) : list R :=
  flat_map (fun vi => flat_map (fun vj => flat_map (fun i => map (fun j =>
    get3 (corner_grad pos t vi) i * get3 (corner_grad pos t' vj) j * lambda * factor / (pressurization z * rest_volume z * 6)) (seq 0 3)) (seq 0 3)) (seq 0 3)) (seq 0 3).
Definition vol_hessian_values (z : zone) (pos : nat -> v3) (lambda : R) : list R :=
  let dv := volume_change z pos in let factor := pressure_atm / (compression z * 6) in
  flat_map (fun t => map (vol_local_value pos t factor lambda dv) vol_hessian_iter ++
    if hessian_approximation z then [] else flat_map (vol_outer_values z pos factor lambda t) (topo z)) (topo z).

(** * Rest volume *)
Definition tet_signed_volume (a b c d : v3) : R := m3_det (M3 (v3_sub a d) (v3_sub b d) (v3_sub c d)) / 6.
(** A cell: the corners' vertex indices, its zone, whether its material is a solid or a shell, and its shape. *)
Inductive zcell := TetCell (a b c d : nat) (zid : nat) | TriCell (a b c : nat) (zid : nat) | OtherCell (corners : nat).
Definition num_corners (c : zcell) : nat := match c with TetCell _ _ _ _ _ => 4 | TriCell _ _ _ _ => 3 | OtherCell k => k end.
(** VolumeChangePenalty::try_from_mesh, l.100-141: the reference positions are stored per cell corner and [first] is the index of the
    cell's first corner ([mesh.cell_vertex(cell_idx, i)]). *)
Fixpoint penalty_rest_volume (z : nat) (ref_pos pos : nat -> v3) (first : nat) (cs : list zcell) : R :=
  match cs with
  | [] => 0
  | c :: r =>
    match c with
    | TetCell a b c' d zid => if Nat.eqb zid z then tet_signed_volume (ref_pos first) (ref_pos (first + 1)%nat) (ref_pos (first + 2)%nat) (ref_pos (first + 3)%nat) else 0
    | TriCell a b c' zid => if Nat.eqb zid z then - tet_signed_volume v3_0 (pos a) (pos b) (pos c') else 0
    | OtherCell _ => 0
    end + penalty_rest_volume z ref_pos pos (first + num_corners c) r
  end.
(** VolumeConstraint::try_from_mesh, volume.rs:76-88: the same array indexed by the vertex indices of the cell. *)
Definition constraint_rest_volume (z : nat) (ref_pos : nat -> v3) (cs : list zcell) : R :=
  rsum (map (fun c => match c with TetCell a b c' d zid => if Nat.eqb zid z then tet_signed_volume (ref_pos a) (ref_pos b) (ref_pos c') (ref_pos d) else 0 | _ => 0 end) cs).
(** VolumeConstraint::constraint, volume.rs:117-127. *)
Definition volume_constraint (ts : list tri) (rest : R) (pos : nat -> v3) : R := rsum (map (tri_det pos) ts) - 6 * rest.
