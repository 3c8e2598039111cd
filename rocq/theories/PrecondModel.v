(** The approximate Jacobi preconditioner of the problem with contacts and friction, compute_physical_preconditioner,
    /repo/softy/src/fem/nl/problem.rs:2125-2305, and the choice of a preconditioner, 2904-2916.

    Exact reals; a panic (an index out of range, a failed assertion) is [None].  A loop that adds to the entries of a slice is the list of
    its additions, in order. *)
From Coq Require Import Reals List Arith Bool.
From Verif Require Import Vec3 Mat3 RList ElasticModel NeighborModel FrictionModel ContactModel ContactJacModel ContactAsmModel ContactHessModel FricAsmModel ProblemModel FricProblemModel.
Import ListNotations.
Local Open Scope R_scope.

(** [precond[k] += a], one after the other. *)
Fixpoint add_entry (l : list R) (k : nat) (a : R) : option (list R) :=
  match l, k with
  | [], _ => None
  | x :: r, O => Some (x + a :: r)
  | x :: r, S k' => option_map (cons x) (add_entry r k' a)
  end.
Fixpoint add_entries (terms : list (nat * R)) (l : list R) : option (list R) :=
  match terms with [] => Some l | (k, a) :: r => bind (add_entry l k a) (add_entries r) end.

(** The diagonal blocks of the second derivatives, l.2163-2182. *)
Definition diagonal_terms (h : R) (m : nat) (b : nat * nat * m3) : list (nat * R) :=
  let '(row, col, A) := b in
  if andb (Nat.eqb row col) (Nat.ltb row m) then map (fun k => ((3 * row + k)%nat, - (h * h * m3_get A k k))) [0; 1; 2]%nat else [].
(** The diagonal of the distance gradient times its transpose, l.2184-2203. *)
Definition gradient_terms (h kappa delta : R) (dist : list R) (m : nat) (g : mapped v3) : option (list (nat * R)) :=
  option_map (@concat _) (all_some (map (fun row =>
      if Nat.ltb row m then
        option_map (@concat _) (all_some (map (fun e =>
            option_map (fun d => map (fun i => ((3 * row + i)%nat, kappa * h * h * penalty_ddb delta d * v3_get (snd e) i * v3_get (snd e) i)) [0; 1; 2]%nat)
              (nth_error dist (fst e)))
          (row_entries g row)))
      else Some [])
    (stored_rows g))).
(** One contact, l.2155-2204, with its cached distances and multipliers. *)
Definition contact_terms (p : problem) (cg : contact * mapped v3) : option (list (nat * R)) :=
  let (c, g) := cg in let h := dqdv p in let m := pb_active p in
  bind (distance_potential c) (fun pot => bind (contact_multipliers c) (fun lambda =>
  bind (object_hessian c lambda) (fun o => bind (collider_hessian c lambda) (fun cc =>
  bind (gradient_terms h (ct_kappa c) (ct_delta c) pot m g) (fun gt =>
    Some (flat_map (diagonal_terms h m) o ++ flat_map (diagonal_terms h m) cc ++ gt)))))).

(** [diag_block], l.2255-2269: the 2x2 matrix of the friction law, scaled, in the basis of the contact. *)
Definition diagonal_block (o : friction_options) (h kappa lambda : R) (f : frame) (vc : v3) : m3 :=
  let b := contact_basis_matrix f in
  m3_mul (m3_mul (m3_transpose b) (m3_scale (kappa * h * h) (eta_block (fo_profile o) (fo_params o) (vc, (lambda, f))))) b.
(** [row.dot(diag_block * row)] for the columns of a block, l.2283-2291. *)
Definition column (B : m3) (i : nat) : v3 := V3 (m3_get B 0 i) (m3_get B 1 i) (m3_get B 2 i).
Definition block_terms (m v : nat) (D B : m3) : list (nat * R) :=
  if Nat.ltb v m then map (fun i => ((3 * v + i)%nat, v3_dot (column B i) (m3_mulv D (column B i)))) [0; 1; 2]%nat else [].
Definition point_terms (m v : nat) (D : m3) : list (nat * R) :=
  if Nat.ltb v m then map (fun i => ((3 * v + i)%nat, m3_get D i i)) [0; 1; 2]%nat else [].
(** One pass of the loop over contact points, l.2246-2292. *)
Definition slip_terms (p : problem) (o : friction_options) (s : friction_state) (contact_idx : nat) (vc : v3) (d : R) (row : nat * list (nat * m3)) : option (list (nat * R)) :=
  let c := fs_contact s in let m := pb_active p in
  if negb (Nat.eqb contact_idx (fst row)) then None else
  bind (nth_error (fs_frames s) contact_idx) (fun f =>
    let D := diagonal_block o (dqdv p) (ct_kappa c) (- penalty_db (ct_delta c) d) f vc in
    bind (nth_error (fs_active s) contact_idx) (fun a => bind (nth_error (ct_collider c) a) (fun v =>
    bind (all_some (map (fun e => option_map (fun w => block_terms m w D (snd e)) (nth_error (ct_surface c) (fst e))) (snd row))) (fun bs =>
      Some (point_terms m v D ++ concat bs))))).
Definition friction_terms (p : problem) (f : friction_part) : option (list (nat * R)) :=
  let s := pt_cur f in
  let rows := map (fun row => (row, row_of (fs_jacobian s) row)) (rows_of (fs_jacobian s)) in
  option_map (@concat _) (all_some (map (fun e => let '(i, ((vc, d), row)) := e in slip_terms p (pt_options f) s i vc d row)
    (let l := combine (combine (contact_mul (friction_maps s) (pb_vel p)) (fs_dist s)) rows in combine (seq 0 (length l)) l))).
(** A contact and its friction: [continue] without friction parameters, l.2206-2208. *)
Definition constraint_terms (p : problem) (e : contact * mapped v3 * option friction_part) : option (list (nat * R)) :=
  bind (contact_terms p (fst e)) (fun ct => match snd e with None => Some ct | Some f => option_map (app ct) (friction_terms p f) end).

(** The diagonal before it is inverted. *)
Definition physical_diagonal (q : friction_problem) : option (list R) :=
  let p := fq_base q in
  bind (jacobian_diagonal p (repeat 0 (3 * pb_size p))) (fun d =>
  bind (all_some (map (constraint_terms p) (combine (pb_contacts p) (fq_parts q)))) (fun ts =>
    add_entries (concat ts) (firstn (3 * pb_active p) d))).
Definition physical_preconditioner (q : friction_problem) : option (list R) := option_map (map jacobi_scale) (physical_diagonal q).
(** Preconditioner, /repo/softy/src/fem/nl.rs:27-43, and diagonal_preconditioner, l.2904-2916; without one the slice stays as it is. *)
Inductive preconditioning := NoPreconditioner | IncompleteJacobi | ApproximateJacobi.
Definition diagonal_preconditioner (k : preconditioning) (q : friction_problem) (precond : list R) : option (list R) :=
  match k with
  | NoPreconditioner => Some precond
  | IncompleteJacobi => incomplete_jacobi_preconditioner (fq_base q)
  | ApproximateJacobi => physical_preconditioner q
  end.
