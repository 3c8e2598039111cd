(** Merit of the residual and its slope along a direction, with a diagonal preconditioner: merit, merit_jac_prod, rescale_vector and
    rescale_jacobian_values, /repo/softy/src/fem/nl/newton.rs:779-791, 939-1016 and 1236-1258, when the merit is not the objective.

    Exact reals; a panic is [None].  The product with the matrix of the direct solver is that of platforms other than macOS, l.995-1006; the
    parallel loop over rows is a list of rows. *)
From Coq Require Import Reals List Arith Bool.
From Verif Require Import Vec3 RList AssemblyModel ProblemModel FricProblemModel FricDerivSpec ProductModel.
Import ListNotations.
Local Open Scope R_scope.

(** rescale_vector, l.779-783: what is longer than the preconditioner stays. *)
Definition rescale_vector (d r : list R) : list R := map (fun e => snd e * fst e) (combine d r) ++ skipn (length d) r.
(** rescale_jacobian_values, l.785-791. *)
Definition rescale_values (d : list R) (ij : list (nat * nat)) (vals : list R) : list R :=
  map (fun e => if Nat.ltb (fst (fst e)) (length d) then snd e * nth (fst (fst e)) d 0 else snd e) (combine ij vals).
(** merit, l.939-945, of a residual that was rescaled. *)
Definition residual_merit (r : list R) : R := 1 / 2 * rsum (map (fun a => a * a) r).
(** The merit at velocities [V]: residual, rescaled, l.1471-1476. *)
Definition merit_at (iamax : v3 -> nat) (q : friction_problem) (rebuild : bool) (d : list R) (V : list v3) : option R :=
  option_map (fun r => residual_merit (rescale_vector d r)) (whole_residual_at iamax q rebuild V).
(** merit_jac_prod, l.1010-1014, of the product [jp] and the rescaled residual [r]. *)
Definition slope_of (d jp r : list R) : R := rsum (map (fun e => fst e * snd e) (combine (rescale_vector d jp) r)).
(** merit_jac_prod with an iterative solver, l.979. *)
Definition iterative_slope (iamax : v3 -> nat) (q : friction_problem) (w : workspace) (d : list R) (V : list v3) (P r : list R) : option R :=
  option_map (fun a => slope_of d (snd a) r) (jacobian_product iamax q w V P).
(** The matrix of the direct solver, l.1236-1258 and 1385-1391: the values are rescaled before they are added to the sparse matrix. *)
Definition direct_matrix (n : nat) (d : list R) (ij : list (nat * nat)) (vals : list R) : workspace :=
  let (pattern, mapping) := sparse_matrix_and_mapping (map fst ij) (map snd ij) n false in
  Workspace ij pattern mapping (redistribute (length pattern) mapping (rescale_values d ij vals)) false.
(** merit_jac_prod with a direct solver, l.981-1014: the product with the rescaled matrix is rescaled once more. *)
Definition direct_slope (n : nat) (d : list R) (ij : list (nat * nat)) (vals P r : list R) : R :=
  slope_of d (map (stored_row (direct_matrix n d ij vals) P) (seq 0 n)) r.
