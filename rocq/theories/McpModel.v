(** Mixed complementarity wrapper: /repo/softy/src/fem/nl/mcp.rs.  Exact reals; bounds are [f64] values that may be infinite
    ([None] below: minus infinity for lower, plus infinity for upper bounds, the initial value in problem.rs:2591-2596). *)
From Coq Require Import Reals List Arith Bool.
Import ListNotations.
Local Open Scope R_scope.

Definition bound := option R.

(** [Float::max(r, x - u)]: [x - inf] is minus infinity, so the maximum is [r]. *)
Definition max_upper (r x : R) (u : bound) : R := match u with Some u => Rmax r (x - u) | None => r end.
(** [Float::min(r, x - l)]. *)
Definition min_lower (r x : R) (l : bound) : R := match l with Some l => Rmin r (x - l) | None => r end.

(** One component of MCP::residual, mcp.rs:134-139. *)
Definition mcp_component (r x : R) (l u : bound) : R := min_lower (max_upper r x u) x l.

(** MCP::residual, mcp.rs:131-140: [zip!] stops at the shortest list, the rest of [r] stays. *)
Fixpoint mcp_residual (r x : list R) (l u : list bound) : list R :=
  match r, x, l, u with
  | r0 :: r', x0 :: x', l0 :: l', u0 :: u' => mcp_component r0 x0 l0 u0 :: mcp_residual r' x' l' u'
  | _, _, _, _ => r
  end.

Definition Rleb (a b : R) : bool := if Rle_dec a b then true else false.
(** [r <= x - u], mcp.rs:163 and 187: false for an infinite bound. *)
Definition upper_active (r x : R) (u : bound) : bool := match u with Some u => Rleb r (x - u) | None => false end.
(** [r >= x - l], mcp.rs:163 and 189. *)
Definition lower_active (r x : R) (l : bound) : bool := match l with Some l => Rleb (x - l) r | None => false end.

(** The loop of MCP::jacobian_values, mcp.rs:157-172, over triplets [(row, col, value)].  [seen] lists the rows whose flag in
    [workspace_seen] is set.  [x], [r] are read at [row < n]; both have at least [n] entries in the code (otherwise it panics),
    here [nth] with a default. *)
Fixpoint mcp_jacobian_loop (x r : list R) (l u : list bound) (seen : list nat) (ts : list (nat * nat * R)) : list R :=
  match ts with
  | [] => []
  | (i, j, v) :: ts' =>
      let n := length l in
      if Nat.ltb i n && Nat.ltb j n then
        if upper_active (nth i r 0) (nth i x 0) (nth i u None) || lower_active (nth i r 0) (nth i x 0) (nth i l None) then
          if Nat.eqb i j && negb (existsb (Nat.eqb i) seen) then 1 :: mcp_jacobian_loop x r l u (i :: seen) ts'
          else 0 :: mcp_jacobian_loop x r l u seen ts'
        else v :: mcp_jacobian_loop x r l u seen ts'
      else v :: mcp_jacobian_loop x r l u seen ts'
  end.
(** MCP::jacobian_values, mcp.rs:150-173, where [ts] carries the values written by the wrapped problem. *)
Definition mcp_jacobian_values (x r : list R) (l u : list bound) (ts : list (nat * nat * R)) : list R :=
  mcp_jacobian_loop x r l u [] ts.

(** MCP::jacobian_product, mcp.rs:175-194, where [jp] is the product computed by the wrapped problem.  (The parallel zip
    requires equal lengths up to the shortest; components are independent.) *)
Fixpoint mcp_jacobian_product (x : list R) (l u : list bound) (r jp : list R) : list R :=
  match x, l, u, r, jp with
  | x0 :: x', l0 :: l', u0 :: u', r0 :: r', j0 :: jp' =>
      (if upper_active r0 x0 u0 then match u0 with Some u => x0 - u | None => j0 end
       else if lower_active r0 x0 l0 then match l0 with Some l => x0 - l | None => j0 end
       else j0) :: mcp_jacobian_product x' l' u' r' jp'
  | _, _, _, _, _ => jp
  end.

(** rescale_vector, newton.rs:779-783. *)
Fixpoint rescale_vector (precond r : list R) : list R :=
  match precond, r with p :: precond', r0 :: r' => r0 * p :: rescale_vector precond' r' | _, _ => r end.
(** unscale_vector, newton.rs:773-777. *)
Fixpoint unscale_vector (precond r : list R) : list R :=
  match precond, r with p :: precond', r0 :: r' => r0 / p :: unscale_vector precond' r' | _, _ => r end.
(** rescale_jacobian_values, newton.rs:785-791: the row factor when the row is below [precond.len()]. *)
Definition rescale_jacobian_values (precond : list R) (rows : list nat) (vals : list R) : list R :=
  map (fun rv => if Nat.ltb (fst rv) (length precond) then snd rv * nth (fst rv) precond 0 else snd rv) (combine rows vals)
  ++ skipn (length rows) vals.

(** [f64::EPSILON]. *)
Definition f64_epsilon : R := / 4503599627370496.
(** The final loop of compute_incomplete_jacobi_preconditioner (problem.rs:2107-2117) and of
    compute_physical_preconditioner (problem.rs:2296-2305), applied to one diagonal entry. *)
Definition precond_entry (x : R) : R := let xsqrt := sqrt (Rabs x) in if Rlt_dec xsqrt f64_epsilon then 1 else 1 / xsqrt.
Definition finish_preconditioner (diag : list R) : list R := map precond_entry diag.
