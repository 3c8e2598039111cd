(** The stopping condition: /repo/softy/src/fem/nl/problem.rs:2750-2803 (NLProblem::converged).  Exact reals; the tolerances are
    [f32] values, converted exactly. *)
From Coq Require Import Reals List Arith Bool.
From Verif Require Import Vec3 RList.
Import ListNotations.
Local Open Scope R_scope.

Definition Rltb (a b : R) : bool := if Rlt_dec a b then true else false.
Definition Rle_b (a b : R) : bool := if Rle_dec a b then true else false.

(** tensr's [lp_norm(LpNorm::Inf)]: largest absolute value, zero for the empty vector. *)
Definition inf_norm (r : list R) : R := fold_left (fun m x => Rmax m (Rabs x)) r 0.
(** tensr's [norm]. *)
Definition norm2 (x : list R) : R := sqrt (rsum (map (fun a => a * a) x)).
(** [Chunked3::from_flat]: groups of three; the code panics when the length is not a multiple of three, here the remainder is dropped. *)
Fixpoint chunks3 (l : list R) : list v3 :=
  match l with a :: b :: c :: l' => V3 a b c :: chunks3 l' | _ => [] end.

(** The three criteria, problem.rs:2767-2802.  [h_inv] is [1 / (time_step * implicit_factor)]. *)
Definition r_criterion (r : list R) (r_tol : R) : bool := Rltb 0 r_tol && Rltb (inf_norm r) r_tol.
Definition x_criterion (x_prev x : list R) (x_tol : R) : bool :=
  Rltb 0 x_tol &&
  Rltb (sqrt (rsum (map (fun ab => (fst ab - snd ab) * (fst ab - snd ab)) (combine x_prev x)))) (x_tol * (norm2 x + 1)).
Definition a_criterion (x_prev x r_unscaled mass_inv rel_mesh_size : list R) (h_inv a_tol : R) : bool :=
  Rltb 0 a_tol &&
  forallb (fun t => let '(r, m_inv, size, (_, v)) := t in
                    Rle_b (v3_norm (v3_scale m_inv r)) (Rmax (a_tol * v3_norm v) (a_tol * (size * h_inv))))
    (combine (combine (combine (chunks3 r_unscaled) mass_inv) rel_mesh_size) (combine (chunks3 x_prev) (chunks3 x))).

Definition converged (x_prev x r r_unscaled mass_inv rel_mesh_size : list R) (time_step implicit_factor x_tol r_tol a_tol : R) : bool :=
  r_criterion r r_tol || x_criterion x_prev x x_tol
  || a_criterion x_prev x r_unscaled mass_inv rel_mesh_size (1 / (time_step * implicit_factor)) a_tol.
