(** What the line-search assistance of a problem reads: to_vertex_velocity, /repo/softy/src/fem/nl/state.rs:42-47, and the buffers of
    LineSearchWorkspace, /repo/softy/src/fem/nl/problem/assisted_line_search.rs:33-73 and 88-146, which start empty (solver/builder.rs:835)
    and stay allocated between calls.

    Exact reals; storage of three numbers per vertex is a list of vectors; the assertion of equal lengths at l.149 holds by construction and is
    not modelled. *)
From Coq Require Import Reals List Arith.
From Verif Require Import Vec3 ProblemModel.
Import ListNotations.
Local Open Scope R_scope.

(** Vec::resize with zeros. *)
Definition resize_zero (n : nat) (l : list v3) : list v3 := firstn n l ++ repeat v3_0 (n - length l).
(** to_vertex_velocity, state.rs:42-47: copies as many vectors as both have. *)
Definition to_vertex_velocity (dq vtx : list v3) : list v3 := firstn (length vtx) dq ++ skipn (length dq) vtx.
(** Workspace buffers used by the assistance for friction. *)
Record assist_buffers := AssistBuffers { ab_vel : list v3; ab_dir : list v3; ab_f1 : list v3; ab_f2 : list v3 }.
Definition no_buffers : assist_buffers := AssistBuffers [] [] [] [].
(** One call for friction, assisted_line_search.rs:118-146: velocities, search direction and both residuals of the degrees of freedom. *)
Definition friction_call (n : nat) (b : assist_buffers) (a : list v3 * list v3 * list v3 * list v3) : assist_buffers :=
  let '(v, p, r_cur, r_next) := a in
  AssistBuffers (to_vertex_velocity v (resize_zero n (ab_vel b))) (to_vertex_velocity p (resize_zero n (ab_dir b)))
    (to_vertex_velocity r_cur (resize_zero n (ab_f1 b))) (to_vertex_velocity r_next (resize_zero n (ab_f2 b))).
(** One call for contact, l.46-73: only the residuals; positions are copied from the state. *)
Definition contact_call (n : nat) (b : assist_buffers) (a : list v3 * list v3) : assist_buffers :=
  AssistBuffers (ab_vel b) (ab_dir b) (to_vertex_velocity (fst a) (resize_zero n (ab_f1 b))) (to_vertex_velocity (snd a) (resize_zero n (ab_f2 b))).
Inductive assist_call := ForContact (r_cur r_next : list v3) | ForFriction (v p r_cur r_next : list v3).
Definition assist_call_run (n : nat) (b : assist_buffers) (c : assist_call) : assist_buffers :=
  match c with ForContact r1 r2 => contact_call n b (r1, r2) | ForFriction v p r1 r2 => friction_call n b (v, p, r1, r2) end.
Definition assist_calls (n : nat) (cs : list assist_call) : assist_buffers := fold_left (assist_call_run n) cs no_buffers.
