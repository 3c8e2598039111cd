(** Projection of query points to one side of a level set of the potential: /repo/implicits/src/field/query.rs:505-779.

    Exact reals.  The five vectors of the code (positions are two) are one list of records here; all loops over them zip
    vectors of the same length.  The potential and its gradient are a pair of functions of the index of a point, whose cached
    neighbourhood does not change during the projection; [mls_field] is the instance that the code uses.  [project_par], 662-779,
    is the same program over parallel iterators.  A NaN, which the code compares as not less, does not occur. *)
From Coq Require Import Reals List Bool.
From Verif Require Import Vec3 RList KernelModel FieldModel NeighborModel.
Import ListNotations.
Local Open Scope R_scope.

(** compute_potential, query.rs:852-878, of one point: the number in the output buffer is read as background value; and the full
    query Jacobian of one point, jacobian.rs:142-174. *)
Record field := Field { f_pot : nat -> v3 -> R -> R; f_jac : nat -> v3 -> v3 }.
(** Side and the multiplier, query.rs:537-541. *)
Inductive side := Above | Below.
Definition multiplier (s : side) : R := match s with Above => 1 | Below => -1 end.
(** query_points, candidate_points, potential, candidate_potential, steps and nml_sizes, query.rs:543-547. *)
Record walker := Walker { w_q : v3; w_cand : v3; w_pot : R; w_cpot : R; w_step : v3; w_nml : R }.
Definition walker_new (q : v3) : walker := Walker q q 0 0 v3_0 0.

(** The filter of violating points, query.rs:569, 578, 594. *)
Definition violating (iso : R) (w : walker) : bool :=
  if Rlt_dec (w_pot w) iso then if Req_EM_T (w_nml w) 0 then false else true else false.
(** Values and gradients at the points, query.rs:555-563. *)
Definition evaluate (F : field) (mult : R) (i : nat) (w : walker) : walker :=
  let step := f_jac F i (w_q w) in
  Walker (w_q w) (w_cand w) (f_pot F i (w_q w) (w_pot w) * mult) (w_cpot w) step (v3_norm step).
(** Initial step, query.rs:577-583. *)
Definition aim (mult iso eps : R) (w : walker) : walker :=
  if violating iso w then
    let offset := (eps * (1 / 2) + (iso - w_pot w)) / w_nml w in
    Walker (w_q w) (w_cand w) (w_pot w) (w_cpot w) (v3_scale (mult * offset) (w_step w)) (w_nml w)
  else w.
(** Trying the step, query.rs:587-602: the candidates of all points are evaluated. *)
Definition try_step (F : field) (mult iso : R) (i : nat) (w : walker) : walker :=
  let cand := if violating iso w then v3_add (w_q w) (w_step w) else w_cand w in
  Walker (w_q w) cand (w_pot w) (f_pot F i cand (w_cpot w) * mult) (w_step w) (w_nml w).
(** Overshooting points halve their step, query.rs:604-616. *)
Definition overshoots (iso eps : R) (w : walker) : bool :=
  if Rlt_dec (w_pot w) iso then if Rlt_dec (iso + eps) (w_cpot w) then if Req_EM_T (w_nml w) 0 then false else true else false else false.
Definition halve (iso eps : R) (w : walker) : walker :=
  if overshoots iso eps w then Walker (w_q w) (w_cand w) (w_pot w) (w_cpot w) (v3_scale (1 / 2) (w_step w)) (w_nml w) else w.
(** Update of the points, query.rs:628-631. *)
Definition accept (w : walker) : walker := Walker (w_cand w) (w_cand w) (w_pot w) (w_cpot w) (w_step w) (w_nml w).

Definition mapi {A B} (f : nat -> A -> B) (l : list A) : list B := map (fun p => f (fst p) (snd p)) (enumerate l).
(** The binary search, query.rs:585-625; [n] iterations left; whether it ended without overshooting. *)
Fixpoint search (F : field) (mult iso eps : R) (n : nat) (ws : list walker) : list walker * bool :=
  match n with
  | O => (ws, true)
  | S m =>
      let tried := mapi (try_step F mult iso) ws in
      if existsb (overshoots iso eps) tried then
        let halved := map (halve iso eps) tried in
        if Nat.eqb m 0 then (halved, false) else search F mult iso eps m halved
      else (tried, true)
  end.
(** The outer loop, query.rs:554-636; [n] iterations left; the flag only ever becomes false. *)
Fixpoint walk (F : field) (mult iso eps : R) (n : nat) (convergence : bool) (ws : list walker) : list walker * bool :=
  match n with
  | O => (ws, convergence)
  | S m =>
      let seen := mapi (evaluate F mult) ws in
      if existsb (violating iso) seen then
        let (found, ok) := search F mult iso eps 10 (map (aim mult iso eps) seen) in
        walk F mult iso eps m (convergence && ok && negb (Nat.eqb m 0)) (map accept found)
      else (seen, convergence)
  end.
(** project, query.rs:530-639. *)
Definition project_field (F : field) (s : side) (iso eps : R) (qs : list v3) : list v3 * bool :=
  let mult := multiplier s in
  let (ws, convergence) := walk F mult (iso * mult) eps 20 true (map walker_new qs) in
  (map w_q ws, convergence).

(** The potential and the query Jacobian of a surface with cached neighbourhoods; the caches have one entry per point, and the Jacobian is
    given a closest sample, so that it exists. *)
Definition mls_field (t : query_topo) : field :=
  let S := sb_samples (q_base t) in
  let P := sb_bg (q_base t) in
  Field (fun i q v => potential_at q S (nth i (trivial_neighborhood t) []) (q_kernel t) P v)
        (fun i q => match query_jacobian_at q S (nth i (trivial_neighborhood t) []) (Some (nth i (closest_samples t) O)) (q_kernel t) P with
                    | Some g => g | None => v3_0 end).
(** [None] is the failed assertion of compute_potential, query.rs:859. *)
Definition project (t : query_topo) (s : side) (iso eps : R) (qs : list v3) : option (list v3 * bool) :=
  if Nat.eqb (length (trivial_neighborhood t)) (length qs) then Some (project_field (mls_field t) s iso eps qs) else None.
