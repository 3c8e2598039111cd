(** Contact penalty, multipliers, maximum step and line-search assistance.
    Models /repo/softy/src/constraints/penalty_point_contact.rs over exact reals. *)
From Coq Require Import Reals List.
From Verif Require Import Vec3 RList.
Import ListNotations.
Local Open Scope R_scope.

(** ContactPenalty::b, penalty_point_contact.rs:3804-3812. *)
Definition penalty_b (delta x : R) : R :=
  let d := delta - x in
  if Rlt_dec 0 d then d * d * d / delta else 0.
(** ContactPenalty::db, penalty_point_contact.rs:3816-3824. *)
Definition penalty_db (delta x : R) : R :=
  let d := delta - x in
  if Rlt_dec 0 d then - 3 * d * d / delta else 0.
(** ContactPenalty::ddb, penalty_point_contact.rs:3828-3836. *)
Definition penalty_ddb (delta x : R) : R :=
  let d := delta - x in
  if Rlt_dec 0 d then 6 * d / delta else 0.

(** ContactState::update_multipliers, penalty_point_contact.rs:1330-1338: one multiplier per distance. *)
Definition multipliers (delta kappa : R) (dist : list R) : list R :=
  map (fun d => - kappa * penalty_db delta d) dist.

(** contact_constraint, penalty_point_contact.rs:2237-2246: contact energy. *)
Definition contact_energy (delta kappa : R) (dist : list R) : R :=
  rsum (map (fun d => kappa * penalty_b delta d) dist).

(** [f[i] <- g f[i]]; [None] models the index-out-of-range panic. *)
Fixpoint modify_at {A} (i : nat) (g : A -> A) (l : list A) : option (list A) :=
  match l, i with
  | [], _ => None
  | a :: l, O => Some (g a :: l)
  | a :: l, S i => option_map (cons a) (modify_at i g l)
  end.

(** subtract_constraint_force, penalty_point_contact.rs:2223-2235.  [blocks] is the sequence produced by
    distance_jacobian_blocks_iter: (constraint row, vertex column, 3-vector block). *)
Fixpoint subtract_force (lambda : list R) (blocks : list (nat * nat * v3)) (f : list v3) : option (list v3) :=
  match blocks with
  | [] => Some f
  | (row, col, j) :: rest =>
      match nth_error lambda row with
      | None => None
      | Some l =>
          match modify_at col (fun fv => v3_sub fv (v3_scale l j)) f with
          | None => None
          | Some f' => subtract_force lambda rest f'
          end
      end
  end.

(** Maximum of the normal velocities, zero if there are none:
    [max_by(partial_cmp).unwrap_or_else(T::zero)], penalty_point_contact.rs:1779-1789 and 1820-1830. *)
Definition max_or_zero (l : list R) : R :=
  match l with [] => 0 | a :: l => fold_left Rmax l a end.

(** max_step_violated, penalty_point_contact.rs:1767-1798 ([vn] are the normal contact velocities;
    an uninitialised contact Jacobian is [None]). *)
Definition max_step_violated (vn : option (list R)) (dt radius max_step : R) : bool :=
  match vn with
  | None => false
  | Some l => if Rlt_dec (max_step + radius) (max_or_zero l * dt) then true else false
  end.
(** compute_max_step, penalty_point_contact.rs:1808-1838. *)
Definition compute_max_step (vn : option (list R)) (dt radius : R) : R :=
  match vn with
  | None => 0
  | Some l => Rmax 0 (1001 / 1000 * (max_or_zero l * dt) - radius)
  end.

(** One contact as the contact assistant sees it: distances before and after the step and the squared
    force norms at the contact's vertex before and after. *)
Record contact_sample := { cs_d1 : R; cs_d2 : R; cs_f1 : R; cs_f2 : R }.

(** assist_line_search_for_contact, penalty_point_contact.rs:2097-2113 (the loop). *)
Definition assist_contact_step (delta : R) (alpha : R) (c : contact_sample) : R :=
  if Rlt_dec delta (cs_d1 c) then
    if Rle_dec (cs_d2 c) 0 then
      if Rlt_dec (cs_f1 c) (cs_f2 c) then
        Rmin alpha ((cs_d1 c - 1 / 2 * delta) / (cs_d1 c - cs_d2 c))
      else alpha
    else alpha
  else alpha.
Definition assist_contact (delta alpha : R) (cs : list contact_sample) : R :=
  fold_left (assist_contact_step delta) cs alpha.
(** AssistedNonLinearProblem::assist_line_search_for_contact, assisted_line_search.rs:33-86: all constraints. *)
Definition assist_contact_all (alpha : R) (constraints : list (R * list contact_sample)) : R :=
  fold_left (fun a c => Rmin a (assist_contact (fst c) a (snd c))) constraints alpha.

(** One contact as the friction assistant sees it: distance, squared force norms, tangential velocity and
    tangential search direction. *)
Record friction_sample := { fs_d2 : R; fs_f1 : R; fs_f2 : R; fs_v : R * R; fs_p : R * R }.
Definition dot2 (a b : R * R) : R := fst a * fst b + snd a * snd b.

(** assist_line_search_for_friction, penalty_point_contact.rs:2190-2219 (one loop iteration). *)
Definition assist_friction_step (delta alpha : R) (acc : R * nat) (c : friction_sample) : R * nat :=
  if Rle_dec (fs_d2 c) delta then
    if Rlt_dec (fs_f1 c) (fs_f2 c) then
      let p_dot_v := alpha * dot2 (fs_p c) (fs_v c) in
      let v_dot_v := dot2 (fs_v c) (fs_v c) in
      if Rle_dec p_dot_v (- v_dot_v) then
        let candidate := - v_dot_v / p_dot_v in
        if Rlt_dec candidate alpha then
          if Rlt_dec (1 / 10 ^ 10) candidate then (fst acc + candidate, S (snd acc)) else acc
        else acc
      else acc
    else acc
  else acc.
Definition assist_friction (delta alpha : R) (cs : list friction_sample) : R * nat :=
  fold_left (assist_friction_step delta alpha) cs (0, O).
(** assist_line_search_for_friction, assisted_line_search.rs:88-168: sum over the constraints (those without
    friction parameters contribute nothing and are left out of the list), then average. *)
Definition assist_friction_all (alpha : R) (constraints : list (R * list friction_sample)) : R :=
  let tot := fold_left (fun acc c =>
      let r := assist_friction (fst c) alpha (snd c) in (fst acc + fst r, (snd acc + snd r)%nat))
      constraints (0, O) in
  match snd tot with O => alpha | S _ => fst tot / INR (snd tot) end.
