(** The problem with frictional contacts in textbook terms. *)
From Coq Require Import Reals List Bool.
From Verif Require Import Vec3 RList NeighborModel SurfHessSpec FrictionModel FrictionSpec ContactAsmModel ContactHessModel FricAsmModel FricForceSpec ProblemModel ProblemSpec FricProblemModel.
Import ListNotations.
Local Open Scope R_scope.

(** A contact and its friction: built for the surface and updated with positions of the vertices any number of times. *)
Definition part_fits (iamax : v3 -> nat) (ord : list nat -> list nat) (n : nat) (e : contact * mapped v3 * option friction_part) : Prop :=
  forall f, snd e = Some f -> reached iamax ord n (pt_prev f) /\ reached iamax ord n (pt_cur f) /\ fst e = (fs_contact (pt_cur f), fs_distance (pt_cur f)).
Definition friction_ok (iamax : v3 -> nat) (ord : list nat -> list nat) (q : friction_problem) : Prop := let p := fq_base q in
  problem_ok p /\ length (fq_parts q) = length (pb_contacts p) /\ forall e, In e (combine (pb_contacts p) (fq_parts q)) -> part_fits iamax ord (length (pb_pos p)) e.
(** The state whose contacts, normal forces and bases friction uses. *)
Definition used_state (symmetric : bool) (f : friction_part) : friction_state := if orb symmetric (fo_lagged (pt_options f)) then pt_prev f else pt_cur f.
(** Coordinate [k] of the friction forces on the vertices, all contacts together. *)
Definition total_friction (q : friction_problem) (symmetric : bool) (k : nat) : R :=
  rsum (map (fun o => match o with
    | None => 0
    | Some f => coordinate (fun i => nth i (compute_friction_force (pt_options f) (used_state symmetric f) (pb_vel (fq_base q))) v3_0) k
    end) (fq_parts q)).
(** The same for velocities [V] of the vertices that may move. *)
Definition friction_at (iamax : v3 -> nat) (q : friction_problem) (rebuild : bool) (V : list v3) (k : nat) : R :=
  match update_friction_problem iamax q V rebuild with Some q' => total_friction q' false k | None => 0 end.
(** Contacts whose friction force is smooth and whose Jacobian is not cut short: lagged, or full without viscosity and fixed vertices. *)
Definition smooth_part (p : problem) (f : friction_part) : Prop := let o := pt_options f in let s := used_state false f in
  valid_params (fo_params o) /\ separate_sides (fs_contact s) /\ smooth_velocities (fo_params o) s (pb_vel p) /\
  (fo_lagged o = true \/ (fo_incomplete o = false /\ pb_active p = length (pb_pos p) /\ fp_viscous (fo_params o) = 0 /\ smooth_contacts (fs_contact s) /\ steady_bases (fs_contact s))).
