(** The assembled problem in textbook terms: which problems are well formed, where their objective is smooth, and the objective as a
    function of the velocities. *)
From Coq Require Import Reals List Bool.
From Verif Require Import Vec3 RList ElasticModel ElasticSpec MassModel VolumeModel VolumeSpec ShellModel ShellSpec.
From Verif Require Import NeighborModel SurfJacSpec ContactAsmModel ContactHessModel ContactHessSpec ProblemModel.
From Verif Require TimeModel TimeSpec.
Import ListNotations.
Local Open Scope R_scope.

(** A contact of the right shape, with the sparsity of its constraint Jacobian built, whose fixed side does not move. *)
Definition contact_ready (n m : nat) (cg : contact * mapped v3) : Prop := let (c, g) := cg in
  contact_shape c n /\ in_place (q_base (ct_topo c)) /\ reset_distance_gradient c n = Some g /\ fixed_from c m.
(** Sizes agree, indices are below the number of vertices, elements have different vertices. *)
Definition problem_ok (p : problem) : Prop := let n := length (pb_pos p) in
  (pb_active p <= n)%nat /\ length (pb_vel p) = n /\ length (pb_prev_force p) = (3 * n)%nat /\ length (pb_shell_density p) = length (sh_tris (pb_shell p)) /\
  (forall e, In e (pb_nh p) \/ In e (pb_snh p) -> in_range n (fst e) /\ distinct_vertices (fst e)) /\
  shell_in_range n (pb_shell p) /\ shell_distinct (pb_shell p) /\
  (forall z, In z (pb_zones p) -> tris_in_range n (topo z)) /\
  (forall c, In c (pb_contacts p) -> contact_ready n (pb_active p) c) /\ TimeSpec.scheme_ok (pb_scheme p).
(** Enclosed volumes whose penalty is defined; volumes that use the exact Hessian; contacts between different vertices. *)
Definition zones_defined (p : problem) : Prop := forall z, In z (pb_zones p) -> pressurization z * rest_volume z <> 0 /\ compression z <> 0.
Definition zones_exact (p : problem) : Prop := forall z, In z (pb_zones p) -> hessian_approximation z = false.
Definition contacts_apart (p : problem) : Prop := forall c, In c (pb_contacts p) -> forall v, In v (ct_surface (fst c)) -> ~ In v (ct_collider (fst c)).
(** No element is inverted or collapsed, contacts are where their potential is smooth. *)
Definition regular_state (p : problem) : Prop := let x := fun i => nth i (pb_pos p) v3_0 in
  (forall e, In e (pb_nh p) -> exists g, m_gradient neo_hookean (elem_of (fst e) (gather (fst e) x)) = Some g) /\
  (forall e, In e (pb_snh p) -> exists g, m_gradient stable_neo_hookean (elem_of (fst e) (gather (fst e) x)) = Some g) /\
  smooth_at (pb_shell p) x /\ (forall c, In c (pb_contacts p) -> contact_regular (fst c)).
(** The objective for velocities [V] of the vertices that may move. *)
Definition objective_at (p : problem) (rebuild : bool) (V : list v3) : option ext :=
  match update_problem p V rebuild with Some p' => compute_objective p' | None => None end.
Definition real_value (o : option ext) : R := match o with Some (Fin a) => a | _ => 0 end.
Definition finite_value (o : option ext) : Prop := exists a, o = Some (Fin a).
