(** Products with the Jacobian that are not assembled with constraints. *)
From Coq Require Import Reals List Arith Bool Lra Lia.
From Coquelicot Require Import Coquelicot.
From Verif Require Import Vec3 Mat3 RList ElasticModel ElasticSpec VolumeModel VolumeSpec NeighborModel SurfJacSpec SurfHessSpec ContactAsmModel ContactDerivSpec BasisJacSpec ContactHessModel ContactHessSpec.
From Verif Require Import FrictionModel FricAsmModel FricForceSpec ProblemModel ProblemSpec ProblemListProofs ProblemProofs ProblemMatrixProofs ProblemDerivSpec FricProblemModel FricProblemSpec FricProblemProofs FricDerivSpec ProductModel ProductProofs.
From Verif Require AssemblyModel FricProblemProps FricDerivProps BasisJacProps ContactDerivProps FricAsmProps.
Import ListNotations.
Local Open Scope R_scope.

(** C192: once invalidated at a state, whatever the workspace stored before, each of a sequence of products is the Jacobian of that state,
    constraints and friction included, times the direction. *)
Theorem products_are_jacobian_products : forall iamax ord q0 V rb q, picks_largest iamax -> lists_the_set ord -> friction_ok iamax ord q0 -> length V = pb_active (fq_base q0) -> (0 < length V)%nat ->
  update_friction_problem iamax q0 V rb = Some q -> (forall f, In (Some f) (fq_parts q) -> smooth_part (fq_base q) f) ->
  zones_defined (fq_base q0) -> zones_exact (fq_base q0) -> contacts_apart (fq_base q0) -> regular_state (fq_base q) ->
  exists ij vals w, indices_and_workspace iamax ord q0 true = Some (ij, w) /\ friction_indices iamax ord q0 true = Some ij /\ friction_values iamax ord q true ij = Some vals /\ length vals = length ij /\
    forall store stale Ps, (forall P, In P Ps -> length P = (3 * length V)%nat) ->
      exists w' js, jacobian_products iamax q (invalidate (Workspace (ws_ij w) (ws_pattern w) (ws_mapping w) store stale)) V Ps = Some (w', js) /\ length js = length Ps /\
        forall i k, (i < length Ps)%nat -> (k < 3 * length V)%nat ->
          nth k (nth i js []) 0 = rsum (map (fun j => matrix_entry (combine ij vals) k j * nth j (nth i Ps []) 0) (seq 0 (3 * length V))).
Proof.
  intros iamax ord q0 V rb q PK OKO FO LV L0 E SM ZD ZE CA RG. destruct (FricDerivProps.whole_jacobian_is_derivative iamax ord q0 V rb q PK OKO FO LV E SM ZD ZE CA RG) as (ij & vals & EI & EV & LE & _).
  destruct (friction_update iamax ord OKO q0 V rb FO LV) as (EU & FO'). rewrite EU in E. injection E as <-. assert (OK : problem_ok (fq_base q0)) by apply FO.
  destruct (fem_known iamax ord q0 V rb FO LV RG) as (fem & fv & F1 & F2 & F3 & _).
  exists ij, vals, (cache_places (fq_base q0) fem). split.
  - destruct (nnz_friction iamax ord OKO q0 V rb FO LV) as (room & N0 & _ & LR). unfold indices_and_workspace. unfold friction_indices in EI. rewrite N0 in EI |- *. cbn [bind] in *. destruct (without_constraints (fq_base q0) OK) as (fem' & fv' & G1 & _ & _ & _ & G2). rewrite F1 in G1. injection G1 as <-.
    rewrite (fem_indices_ok (fq_base q0) OK room), <- G2 by (change (fem_room (updated (fq_base q0) V rb)) with (fem_room (fq_base q0)) in LR; lia). cbn [bind]. rewrite EI. reflexivity.
  - split; [exact EI|]. split; [exact EV|]. split; [exact LE|]. intros store stale Ps LP. rewrite LV in *.
    apply (many_products iamax ord q0 V rb PK OKO FO LV SM ZD ZE CA RG ij vals EI EV fem fv F1 F2 F3 L0); [|exact LP].
    unfold holds, cache_places. destruct (AssemblyModel.sparse_matrix_and_mapping _ _ _ _) as [pattern mapping]. cbn [ws_ij ws_pattern ws_mapping invalidate ws_stale]. repeat split. left. reflexivity.
Qed.
Example products_are_jacobian_products_ex : exists s, picks_largest BasisJacProps.first_largest /\ lists_the_set FricProblemProps.listed /\ forall lagged, let q0 := FricProblemProps.glide s lagged in
  friction_ok BasisJacProps.first_largest FricProblemProps.listed q0 /\ length FricAsmProps.slide_with = pb_active (fq_base q0) /\ (0 < length FricAsmProps.slide_with)%nat /\ zones_defined (fq_base q0) /\ zones_exact (fq_base q0) /\ contacts_apart (fq_base q0) /\
  exists q, update_friction_problem BasisJacProps.first_largest q0 FricAsmProps.slide_with true = Some q /\ (forall f, In (Some f) (fq_parts q) -> smooth_part (fq_base q) f) /\ regular_state (fq_base q) /\
    exists ij w w' js, indices_and_workspace BasisJacProps.first_largest FricProblemProps.listed q0 true = Some (ij, w) /\
      jacobian_products BasisJacProps.first_largest q (invalidate w) FricAsmProps.slide_with [map INR (seq 0 15); repeat 1 15] = Some (w', js) /\ length js = 2%nat.
Proof.
  destruct FricDerivProps.whole_jacobian_is_derivative_ex as (s & PK & OKO & H). exists s. split; [exact PK|]. split; [exact OKO|]. intros lagged. cbv zeta. destruct (H lagged) as (FO & LV & ZD & ZE & CA & q & E & SM & RG & _).
  split; [exact FO|]. split; [exact LV|]. assert (L0 : (0 < length FricAsmProps.slide_with)%nat) by (cbn; lia). split; [exact L0|]. split; [exact ZD|]. split; [exact ZE|]. split; [exact CA|]. exists q. split; [exact E|]. split; [exact SM|]. split; [exact RG|].
  destruct (products_are_jacobian_products _ _ _ _ _ _ PK OKO FO LV L0 E SM ZD ZE CA RG) as (ij & vals & w & A & _ & _ & _ & S). destruct w as [a b c store stale]. destruct (S store stale [map INR (seq 0 15); repeat 1 15]) as (w' & js & J & LJ & _).
  - intros P [<-|[<-|[]]]; [rewrite map_length, seq_length|rewrite repeat_length]; reflexivity.
  - exists ij, (Workspace a b c store stale), w', js. split; [exact A|]. split; [exact J|exact LJ].
Qed.
Print Assumptions products_are_jacobian_products.
