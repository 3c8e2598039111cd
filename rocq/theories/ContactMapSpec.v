(** What a user of the contact Jacobian relies on, in textbook terms. *)
From Coq Require Import Reals List.
From Verif Require Import Vec3 Mat3 RList KernelModel KernelSpec ElasticSpec FieldModel FieldSpec NeighborModel NeighborSpec.
Import ListNotations.
Local Open Scope R_scope.

(** The least turn from one unit vector to another: a rotation that takes the first to the second and leaves alone what is
    orthogonal to both. *)
Definition least_turn (n g : v3) (Q : m3) : Prop :=
  rotation Q /\ m3_mulv Q n = g /\ forall x, v3_dot x n = 0 -> v3_dot x g = 0 -> m3_mulv Q x = x.
(** Vectors of the samples carried by one matrix each, and added. *)
Definition carried (ms : list m3) (vs : list v3) : v3 := vsum (map (fun p => m3_mulv (fst p) (snd p)) (combine ms vs)).
(** Direction of the normal of a sample. *)
Definition direction (s : sample) : v3 := v3_scale (/ v3_norm (s_nml s)) (s_nml s).
(** Weight of a sample: its kernel, and how far its normal agrees with a direction. *)
Definition kernel_at (k : kernel) (S : list sample) (q : v3) (c i : nat) : R :=
  k_f (match k with Interpolating r _ => Interpolating r (gap S q c) | _ => k end) (gap S q i).
Definition agreement (n g : v3) : R := (1 + v3_dot n g) / 2 * ((1 + v3_dot n g) / 2).
(** Samples in one plane with a common normal, and equal values. *)
Definition flat_around (S : list sample) (view : list nat) (n : v3) : Prop :=
  v3_dot n n = 1 /\ forall i j, In i view -> In j view -> s_nml (smp S i) <> v3_0 /\ direction (smp S i) = n /\
    v3_dot n (v3_sub (s_pos (smp S i)) (s_pos (smp S j))) = 0 /\ s_value (smp S i) = s_value (smp S j).
(** Product of one row of a block matrix with a vector. *)
Definition block_product (L : list (nat * nat * m3)) (x : nat -> v3) (r : nat) : v3 :=
  vsum (map (fun e => let '(row, col, B) := e in if Nat.eqb row r then m3_mulv B (x col) else v3_0) L).
(** Mean of vectors with weights. *)
Definition mean_of (w : nat -> R) (v : nat -> v3) (view : list nat) : v3 :=
  v3_scale (/ rsum (map w view)) (vsum (map (fun i => v3_scale (w i) (v i)) view)).
(** The vector of a sample when vectors are given at the vertices: the one of the vertex, or the mean over the corners of the triangle. *)
Definition sample_vector (b : base) (x : nat -> v3) (i : nat) : v3 :=
  match sb_type b with
  | SVertex => x i
  | SFace => let '(p, q, r) := nth i (sb_topo b) (0, 0, 0)%nat in v3_scale (1 / 3) (v3_add (x p) (v3_add (x q) (x r)))
  end.
(** The query points that see the surface, in order. *)
Definition filled (t : query_topo) : list nat :=
  filter (fun r => match nth r (trivial_neighborhood t) [] with [] => false | _ => true end) (seq 0 (length (trivial_neighborhood t))).
