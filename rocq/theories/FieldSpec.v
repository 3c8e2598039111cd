(** What a user of the implicit surface relies on, in textbook terms. *)
From Coq Require Import Reals List.
From Coquelicot Require Import Coquelicot.
From Verif Require Import Vec3 Mat3 KernelModel KernelSpec ElasticSpec FieldModel.
Import ListNotations.
Local Open Scope R_scope.

(** A vector that moves with a velocity at time zero. *)
Definition moves (f : R -> v3) (l : v3) : Prop :=
  is_derive (fun s => vx (f s)) 0 (vx l) /\ is_derive (fun s => vy (f s)) 0 (vy l) /\ is_derive (fun s => vz (f s)) 0 (vz l).

(** Displacement from a sample and the signed distance to the plane through it (shifted by its value). *)
Definition away (S : list sample) (q : v3) (i : nat) : v3 := v3_sub q (s_pos (smp S i)).
Definition plane_value (S : list sample) (q : v3) (i : nat) : R :=
  s_value (smp S i) + v3_dot (s_nml (smp S i)) (away S q i) / v3_norm (s_nml (smp S i)).

(** Sample [c] is strictly nearer to [q] than every other sample of the neighbourhood. *)
Definition nearest (S : list sample) (q : v3) (view : list nat) (c : nat) : Prop :=
  In c view /\ forall j, In j view -> j <> c -> v3_norm (away S q c) < v3_norm (away S q j).

(** Samples of the neighbourhood sit at distances where the kernel is a smooth formula, and have a normal. *)
Definition regular_view (k : kernel) (S : list sample) (q : v3) (view : list nat) : Prop :=
  forall i, In i view -> away S q i <> v3_0 /\ s_nml (smp S i) <> v3_0 /\ regular_distance k (v3_norm (away S q i)).

(** Settings under which the background has a derivative the code computes: a signed distance is not on its jump, a weighted
    background uses a local kernel other than the interpolating one, and a weighted input background is zero. *)
Definition smooth_background (k : kernel) (P : bg_params) (v : R) (S : list sample) (q : v3) (c : nat) : Prop :=
  (p_type P = FDistance -> v3_dot (s_nml (smp S c)) (away S q c) <> 0) /\
  (p_weighted P = true -> match k with Global _ | Interpolating _ _ => False | _ => True end) /\
  (p_weighted P = true -> p_type P = FInput -> v = 0).

(** Samples moving with given velocities of positions and normals; values are constant. *)
Definition moving_samples (S : R -> list sample) (view : list nat) (dp dn : nat -> v3) : Prop :=
  forall i, In i view -> moves (fun s => s_pos (smp (S s) i)) (dp i) /\ moves (fun s => s_nml (smp (S s) i)) (dn i) /\
    forall s, s_value (smp (S s) i) = s_value (smp (S 0) i).
(** Only positions move, along straight lines. *)
Definition shift_samples (S : list sample) (U : nat -> v3) (s : R) : list sample :=
  map (fun ix => let '(i, x) := ix in Sample (v3_line (s_pos x) (U i) s) (s_nml x) (s_vel x) (s_value x)) (combine (seq 0 (length S)) S).

(** Value of the background: zero, the input, or the signed distance to sample [i]. *)
Definition background_value (P : bg_params) (v : R) (S : list sample) (q : v3) (i : nat) : R :=
  match p_type P with
  | FZero => 0
  | FInput => v
  | FDistance => if Rlt_dec (v3_dot (s_nml (smp S i)) (away S q i)) 0 then - v3_norm (away S q i) else v3_norm (away S q i)
  end.
(** No sample of the neighbourhood coincides with the query point or lies exactly at the support radius. *)
Definition clear_of (k : kernel) (S : list sample) (q : v3) (view : list nat) : Prop :=
  forall i, In i view -> away S q i <> v3_0 /\ match support k with None => True | Some r => v3_norm (away S q i) <> r end.
(** A sample carried along by a rigid motion. *)
Definition move_sample (Q : m3) (t : v3) (s : sample) : sample :=
  Sample (rigid Q t (s_pos s)) (m3_mulv Q (s_nml s)) (m3_mulv Q (s_vel s)) (s_value s).
