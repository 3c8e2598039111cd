(** What the second derivatives in the vertices of the surface are for: the curvature of the potential along motions of the vertices. *)
From Coq Require Import Reals List.
From Coquelicot Require Import Coquelicot.
From Verif Require Import Vec3 RList HessSpec.
Import ListNotations.
Local Open Scope R_scope.

(** A function with a derivative around zero, which has a derivative at zero. *)
Definition second_rate (f : R -> R) (c : R) : Prop :=
  exists g : R -> R, locally 0 (fun s => is_derive f s (g s)) /\ is_derive g 0 c.
(** Coordinates of the motion of all vertices, three for each vertex. *)
Definition coordinate (U : nat -> v3) (r : nat) : R :=
  let u := U (Nat.div r 3) in match Nat.modulo r 3 with O => vx u | 1%nat => vy u | _ => vz u end.
(** Quadratic form of the symmetric [n] by [n] matrix whose lower triangle is given as indices and values. *)
Definition lower_form (n : nat) (ij : list (nat * nat)) (vals : list R) (x : nat -> R) : R :=
  rsum (map (fun i => rsum (map (fun j => lower_entry ij vals i j * x i * x j) (seq 0 n))) (seq 0 n)).
(** The query points that have neighbours, in their order. *)
Definition neighbored (ns : list (list nat)) : list nat :=
  filter (fun i => match nth i ns [] with [] => false | _ :: _ => true end) (seq 0 (length ns)).
