(** What a caller of the kernel API relies on, in textbook terms. *)
From Coq Require Import Reals.
From Coquelicot Require Import Coquelicot.
From Verif Require Import Vec3 KernelModel.
Local Open Scope R_scope.

(** Parameters a caller may use: positive radius and tolerance. *)
Definition valid_kernel (k : kernel) : Prop :=
  match k with
  | Global e => 0 < e
  | Cubic r => 0 < r
  | Interpolating r c => 0 < r /\ 0 < c
  | Smooth r t => 0 < r /\ 0 < t
  | Approximate r e => 0 < r /\ 0 < e
  end.

(** Distances at which a kernel is a smooth formula: everything except the support radius,
    and except zero for the interpolating kernel (which has a pole there). *)
Definition regular_distance (k : kernel) (x : R) : Prop :=
  match k with
  | Global _ => True
  | Cubic r | Smooth r _ | Approximate r _ => x <> r
  | Interpolating r _ => x <> r /\ x <> 0
  end.

(** Support radius; [None] for the global kernel. *)
Definition support (k : kernel) : option R :=
  match k with
  | Global _ => None
  | Cubic r | Interpolating r _ | Smooth r _ | Approximate r _ => Some r
  end.

(** Kernels meant to be weights in [0,1] with value one at the sample.  The interpolating kernel is excluded on purpose:
    it has a pole at the sample (see [interpolating_kernel_has_a_pole] in KernelProps.v). *)
Definition normalised_kernel (k : kernel) : Prop :=
  match k with Cubic _ | Smooth _ _ | Approximate _ _ => True | _ => False end.

(** Derivative of a scalar field along direction [u] at [x]. *)
Definition directional (f : v3 -> R) (x u : v3) (l : R) : Prop :=
  is_derive (fun s => f (v3_line x u s)) 0 l.
(** Derivative of a vector field along [u] at [x]. *)
Definition directional_v (f : v3 -> v3) (x u l : v3) : Prop :=
  is_derive (fun s => vx (f (v3_line x u s))) 0 (vx l) /\
  is_derive (fun s => vy (f (v3_line x u s))) 0 (vy l) /\
  is_derive (fun s => vz (f (v3_line x u s))) 0 (vz l).
(** The same kernel in units scaled by [c], and the power of length of its values. *)
Definition rescaled (c : R) (k : kernel) : kernel :=
  match k with
  | Global e => Global (c * e) | Cubic r => Cubic (c * r) | Interpolating r d => Interpolating (c * r) (c * d)
  | Smooth r t => Smooth (c * r) t | Approximate r t => Approximate (c * r) t
  end.
Definition units (k : kernel) : nat := match k with Global _ => 4 | _ => 0 end.
