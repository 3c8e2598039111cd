(** Scalars over which generic Rust code ([T: Scalar + Float]) is instantiated, and forward-mode dual numbers.

    Models the part of the external [autodiff] crate ([autodiff::F]) that
    /repo/implicits/src/kernel.rs:276, 280, 368, 372 relies on.  The crate itself is not in /repo; its
    arithmetic is the standard dual-number arithmetic and is part of the trusted base (see DESIGN.md).
    Comparisons of dual numbers compare values only, as in the crate. *)
From Coq Require Import Reals.
Local Open Scope R_scope.

(** The operations of the Rust trait bounds [Scalar + Float] used by the generic kernels
    (/repo/implicits/src/kernel.rs:268-373). *)
Record ops (T : Type) := {
  o_of  : R -> T;                (* T::from *)
  o_add : T -> T -> T;
  o_sub : T -> T -> T;
  o_mul : T -> T -> T;
  o_div : T -> T -> T;
  o_val : T -> R                 (* what [>] looks at *)
}.
Arguments o_of {T}. Arguments o_add {T}. Arguments o_sub {T}. Arguments o_mul {T}.
Arguments o_div {T}. Arguments o_val {T}.

(** Plain floats (modelled as exact reals). *)
Definition ops_R : ops R :=
  {| o_of := fun x => x; o_add := Rplus; o_sub := Rminus; o_mul := Rmult; o_div := Rdiv; o_val := fun x => x |}.

(** [autodiff::F<T, T>]: a value and a derivative. *)
Record dual (T : Type) := mk_dual { d_val : T; d_der : T }.
Arguments mk_dual {T}. Arguments d_val {T}. Arguments d_der {T}.

Definition ops_dual {T} (o : ops T) : ops (dual T) :=
  {| o_of  := fun x => mk_dual (o_of o x) (o_of o 0);
     o_add := fun a b => mk_dual (o_add o (d_val a) (d_val b)) (o_add o (d_der a) (d_der b));
     o_sub := fun a b => mk_dual (o_sub o (d_val a) (d_val b)) (o_sub o (d_der a) (d_der b));
     o_mul := fun a b => mk_dual (o_mul o (d_val a) (d_val b))
                                 (o_add o (o_mul o (d_der a) (d_val b)) (o_mul o (d_val a) (d_der b)));
     o_div := fun a b => mk_dual (o_div o (d_val a) (d_val b))
                                 (o_div o (o_sub o (o_mul o (d_der a) (d_val b)) (o_mul o (d_val a) (d_der b)))
                                          (o_mul o (d_val b) (d_val b)));
     o_val := fun a => o_val o (d_val a) |}.

(** [autodiff::F::var(x)]: derivative one. *)
Definition d_var {T} (o : ops T) (x : T) : dual T := mk_dual x (o_of o 1).
