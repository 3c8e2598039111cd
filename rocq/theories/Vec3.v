(** 3-vectors over exact reals: the part of the external [tensr] crate used by the modelled code
    (componentwise [+], [-], scalar product, [dot], [cross], [norm]).  The crate is not in /repo; these
    standard meanings are part of the trusted base. *)
From Coq Require Import Reals.
Local Open Scope R_scope.

Record v3 := V3 { vx : R; vy : R; vz : R }.
Definition v3_0 : v3 := V3 0 0 0.
Definition v3_add (a b : v3) : v3 := V3 (vx a + vx b) (vy a + vy b) (vz a + vz b).
Definition v3_sub (a b : v3) : v3 := V3 (vx a - vx b) (vy a - vy b) (vz a - vz b).
Definition v3_neg (a : v3) : v3 := V3 (- vx a) (- vy a) (- vz a).
Definition v3_scale (s : R) (a : v3) : v3 := V3 (s * vx a) (s * vy a) (s * vz a).
Definition v3_dot (a b : v3) : R := vx a * vx b + vy a * vy b + vz a * vz b.
Definition v3_cross (a b : v3) : v3 :=
  V3 (vy a * vz b - vz a * vy b) (vz a * vx b - vx a * vz b) (vx a * vy b - vy a * vx b).
Definition v3_norm (a : v3) : R := sqrt (v3_dot a a).
(** The point [a + s * u]. *)
Definition v3_line (a u : v3) (s : R) : v3 := v3_add a (v3_scale s u).
