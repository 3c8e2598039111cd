(** Vocabulary for statements about interior edges. *)
From Coq Require Import Reals ZArith List Arith Bool.
From Verif Require Import Vec3 Mat3 ElasticModel AngleModel.
Import ListNotations.
Local Open Scope R_scope.

(** The two faces of an edge have three corners each and share its end points, in the opposite or in the same order. *)
Definition shares_edge (e : interior_edge) (faces : topology) : Prop :=
  (face_vert1 e faces 0 = face_vert0 e faces 1 /\ face_vert1 e faces 1 = face_vert0 e faces 0) \/
  (face_vert1 e faces 0 = face_vert0 e faces 0 /\ face_vert1 e faces 1 = face_vert0 e faces 1).
Definition valid_edge (e : interior_edge) (faces : topology) : Prop :=
  (start_0 e < 3)%nat /\ (start_1 e < 3)%nat /\ face_vert0 e faces 0 <> face_vert0 e faces 1 /\ shares_edge e faces.
(** Positions of the end points of the edge and of the two opposite corners. *)
Definition corners (e : interior_edge) (pos : nat -> v3) (faces : topology) : tet :=
  Tet (pos (edge_vert e faces 0)) (pos (edge_vert e faces 1)) (pos (edge_vert e faces 2)) (pos (edge_vert e faces 3)).
(** Edge vectors and consistently oriented normals of the two faces. *)
Definition along (x : tet) : v3 := v3_sub (t1 x) (t0 x).
Definition side0 (x : tet) : v3 := v3_sub (t2 x) (t0 x).
Definition side1 (x : tet) : v3 := v3_sub (t3 x) (t0 x).
Definition normal0 (x : tet) : v3 := v3_cross (along x) (side0 x).
Definition normal1 (x : tet) : v3 := v3_cross (side1 x) (along x).
Definition nondegenerate (x : tet) : Prop := normal0 x <> v3_0 /\ normal1 x <> v3_0.
(** The faces are folded onto each other. *)
Definition folded (x : tet) : Prop := v3_dot (normal0 x) (side1 x) = 0 /\ v3_dot (normal0 x) (normal1 x) < 0.
(** Angles that differ by full turns. *)
Definition same_angle (a b : R) : Prop := exists k : Z, a = b + 2 * PI * IZR k.
(** The symmetric matrix stored by the Hessian of an angle: lower triangles of the diagonal blocks, and the blocks (1,0), (2,0), (2,1), (3,0), (3,1);
    the block (3,2) is zero. *)
Definition stored_entry (h : list (list R) * list m3) (i j r c : nat) : R :=
  if Nat.eqb i j then nth (if Nat.leb c r then r * (r + 1) / 2 + c else c * (c + 1) / 2 + r)%nat (nth i (fst h) []) 0
  else if Nat.ltb j i then m3_get (nth (i * (i - 1) / 2 + j)%nat (snd h) m3_0) r c
  else m3_get (nth (j * (j - 1) / 2 + i)%nat (snd h) m3_0) c r.
