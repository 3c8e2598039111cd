(** Vocabulary for statements about vertex types, order, history and masses. *)
From Coq Require Import Reals List Arith Permutation.
From Verif Require Import RList StateModel.
Import ListNotations.
Local Open Scope R_scope.

(** What the type of a vertex should be. *)
Definition in_rigid_cell (cells : list cell) (i : nat) : Prop := exists c, In c cells /\ c_mat c = MRigid /\ In i (c_verts c).
Definition in_soft_cell (cells : list cell) (i : nat) : Prop := exists c, In c cells /\ c_mat c = MSoft /\ c_valid c = true /\ In i (c_verts c).
(** [order] lists the vertices 0 .. n-1 with non-decreasing type. *)
Definition sorts (types : list vtype) (order : list nat) : Prop :=
  Permutation order (seq 0 (length types)) /\
  forall i j, (i <= j < length order)%nat -> (rank (nth (nth i order 0%nat) types Ignored) <= rank (nth (nth j order 0%nat) types Ignored))%nat.
(** Committing a list of velocity vectors one after the other. *)
Definition commits (upd : dof -> R -> R) (vs : list (list R)) (s : state) : state := fold_left (fun s v => problem_advance upd v s) vs s.
Definition total_mass (es : list element) : R := rsum (map (fun e => el_measure e * el_density e) es).
