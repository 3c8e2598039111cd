(** Combination of energies: /repo/softy/src/energy_models/mod.rs, impls of Energy, EnergyGradient, EnergyHessianTopology and
    EnergyHessian (energy.rs) for [Option<E>], [Either<A, B>] and [(A, B)].  The state and dqdv are fixed, so they are left out.
    Every output slice is a list; a method returns the slice it leaves behind, or [None] when it panics. *)
From Coq Require Import Reals List Arith.
From Verif Require Import ElasticModel.
Import ListNotations.
Local Open Scope R_scope.

(** The trait methods, energy.rs; [fill_rows_cols] is energy_hessian_rows_cols_offset with the two slices side by side. *)
Record en := En {
  en_energy : R;                                                      (* energy *)
  en_gradient : list R -> option (list R);                            (* add_energy_gradient *)
  en_size : nat;                                                      (* energy_hessian_size *)
  en_indices : nat * nat -> list (nat * nat) -> option (list (nat * nat)); (* energy_hessian_indices_offset *)
  en_values : R -> list R -> option (list R);                         (* energy_hessian_values *)
  en_diagonal : R -> list R -> option (list R) }.                     (* add_energy_hessian_diagonal *)

(** [Option<E>], mod.rs:13-70. *)
Definition opt_en (o : option en) : en :=
  match o with
  | Some e => En (en_energy e) (en_gradient e) (en_size e) (en_indices e) (en_values e) (en_diagonal e)
  | None => En 0 (fun l => Some l) 0 (fun _ l => Some l) (fun _ l => Some l) (fun _ l => Some l)
  end.
(** [Either<A, B>], l.72-152. *)
Inductive either_en := Left_en (e : en) | Right_en (e : en).
Definition either_of (o : either_en) : en :=
  match o with
  | Left_en e => En (en_energy e) (en_gradient e) (en_size e) (en_indices e) (en_values e) (en_diagonal e)
  | Right_en e => En (en_energy e) (en_gradient e) (en_size e) (en_indices e) (en_values e) (en_diagonal e)
  end.
(** [&mut l[..n]] and [&mut l[n..]] handed to two methods in turn; the slicing panics when [n] exceeds the length. *)
Definition split_fill {A} (n : nat) (f g : list A -> option (list A)) (l : list A) : option (list A) :=
  if Nat.leb n (length l) then bind (f (firstn n l)) (fun a => bind (g (skipn n l)) (fun b => Some (a ++ b))) else None.
(** [(A, B)], l.158-222. *)
Definition pair_en (a b : en) : en :=
  En (en_energy a + en_energy b)
     (fun l => bind (en_gradient a l) (en_gradient b))
     (en_size a + en_size b)
     (fun off => split_fill (en_size a) (en_indices a off) (en_indices b off))
     (fun s => split_fill (en_size a) (en_values a s) (en_values b s))
     (fun s l => bind (en_diagonal a s l) (en_diagonal b s)).

(** Any nesting, as problem.rs builds it. *)
Inductive comb := Leaf (e : en) | Absent | Present (c : comb) | LeftC (c : comb) | RightC (c : comb) | PairC (a b : comb).
Fixpoint comb_en (c : comb) : en :=
  match c with
  | Leaf e => e
  | Absent => opt_en None
  | Present c => opt_en (Some (comb_en c))
  | LeftC c => either_of (Left_en (comb_en c))
  | RightC c => either_of (Right_en (comb_en c))
  | PairC a b => pair_en (comb_en a) (comb_en b)
  end.
