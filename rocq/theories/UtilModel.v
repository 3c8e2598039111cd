(** Helpers: /repo/utils/src/lib.rs, and material parameters: /repo/softy/src/objects/material.rs. *)
From Coq Require Import Reals ZArith List Arith Bool.
From Verif Require Import RList.
Import ListNotations.

(** * Power-of-two rounding, on bit patterns *)
(** approx_power_of_two64, utils/src/lib.rs:87-89, and approx_power_of_two32, l.95-97. *)
Definition approx_power_of_two64 (bits : Z) : Z := Z.land bits 0xfff0000000000000.
Definition approx_power_of_two32 (bits : Z) : Z := Z.land bits 0xff800000.

(** * Mode, l.102-119 *)
(** [bins.resize(i + 1, 0)] when the index is beyond the end, then [bins[i] += 1]. *)
Fixpoint bump (bins : list nat) (i : nat) : list nat :=
  match bins, i with
  | [], O => [1]
  | [], S i' => 0 :: bump [] i'
  | b :: r, O => S b :: r
  | b :: r, S i' => b :: bump r i'
  end.
(** [enumerate().max_by_key(..)]: the last of the greatest; [max_by_key] keeps the later element on ties. *)
Fixpoint last_max (i : nat) (best : nat * nat) (bins : list nat) : nat * nat :=
  match bins with [] => best | f :: r => last_max (S i) (if Nat.leb (snd best) f then (i, f) else best) r end.
Definition mode_u32 (data : list nat) : nat * nat :=
  match fold_left bump data [] with [] => (0, 0) | f :: r => last_max 1 (0, f) r end.

(** * Mesh Laplacian, l.30-70 *)
Local Open Scope R_scope.
Definition face := (nat * nat * nat)%type.
(** The triplets of one face, then the diagonal. *)
Definition face_triplets (w : R) (f : face) : list (nat * nat * R) :=
  let '(v0, v1, v2) := f in [(v0, v1, w); (v0, v2, w); (v1, v0, w); (v1, v2, w); (v2, v0, w); (v2, v1, w)].
Definition laplacian_triplets (size : nat) (faces : list face) (w : R) : list (nat * nat * R) :=
  flat_map (face_triplets w) faces ++ map (fun i => (i, i, 1 - w)) (seq 0 size).
(** [pruned] (external crate tensr): entries at the same place are merged in order with the given closure, [a += 0.5 * (a + b)],
    and merged entries equal to zero are dropped. *)
Definition merge (a b : R) : R := a + 0.5 * (a + b).
Definition entries_at (ts : list (nat * nat * R)) (i j : nat) : list R :=
  map snd (filter (fun t => Nat.eqb (fst (fst t)) i && Nat.eqb (snd (fst t)) j) ts).
Definition merged (l : list R) : option R := match l with [] => None | a :: r => Some (fold_left merge r a) end.
Definition pruned_row (ts : list (nat * nat * R)) (size i : nat) : list (nat * R) :=
  flat_map (fun j => match merged (entries_at ts i j) with Some v => if Req_EM_T v 0 then [] else [(j, v)] | None => [] end) (seq 0 size).
(** Normalisation of the rows: [n = row.len() - 1], and entries off the diagonal are divided by [n]. *)
Definition normalize_row (i : nat) (row : list (nat * R)) : list (nat * R) :=
  let n := INR (length row - 1) in map (fun e => if Nat.eqb i (fst e) then e else (fst e, snd e / n)) row.
Definition laplacian_row (size : nat) (faces : list face) (w : R) (i : nat) : list (nat * R) :=
  normalize_row i (pruned_row (laplacian_triplets size faces w) size i).

(** * Material parameters, material.rs:459-517 *)
Inductive params := Lame (lambda mu : R) | YoungPoisson (young poisson : R) | BulkShear (bulk shear : R).
(** ElasticityParameters::lambda, l.492-500: the product and quotient associate to the left. *)
Definition lambda_of (p : params) : R :=
  match p with
  | Lame lambda _ => lambda
  | YoungPoisson young poisson => young * poisson / (1.0 + poisson) * (1.0 - 2.0 * poisson)
  | BulkShear bulk shear => bulk - 2.0 * shear / 3.0
  end.
(** mu, l.502-510. *)
Definition mu_of (p : params) : R :=
  match p with
  | Lame _ mu => mu
  | YoungPoisson young poisson => young / (2.0 * (1.0 + poisson))
  | BulkShear _ shear => shear
  end.
(** Elasticity::lame, l.557-563. *)
Inductive model := NeoHookean | StableNeoHookean.
Definition effective_lame (m : model) (p : params) : R * R :=
  match m with NeoHookean => (lambda_of p, mu_of p) | StableNeoHookean => (lambda_of p + 5.0 * mu_of p / 6.0, 4.0 * mu_of p / 3.0) end.
