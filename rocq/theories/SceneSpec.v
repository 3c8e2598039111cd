(** Keyframed scenes in textbook terms. *)
From Coq Require Import List Arith Bool ZArith Sorted.
From Verif Require Import SceneModel.
Import ListNotations.

(** Vertex [i] follows the keyframes: it is marked by an integer attribute, or there is no integer attribute. *)
Definition follows (t : mesh_topo) (i : nat) : bool :=
  match mt_animated t with
  | Some (I32 x) | Some (I8 x) => negb (Z.eqb (nth i x 0%Z) 0)
  | Some (Usize x) => negb (Nat.eqb (nth i x 0) 0)
  | Some Other | None => true
  end.
(** Each frame is stored at most once, in order. *)
Definition in_order {A} (l : list (keyframe A)) : Prop := StronglySorted lt (map kf_frame l).
(** What is stored for a frame. *)
Definition stored_for {A} (l : list (keyframe A)) (frame : nat) : option (list A) := option_map kf_positions (find (fun k => Nat.eqb (kf_frame k) frame) l).
(** The contract of [binary_search_by_key]: a place with the key, or the place where it fits. *)
Definition searches (search : list nat -> nat -> search_result) : Prop := forall keys key, StronglySorted le keys ->
  match search keys key with
  | Found i => nth_error keys i = Some key
  | Missing i => (i <= length keys)%nat /\ (forall j a, (j < i)%nat -> nth_error keys j = Some a -> (a < key)%nat) /\ (forall j a, (i <= j)%nat -> nth_error keys j = Some a -> (key < a)%nat)
  end.
(** Adding keyframes one after the other. *)
Fixpoint add_keyframes {A} (search : list nat -> nat -> search_result) (s : scene_data A) (l : list (nat * list A)) : option (scene_data A) :=
  match l with [] => Some s | (f, q) :: r => match add_keyframe search s f q with Some s' => add_keyframes search s' r | None => None end end.
(** The positions prescribed at a frame: those of the last keyframe that is not later, for the vertices that follow the keyframes. *)
Definition latest {A} (first : list A) (keys : list (nat * list A)) (frame : nat) : list A :=
  fold_left (fun q k => if Nat.leb (fst k) frame then snd k else q) keys first.
Definition prescribed {A} (t : mesh_topo) (first : list A) (keys : list (nat * list A)) (frame : nat) : list A :=
  map (fun e => if follows t (fst e) then snd (snd e) else fst (snd e)) (combine (seq 0 (length first)) (combine first (latest first keys frame))).
(** The intended loop: when a keyframe is due at [lead] frames after the one just computed, the solver gets the prescribed positions. *)
Section Loop.
Variables (A S : Type) (step : S -> option S) (update : S -> list A -> option S) (callback : nat -> S -> bool).
Variables (t : mesh_topo) (first : list A) (keys : list (nat * list A)) (lead : nat).
Fixpoint playback (left frame : nat) (solver : S) : outcome S :=
  match left with
  | O => Finished solver
  | Datatypes.S left' =>
    match step solver with
    | None => SolverError
    | Some solver =>
      if negb (callback frame solver) then Interrupted solver else
      if existsb (fun k => Nat.eqb (fst k) (frame + lead)) keys then
        match update solver (prescribed t first keys (frame + lead)) with Some solver => playback left' (frame + 1) solver | None => SolverError end
      else playback left' (frame + 1) solver
    end
  end.
End Loop.
Arguments playback {A S}.
