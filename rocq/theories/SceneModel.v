(** Scenes with keyframed vertices, softy/src/scene.rs: which positions of a keyframe are kept (146-219), the list of keyframes
    (220-386), the contacts of the configuration (493-510), sfrb files (520-528, 626-659) and the simulation loop (714-771).
    Simplified: positions are of any type [A]; of the vertex attributes only the one named "animated" is kept, and of its types the integer ones are
    told apart from all others; frames and steps do not overflow; a failed assertion or index is [None]; [binary_search_by_key] of the standard
    library, the solver, the callback and the two deserializers are parameters. *)
From Coq Require Import List Arith Bool ZArith.
Import ListNotations.

(** Attribute, l.62-73; F64, F32, F32x3, F64x3 and F32x2 are [Other]. *)
Inductive attribute := I32 (x : list Z) | I8 (x : list Z) | Usize (x : list nat) | Other.
(** vertex_attributes.get("animated") and num_vertices of MeshTopo, l.135-144. *)
Record mesh_topo := MeshTopo { mt_animated : option attribute; mt_vertices : nat }.

Section Positions.
Variable A : Type.

(** positions.zip(x).filter_map(..), l.157-171, once the attribute is read as marks. *)
Fixpoint keep_marked (positions : list A) (x : list bool) : list A :=
  match positions, x with
  | pos :: positions', b :: x' => if b then pos :: keep_marked positions' x' else keep_marked positions' x'
  | _, _ => []
  end.
(** x != 0 in l.160, 165, 170, 191, 197 and 203. *)
Definition marks_z (x : list Z) : list bool := map (fun a => negb (Z.eqb a 0)) x.
Definition marks_nat (x : list nat) : list bool := map (fun a => negb (Nat.eqb a 0)) x.
(** filter_animated, l.151-177. *)
Definition filter_animated (t : mesh_topo) (frame : nat) (positions : list A) : list A :=
  if Nat.eqb frame 0 then positions else
  match mt_animated t with
  | Some (I32 x) => keep_marked positions (marks_z x)
  | Some (I8 x) => keep_marked positions (marks_z x)
  | Some (Usize x) => keep_marked positions (marks_nat x)
  | Some Other => positions
  | None => positions
  end.
(** out_positions.zip(x).filter_map(..).zip(animated_positions), l.188-205. *)
Fixpoint assign_marked (out : list A) (x : list bool) (animated : list A) : list A :=
  match out, x with
  | o :: out', b :: x' => if b then match animated with a :: animated' => a :: assign_marked out' x' animated' | [] => out end else o :: assign_marked out' x' animated
  | _, _ => out
  end.
(** out_positions.zip(animated_positions), l.206-209 and 214-217. *)
Fixpoint assign_all (out animated : list A) : list A :=
  match out, animated with o :: out', a :: animated' => a :: assign_all out' animated' | _, _ => out end.
(** update_positions_with_animated, l.179-218. *)
Definition update_positions_with_animated (t : mesh_topo) (frame : nat) (animated out : list A) : list A :=
  if negb (Nat.eqb frame 0) then
    match mt_animated t with
    | Some (I32 x) => assign_marked out (marks_z x) animated
    | Some (I8 x) => assign_marked out (marks_z x) animated
    | Some (Usize x) => assign_marked out (marks_nat x) animated
    | Some Other => assign_all out animated
    | None => assign_all out animated
    end
  else assign_all out animated.

(** KeyframedVertexPositions and SceneData, l.220-240. *)
Record keyframe := Keyframe { kf_frame : nat; kf_positions : list A }.
Record scene_data := SceneData { sd_topo : mesh_topo; sd_animation : list keyframe }.
(** SceneData::new, l.246-289: the initial keyframe. *)
Definition new_scene (animated : option attribute) (vertex_positions : list A) : scene_data :=
  SceneData (MeshTopo animated (length vertex_positions)) [Keyframe 0 vertex_positions].
(** frames.windows(2).all(|ts| ts[0] <= ts[1]), l.317. *)
Fixpoint not_decreasing (frames : list nat) : bool :=
  match frames with a :: ((b :: _) as r) => andb (Nat.leb a b) (not_decreasing r) | _ => true end.
(** The closure in l.333-339. *)
Definition make_keyframe (t : mesh_topo) (frame : nat) (positions : list A) : option keyframe :=
  if Nat.eqb (length positions) (mt_vertices t) then Some (Keyframe frame (filter_animated t frame positions)) else None.
Fixpoint make_keyframes (t : mesh_topo) (l : list (nat * list A)) : option (list keyframe) :=
  match l with
  | [] => Some []
  | (f, q) :: r => match make_keyframe t f q with Some k => option_map (cons k) (make_keyframes t r) | None => None end
  end.
(** set_keyframes, l.306-342. *)
Definition set_keyframes (s : scene_data) (frames : list nat) (positions : list (list A)) : option scene_data :=
  if negb (Nat.eqb (length frames) (length positions)) then None else
  match frames with
  | [] => None
  | first_frame :: _ =>
    if negb (not_decreasing frames) then None else
    let kept := if Nat.eqb first_frame 0 then [] else firstn 1 (sd_animation s) in
    option_map (fun ks => SceneData (sd_topo s) (kept ++ ks)) (make_keyframes (sd_topo s) (combine frames positions))
  end.
(** Ok and Err of binary_search_by_key. *)
Inductive search_result := Found (pos : nat) | Missing (pos : nat).
(** self.animation[pos].positions = .., l.371-374, and last.positions = .., l.365; None is an index out of bounds. *)
Fixpoint set_positions (l : list keyframe) (pos : nat) (positions : list A) : option (list keyframe) :=
  match l, pos with
  | [], _ => None
  | k :: r, O => Some (Keyframe (kf_frame k) positions :: r)
  | k :: r, S pos' => option_map (cons k) (set_positions r pos' positions)
  end.
(** Vec::insert, l.375-381; None is an index past the length. *)
Fixpoint insert_at (l : list keyframe) (pos : nat) (k : keyframe) : option (list keyframe) :=
  match pos, l with
  | O, _ => Some (k :: l)
  | S pos', a :: r => option_map (cons a) (insert_at r pos' k)
  | S _, [] => None
  end.
(** add_keyframe, l.349-386. *)
Definition add_keyframe (search : list nat -> nat -> search_result) (s : scene_data) (frame : nat) (positions : list A) : option scene_data :=
  let t := sd_topo s in
  let l := sd_animation s in
  match rev l with
  | [] => None
  | last :: _ =>
    if negb (Nat.eqb (length positions) (mt_vertices t)) then None else
    let k := filter_animated t frame positions in
    option_map (SceneData t)
    match Nat.compare frame (kf_frame last) with
    | Gt => Some (l ++ [Keyframe frame k])
    | Eq => set_positions l (length l - 1) k
    | Lt => match search (map kf_frame l) frame with
            | Found pos => set_positions l pos k
            | Missing pos => insert_at l pos (Keyframe frame k)
            end
    end
  end.

(** * The simulation loop, run_with, l.714-771 *)
(** A solver [S], [step] and [update_vertex_positions] of it, which may fail, and the callback; the solver is built from the first keyframe
    (build_mesh, l.389-418, l.719-734). *)
Variable S : Type.
Inductive outcome := Finished (solver : S) | Interrupted (solver : S) | SolverError.
Section Run.
Variables (build : list A -> option S) (step : S -> option S) (update : S -> list A -> option S) (callback : nat -> S -> bool).
Variable d : scene_data.
(** The loop over frames, l.743-768: [left] frames are left, [frame] is the next one. *)
Fixpoint run_loop (left frame : nat) (solver : S) (animated : list A) (keyframe_index : nat) : outcome :=
  match left with
  | O => Finished solver
  | Datatypes.S left' =>
    match step solver with
    | None => SolverError
    | Some solver =>
      if negb (callback frame solver) then Interrupted solver else
      match nth_error (sd_animation d) keyframe_index with
      | Some k =>
        if Nat.leb (kf_frame k) (frame + 1) then
          let animated := update_positions_with_animated (sd_topo d) (kf_frame k) (kf_positions k) animated in
          match update solver animated with
          | Some solver => run_loop left' (frame + 1) solver animated (keyframe_index + 1)
          | None => SolverError
          end
        else run_loop left' (frame + 1) solver animated keyframe_index
      | None => run_loop left' (frame + 1) solver animated keyframe_index
      end
    end
  end.
(** run_with, l.714-771; None is the unwrap of an empty animation. *)
Definition run_with (steps : nat) : option outcome :=
  match sd_animation d with
  | [] => None
  | k :: _ => Some
    match build (kf_positions k) with
    | None => SolverError
    | Some solver => if negb (callback 0 solver) then Interrupted solver else run_loop steps 1 solver (kf_positions k) 1
    end
  end.
End Run.
End Positions.

(** add_frictional_contact of the configuration, l.493-510: [friction_params.is_none()] and [time_step.is_some()]. *)
Definition add_frictional_contact {C : Type} (has_friction : C -> bool) (has_time_step : bool) (contacts : list C) (params : C) : list C :=
  if orb (negb (has_friction params)) has_time_step then contacts ++ [params] else contacts.

(** Results of loading a file. *)
Inductive loaded (T : Type) := Loaded (t : T) | ConfigError | MissingNewline | DataError | IndexPanic.
(** load_from_sfrb, l.645-659 with read_as_ron, l.520-528: bytes are numbers, [ron] returns the configuration and the bytes after it. *)
Definition load_from_sfrb {C D : Type} (ron : list nat -> option (C * list nat)) (bincode : list nat -> option D) (bytes : list nat) : loaded (C * D) :=
  match ron bytes with
  | None => ConfigError _
  | Some (config, rest) =>
    match rest with
    | [] => IndexPanic _
    | b :: data => if negb (Nat.eqb b 10) then MissingNewline _ else match bincode data with Some scene => Loaded _ (config, scene) | None => DataError _ end
    end
  end.
(** save_as_sfrb, l.626-640. *)
Definition save_as_sfrb {C D : Type} (write_ron : C -> list nat) (write_bincode : D -> list nat) (s : C * D) : list nat :=
  write_ron (fst s) ++ [10] ++ write_bincode (snd s).
Arguments keep_marked {A}. Arguments filter_animated {A}. Arguments assign_marked {A}. Arguments assign_all {A}. Arguments update_positions_with_animated {A}.
Arguments Keyframe {A}. Arguments kf_frame {A}. Arguments kf_positions {A}. Arguments SceneData {A}. Arguments sd_topo {A}. Arguments sd_animation {A}.
Arguments new_scene {A}. Arguments make_keyframe {A}. Arguments make_keyframes {A}. Arguments set_keyframes {A}. Arguments set_positions {A}. Arguments insert_at {A}. Arguments add_keyframe {A}.
Arguments Finished {S}. Arguments Interrupted {S}. Arguments SolverError {S}. Arguments run_loop {A S}. Arguments run_with {A S}.
