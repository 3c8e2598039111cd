(** Moving-least-squares potential of the implicit surface crate, its background field and its derivatives:
    /repo/implicits/src/field.rs, field/background_field.rs, field/samples.rs and field/jacobian.rs.

    Exact reals.  A view into the samples is the list of its indices; an index out of range panics in the code and reads a
    zero sample here.  [signum] of zero is one ([+0.0]; the sign of a zero is not modelled).  The global kernel has infinite
    radius: its background weight is [f(infinity) = 0]; the gradient of that weight is NaN in the code when the background is
    weighted (automatic differentiation at infinity) and is zero here, so theorems about gradients exclude that case. *)
From Coq Require Import Reals List.
From Verif Require Import Vec3 Mat3 RList KernelModel.
Import ListNotations.
Local Open Scope R_scope.

(** Sample, samples.rs:11-24 (its index is its position in the arrays). *)
Record sample := Sample { s_pos : v3; s_nml : v3; s_vel : v3; s_value : R }.
Definition sample0 : sample := Sample v3_0 v3_0 v3_0 0.
(** SamplesView::at_index, samples.rs:411-426. *)
Definition smp (S : list sample) (i : nat) : sample := nth i S sample0.

(** Iterator::sum of vectors. *)
Definition vsum (l : list v3) : v3 := fold_right v3_add v3_0 l.

(** BackgroundFieldType and BackgroundFieldParams, background_field.rs:10-25. *)
Inductive field_type := FZero | FInput | FDistance.
Record bg_params := BgParams { p_type : field_type; p_weighted : bool }.
(** BackgroundFieldValue and its constructor, background_field.rs:29-48. *)
Inductive bg_value := BConstant (v : R) | BClosest.
Definition bg_value_new (t : field_type) (v : option R) : bg_value :=
  let field_value := match v with Some x => x | None => 0 end in
  match t with FZero => BConstant 0 | FInput => BConstant field_value | FDistance => BClosest end.
(** ClosestIndex, background_field.rs:56-68. *)
Inductive closest_index := Local (i : nat) | Global_ (i : nat).
Definition ci_get (c : closest_index) : nat := match c with Local i | Global_ i => i end.

(** RadialKernel::with_closest_dist, kernel.rs:578-625: only the interpolating kernel keeps the distance. *)
Definition with_closest (k : kernel) (d : R) : kernel :=
  match k with Interpolating r _ => Interpolating r d | _ => k end.
(** SphericalKernel::radius, kernel.rs:594-668; [None] is infinity. *)
Definition k_radius (k : kernel) : option R :=
  match k with Global _ => None | Cubic r | Interpolating r _ | Smooth r _ | Approximate r _ => Some r end.

(** BackgroundField, background_field.rs:74-97. *)
Record bg := Bg { b_q : v3; b_all : list sample; b_view : list nat; b_value : bg_value; b_weighted : bool; b_sum : R;
  b_kernel : kernel; b_dist : R; b_disp : v3; b_index : closest_index }.

(** closest_sample, background_field.rs:138-146: [min_by] keeps the first of equal minima. *)
Definition norm2 (v : v3) : R := v3_dot v v.
Definition dist2 (S : list sample) (q : v3) (i : nat) : R := norm2 (v3_sub q (s_pos (smp S i))).
Definition closest_sample (q : v3) (S : list sample) (view : list nat) : option nat :=
  match view with
  | [] => None
  | i :: rest => Some (fold_left (fun best j => if Rlt_dec (dist2 S q j) (dist2 S q best) then j else best) rest i)
  end.

(** background_weight, background_field.rs:287-297. *)
Definition background_weight (b : bg) : R :=
  match k_radius (b_kernel b) with
  | None => 0
  | Some r => if Rlt_dec r (b_dist b) then 1 else if b_weighted b then k_f (b_kernel b) (r - b_dist b) else 0
  end.
(** new_impl, background_field.rs:232-273. *)
Definition bg_new_impl (q : v3) (S : list sample) (view : list nat) (c : closest_index) (k : kernel) (P : bg_params)
    (v : option R) : bg :=
  let disp := v3_sub q (s_pos (smp S (ci_get c))) in
  let dist := v3_norm disp in
  let weight_sum := rsum (map (fun i => k_eval (with_closest k dist) q (s_pos (smp S i))) view) in
  let b := Bg q S view (bg_value_new (p_type P) v) (p_weighted P) weight_sum k dist disp c in
  Bg q S view (b_value b) (b_weighted b) (weight_sum + background_weight b) k dist disp c.
(** local, background_field.rs:152-176; [None] is the error. *)
Definition bg_local (q : v3) (S : list sample) (view : list nat) (k : kernel) (P : bg_params) (v : option R) : option bg :=
  match closest_sample q S view with
  | Some i => Some (bg_new_impl q S view (Local i) k P v)
  | None => None
  end.
(** global, background_field.rs:182-224. *)
Definition bg_global (q : v3) (S : list sample) (view : list nat) (closest : nat) (k : kernel) (P : bg_params) (v : option R) : bg :=
  let c := match closest_sample q S view with Some i => Local i | None => Global_ closest end in
  bg_new_impl q S view c k P v.
(** new, background_field.rs:112-132. *)
Definition bg_new (q : v3) (S : list sample) (view : list nat) (closest : option nat) (k : kernel) (P : bg_params) (v : option R)
  : option bg :=
  match closest with Some c => Some (bg_global q S view c k P v) | None => bg_local q S view k P v end.

(** weight_sum_inv, background_field.rs:276-282. *)
Definition weight_sum_inv (b : bg) : R := if Req_EM_T (b_sum b) 0 then 0 else 1 / b_sum b.

(** background_weight_gradient, background_field.rs:302-331. *)
Definition background_weight_gradient (b : bg) (index : option nat) : v3 :=
  match k_radius (b_kernel b) with
  | None => v3_0
  | Some r =>
    if Rlt_dec r (b_dist b) then v3_0 else if negb (b_weighted b) then v3_0 else
    let slope := k_df (b_kernel b) (r - b_dist b) / b_dist b in
    match index with
    | Some i =>
        match b_index b with
        | Local c => if Nat.eqb i c then v3_scale slope (b_disp b) else v3_0
        | Global_ _ => v3_0
        end
    | None => v3_scale slope (v3_neg (b_disp b))
    end
  end.

(** f64::signum. *)
Definition signum (x : R) : R := if Rlt_dec x 0 then -1 else 1.
(** orientation, background_field.rs:408-411. *)
Definition orientation (b : bg) : R := signum (v3_dot (s_nml (smp (b_all b) (ci_get (b_index b)))) (b_disp b)).
(** field_value, background_field.rs:414-422. *)
Definition field_value (b : bg) : R :=
  match b_value b with BConstant v => v | BClosest => b_dist b * orientation b end.
(** field_gradient, background_field.rs:425-448. *)
Definition field_gradient (b : bg) : v3 :=
  match b_value b with
  | BConstant _ => v3_0
  | BClosest => if Req_EM_T (b_dist b) 0 then v3_0 else v3_scale (orientation b / b_dist b) (b_disp b)
  end.

(** Weight of a sample, [kernel.with_closest_dist(closest_d).eval(q, pos)] and its gradient. *)
Definition s_weight (k : kernel) (closest_d : R) (q : v3) (s : sample) : R := k_eval (with_closest k closest_d) q (s_pos s).
Definition s_weight_grad (k : kernel) (closest_d : R) (q : v3) (s : sample) : v3 := k_grad (with_closest k closest_d) q (s_pos s).
(** compute_local_potential_at, field.rs:1037-1061. *)
Definition local_potential_at (q : v3) (S : list sample) (view : list nat) (k : kernel) (wsi closest_d : R) : R :=
  rsum (map (fun i => let s := smp S i in
    s_weight k closest_d q s * (s_value s + v3_dot (s_nml s) (v3_sub q (s_pos s)) / v3_norm (s_nml s))) view) * wsi.
(** compute_potential_at, field.rs:1005-1034: the potential passed in is the background value and, for an empty
    neighbourhood, the result. *)
Definition potential_at (q : v3) (S : list sample) (view : list nat) (k : kernel) (P : bg_params) (potential : R) : R :=
  match bg_local q S view k P (Some potential) with
  | None => potential
  | Some b =>
      let wsi := weight_sum_inv b in
      field_value b * background_weight b * wsi + local_potential_at q S view k wsi (b_dist b)
  end.

(** compute_query_jacobian, background_field.rs:689-724. *)
Definition bg_query_jacobian (b : bg) : v3 :=
  let wsi := weight_sum_inv b in
  let wb := background_weight b * wsi in
  let grad :=
    if b_weighted b then
      let dwb := background_weight_gradient b None in
      let dw_total := v3_add (vsum (map (fun i => s_weight_grad (b_kernel b) (b_dist b) (b_q b) (smp (b_all b) i)) (b_view b))) dwb in
      v3_scale (field_value b * wsi) (v3_sub dwb (v3_scale wb dw_total))
    else v3_0 in
  v3_add grad (v3_scale wb (field_gradient b)).
(** normalized_neighbor_weight_gradient, jacobian.rs:1203-1231. *)
Definition neighbor_weight_gradient (b : bg) : v3 :=
  v3_scale (weight_sum_inv b)
    (v3_add (vsum (map (fun i => s_weight_grad (b_kernel b) (b_dist b) (b_q b) (smp (b_all b) i)) (b_view b)))
            (background_weight_gradient b None)).
(** sample_query_jacobian_at, jacobian.rs:1766-1786. *)
Definition sample_query_jacobian_at (q : v3) (s : sample) (k : kernel) (multiplier dw_neigh : v3) (wsi closest_d : R) : v3 :=
  let w := s_weight k closest_d q s in
  let dw := s_weight_grad k closest_d q s in
  let psi := s_value s + v3_dot multiplier (v3_sub q (s_pos s)) in
  v3_scale wsi (v3_add (v3_scale psi (v3_sub dw (v3_scale w dw_neigh))) (v3_scale w multiplier)).
(** [nml * (1 / nml.norm())]. *)
Definition unit_of (n : v3) : v3 := v3_scale (1 / v3_norm n) n.
(** query_jacobian_at, jacobian.rs:1022-1066; [None] is the panic of [unwrap]. *)
Definition query_jacobian_at (q : v3) (S : list sample) (view : list nat) (closest : option nat) (k : kernel) (P : bg_params)
  : option v3 :=
  match bg_new q S view closest k P None with
  | None => None
  | Some b =>
      let dw_neigh := neighbor_weight_gradient b in
      Some (v3_add
        (vsum (map (fun i => let s := smp S i in
           sample_query_jacobian_at q s k (unit_of (s_nml s)) dw_neigh (weight_sum_inv b) (b_dist b)) view))
        (bg_query_jacobian b))
  end.

(** compute_sample_jacobian, background_field.rs:521-573, with the arguments prepared by compute_jacobian, 486-503. *)
Definition is_closest_field (v : bg_value) : bool := match v with BClosest => true | BConstant _ => false end.
Definition bg_sample_jacobian (b : bg) (i : nat) : v3 :=
  let wsi := weight_sum_inv b in
  let wb := background_weight b * wsi in
  let dwbdp := background_weight_gradient b (Some (ci_get (b_index b))) in
  let field := field_value b in
  let here := andb (is_closest_field (b_value b)) (Nat.eqb i (ci_get (b_index b))) in
  let g0 := if here then v3_neg (v3_scale wb (field_gradient b)) else v3_0 in
  if negb (b_weighted b) then g0 else
  let g1 := v3_add g0 (v3_scale (field * wb * wsi) (s_weight_grad (b_kernel b) (b_dist b) (b_q b) (smp (b_all b) i))) in
  if here then v3_add g1 (v3_scale (field * wsi * (1 - wb)) dwbdp) else g1.
(** local_sample_jacobian_at, jacobian.rs:1464-1497. *)
Definition local_sample_jacobian_at (q : v3) (s : sample) (k : kernel) (dwb : v3) (closest_d local_pot wsi : R) : v3 :=
  let n := unit_of (s_nml s) in
  let dw := s_weight_grad k closest_d q s in
  let w := s_weight k closest_d q s in
  v3_sub (v3_sub (v3_scale (local_pot * wsi) (v3_sub dw dwb))
                 (v3_scale (wsi * (s_value s + v3_dot n (v3_sub q (s_pos s)))) dw))
         (v3_scale (w * wsi) n).
(** sample_jacobian_at, jacobian.rs:1389-1425: one vector per sample of the view. *)
Definition sample_jacobian_at (b : bg) : list v3 :=
  let wsi := weight_sum_inv b in
  let local_pot := local_potential_at (b_q b) (b_all b) (b_view b) (b_kernel b) wsi (b_dist b) in
  map (fun i => v3_add (bg_sample_jacobian b i)
         (local_sample_jacobian_at (b_q b) (smp (b_all b) i) (b_kernel b) (background_weight_gradient b (Some i)) (b_dist b) local_pot wsi))
      (b_view b).
(** ImplicitSurfaceBase::reverse, field.rs:270-280 (and reverse_par, 285-295): normals only. *)
Definition reverse (S : list sample) : list sample :=
  map (fun s => Sample (s_pos s) (v3_neg (s_nml s)) (s_vel s) (s_value s)) S.
