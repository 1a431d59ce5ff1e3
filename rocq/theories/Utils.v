(** * Model of src/geometry/utils.rs and of the nalgebra-glm functions it calls. *)
From Coq Require Import List Bool.
From Verif Require Import Scalar.
Import ListNotations.

(** nalgebra_glm::Vec2 *)
Record Vec2 (A : Type) := P2 { vx : A; vy : A }.
Arguments P2 {A}. Arguments vx {A}. Arguments vy {A}.

Section Utils.
Context {O : Ops}.
Local Open Scope ops_scope.
Local Notation pt := (Vec2 O).

(** nalgebra Vec2 arithmetic, componentwise (external crate). *)
Definition p_add (a b : pt) : pt := P2 (vx a + vx b) (vy a + vy b).
Definition p_sub (a b : pt) : pt := P2 (vx a - vx b) (vy a - vy b).
Definition p_scale (a : pt) (s : O) : pt := P2 (vx a * s) (vy a * s).
Definition p_div (a : pt) (s : O) : pt := P2 (vx a / s) (vy a / s).
Definition p_dot (a b : pt) : O := vx a * vx b + vy a * vy b.
Definition p_norm (a : pt) : O := osqrt (p_dot a a).
(** nalgebra_glm::distance(a, b) = (b - a).norm() (external crate). *)
Definition distance (a b : pt) : O := p_norm (p_sub b a).
(** nalgebra_glm::normalize_dot(x, y) = x.normalize().dot(&y.normalize()). *)
Definition normalize_dot (x y : pt) : O :=
  p_dot (p_div x (p_norm x)) (p_div y (p_norm y)).
(** f32::powf(x, 2.0), taken to be x*x (what LLVM emits for the constant exponent 2). *)
Definition powf2 (x : O) : O := x * x.

(** utils.rs:5-18 parallel *)
Definition parallel (a b c d : pt) : bool :=
  let dir_ab := p_sub b a in
  let dir_cd := p_sub d c in
  let abs_dot := oabs (normalize_dot dir_ab dir_cd) in
  if oabs (abs_dot - c1) <? ceps then true else false.

(** utils.rs:21-33 is_degenerate_triangle *)
Definition is_degenerate_triangle (a b c : pt) : bool :=
  let side_a := distance b c in
  let side_b := distance a c in
  let side_c := distance a b in
  if (side_a + side_b <=? side_c) || (side_a + side_c <=? side_b)
     || (side_b + side_c <=? side_a) then true else false.

(** utils.rs:37-63 calculate_triangle_incenter *)
Definition calculate_triangle_incenter (a b c : pt) : option (pt * O) :=
  if is_degenerate_triangle a b c then None
  else
    let side_a := distance b c in
    let side_b := distance a c in
    let side_c := distance a b in
    let inv_p := c1 / (side_a + side_b + side_c) in
    let incenter :=
      P2 ((side_a * vx a + side_b * vx b + side_c * vx c) * inv_p)
         ((side_a * vy a + side_b * vy b + side_c * vy c) * inv_p) in
    let p := (side_a + side_b + side_c) * chalf in
    let area := osqrt (p * (p - side_a) * (p - side_b) * (p - side_c)) in
    let inradius := area / p in
    Some (incenter, inradius).

(** utils.rs:66-81 calculate_line_segment_intersection *)
Definition calculate_line_segment_intersection (a b c d : pt) : option pt :=
  let delta_x0 := vx b - vx a in
  let delta_y0 := vy b - vy a in
  let delta_x1 := vx d - vx c in
  let delta_y1 := vy d - vy c in
  let denom := - delta_x1 * delta_y0 + delta_x0 * delta_y1 in
  let s := (- delta_y0 * (vx a - vx c) + delta_x0 * (vy a - vy c)) / denom in
  let t := (delta_x1 * (vy a - vy c) - delta_y1 * (vx a - vx c)) / denom in
  if (s >=? c0) && (s <=? c1) && (t >=? c0) && (t <=? c1)
  then Some (P2 (vx a + t * delta_x0) (vy a + t * delta_y0))
  else None.

(** utils.rs:85-91 calculate_perpendicular_point *)
Definition calculate_perpendicular_point (a b p : pt) : pt :=
  let numer := (vy b - vy a) * (vx p - vx a) - (vx b - vx a) * (vy p - vy a) in
  let denom := powf2 (vy b - vy a) + powf2 (vx b - vx a) in
  let k := numer / denom in
  P2 (vx p - k * (vy b - vy a)) (vy p + k * (vx b - vx a)).

(** utils.rs:94-96 calculate_midpoint *)
Definition calculate_midpoint (a b : pt) : pt := p_scale (p_add a b) chalf.

(** utils.rs:101-118 calculate_perpendicular_bisector *)
Definition calculate_perpendicular_bisector (a b : pt) (offset : O) : pt * pt :=
  let midpoint := calculate_midpoint a b in
  let slope := (vy b - vy a) / (vx b - vx a) in
  let slope_perpendicular := - c1 / slope in
  let intercept := vy midpoint - slope_perpendicular * vx midpoint in
  let offset_point := p_add midpoint (P2 offset c0) in
  let second :=
    P2 (vx offset_point) (vx offset_point * slope_perpendicular + intercept) in
  (midpoint, second).

(** utils.rs:121-133 is_on_line_segment; [include_endpoints] is not used by the code *)
Definition is_on_line_segment (a b p : pt) (include_endpoints : bool) : bool :=
  let ab := distance a b in
  let ap := distance a p in
  let pb := distance p b in
  (oabs ((ap + pb) - ab) <? ceps) && (oabs ap >? ceps) && (oabs pb >? ceps).

(** utils.rs:148-153, the loop of find_closest_to: [(index, d)] over the distances *)
Fixpoint closest_loop (ds : list O) (index : nat) (min_index : nat) (min_distance : O)
  : nat * O :=
  match ds with
  | [] => (min_index, min_distance)
  | d :: ds' =>
      if d <? min_distance then closest_loop ds' (S index) index d
      else closest_loop ds' (S index) min_index min_distance
  end.

(** utils.rs:137-164 find_closest_to *)
Definition find_closest_to (t : pt) (points : list pt) : nat * O :=
  let distances := map (fun p => distance t p) points in
  closest_loop distances 0 0 cmax.

(** utils.rs:167-169 close_to *)
Definition close_to (a b : pt) : bool := distance a b <=? ceps.

(** utils.rs:181-186, inner loop of unique_points_among: is there j <> i with
    close_to(a, ps[j])?  [j] is the index of the head of the list. *)
Fixpoint has_close_other (a : pt) (i j : nat) (ps : list pt) : bool :=
  match ps with
  | [] => false
  | b :: ps' =>
      if negb (Nat.eqb i j) && close_to a b then true
      else has_close_other a i (S j) ps'
  end.

(** utils.rs:175-191, outer loop *)
Fixpoint unique_loop (all rest : list pt) (i : nat) : list pt :=
  match rest with
  | [] => []
  | a :: rest' =>
      let is_unique := negb (has_close_other a i 0 all) in
      if is_unique then a :: unique_loop all rest' (S i)
      else unique_loop all rest' (S i)
  end.

(** utils.rs:172-194 unique_points_among *)
Definition unique_points_among (ps : list pt) : list pt := unique_loop ps ps 0.

(** utils.rs:199-217 calculate_line_intersection *)
Definition calculate_line_intersection (a b c d : pt) : option pt :=
  let determinant := (vy d - vy c) * (vx b - vx a) - (vx d - vx c) * (vy b - vy a) in
  if oabs determinant >? ceps then
    let u_a := ((vx d - vx c) * (vy a - vy c) - (vy d - vy c) * (vx a - vx c)) / determinant in
    let u_b := ((vx b - vx a) * (vy a - vy c) - (vy b - vy a) * (vx a - vx c)) / determinant in
    if negb (((c0 <=? u_a) && (u_a <=? c1)) && ((c0 <=? u_b) && (u_b <=? c1)))
    then None
    else
      let x := vx a + u_a * (vx b - vx a) in
      let y := vy a + u_a * (vy b - vy a) in
      Some (P2 x y)
  else None.

End Utils.
