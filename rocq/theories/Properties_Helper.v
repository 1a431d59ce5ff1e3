(** * Properties C135, C136: the geometry helpers and the symmetries of the plane. *)
From Coq Require Import ZArith Reals List Bool Lra Lia.
From Flocq Require Import IEEE754.BinarySingleNaN.
From Verif Require Import Scalar Utils Polygon PlaneSpec UtilsReal SimSpec F32 IsoSpec MoveSim IsoReal SymF32 SymMove GAF32 HelperSpec HelperSym HelperIso.
Import ListNotations.

(** ** C135: f32, the eight symmetries of the square, all points (also NaN and infinities) *)
Theorem C135_same_answers :
  forall lm (s : sym8), let f : Vec2 (FO lm) -> Vec2 (FO lm) := sym_point s in
  (forall a b, distance (f a) (f b) = distance a b) /\
  (forall a b c d, parallel (f a) (f b) (f c) (f d) = parallel a b c d) /\
  (forall a b c, is_degenerate_triangle (f a) (f b) (f c) = is_degenerate_triangle a b c) /\
  (forall a b p i, is_on_line_segment (f a) (f b) (f p) i = is_on_line_segment a b p i) /\
  (forall t ps, find_closest_to (f t) (map f ps) = find_closest_to t ps) /\
  (forall ps, unique_points_among (map f ps) = map f (unique_points_among ps)) /\
  (forall a b c d, calculate_line_segment_intersection (f a) (f b) (f c) (f d) = option_map f (calculate_line_segment_intersection a b c d)).
Proof.
  intros lm s f. split; [exact (sym_dist lm s)|]. split; [exact (h_parallel lm s)|]. split; [exact (h_degenerate lm s)|].
  split; [intros a b p i; apply mv_on; exact (sym_dist lm s)|]. split; [intros t ps; apply mv_closest; exact (sym_dist lm s)|].
  split; [intros ps; apply mv_unique; exact (sym_dist lm s)|exact (sym_cross lm s)].
Qed.
Print Assumptions C135_same_answers.
Theorem C135_same_points :
  forall lm (s : sym8), let f : Vec2 (FO lm) -> Vec2 (FO lm) := sym_point s in
  (forall a b, same_point (calculate_midpoint (f a) (f b)) (f (calculate_midpoint a b))) /\
  (forall a b p, same_point (calculate_perpendicular_point (f a) (f b) (f p)) (f (calculate_perpendicular_point a b p))) /\
  (forall a b c, match calculate_triangle_incenter a b c, calculate_triangle_incenter (f a) (f b) (f c) with
     | Some (q, r), Some (q', r') => same_point q' (f q) /\ r' = r
     | None, None => True
     | _, _ => False
     end) /\
  (forall p, same_point (polygon_center (move_poly f p)) (f (polygon_center p))) /\
  (forall p t, Forall2 same_point (vertices (polygon_translate (move_poly f p) (f t))) (map f (vertices (polygon_translate p t)))) /\
  (forall p t, Forall2 same_point (vertices (polygon_uniform_scale (move_poly f p) t)) (map f (vertices (polygon_uniform_scale p t)))).
Proof.
  intros lm s f. split; [exact (h_midpoint lm s)|]. split; [exact (h_perp lm s)|]. split; [exact (h_incenter lm s)|].
  split; [exact (h_center lm s)|]. split; [exact (h_translate lm s)|exact (h_scale lm s)].
Qed.
Print Assumptions C135_same_points.
(** The perpendicular bisector is computed from slopes: only the four symmetries that do not
    exchange the coordinates, and only for segments that are neither vertical nor horizontal. *)
Theorem C135_bisector :
  forall lm (s : sym8) (a b : Vec2 (FO lm)) o, swap s = false ->
  zero (osub (o := FO lm) (vx b) (vx a)) = false ->
  zero (odiv (o := FO lm) (osub (o := FO lm) (vy b) (vy a)) (osub (o := FO lm) (vx b) (vx a))) = false ->
  let r' := calculate_perpendicular_bisector (O := FO lm) (sym_point s a) (sym_point s b) (signed (flip_x s) o) in
  let r := calculate_perpendicular_bisector a b o in
  same_point (fst r') (sym_point s (fst r)) /\ same_point (snd r') (sym_point s (snd r)).
Proof. intros lm s a b o Sw. exact (h_bisector lm s a b o Sw). Qed.
Print Assumptions C135_bisector.

Section Witnesses.
Variable lm : Libm.
Definition fp (x y : Z) : Vec2 (FO lm) := @P2 (FO lm) (f32_Z x) (f32_Z y).
Definition at_point (p q : Vec2 f32) : bool := Beqb (vx p) (vx q) && Beqb (vy p) (vy q).
Definition quarter : sym8 := Sym8 true true false.
Definition mirror : sym8 := Sym8 false false true.
(** The triangle (0, 0), (4, 0), (0, 3), a quarter turn, and the feet of a perpendicular. *)
Example C135_example :
  match calculate_triangle_incenter (O := FO lm) (fp 0 0) (fp 4 0) (fp 0 3), calculate_triangle_incenter (O := FO lm) (sym_point quarter (fp 0 0)) (sym_point quarter (fp 4 0)) (sym_point quarter (fp 0 3)) with
  | Some (q, r), Some (q', r') => at_point q (fp 1 1) && at_point q' (fp (-1) 1) && Beqb r (f32_Z 1) && Beqb r' (f32_Z 1)
  | _, _ => false
  end = true /\
  at_point (calculate_perpendicular_point (O := FO lm) (fp 0 0) (fp 4 4) (fp 4 0)) (fp 2 2) = true /\
  at_point (calculate_perpendicular_point (O := FO lm) (sym_point quarter (fp 0 0)) (sym_point quarter (fp 4 4)) (sym_point quarter (fp 4 0))) (fp (-2) 2) = true.
Proof. split; [|split]; vm_compute; reflexivity. Qed.
Example C135_bisector_example : zero (osub (o := FO lm) (vx (fp 2 4)) (vx (fp 0 0))) = false /\
  zero (odiv (o := FO lm) (osub (o := FO lm) (vy (fp 2 4)) (vy (fp 0 0))) (osub (o := FO lm) (vx (fp 2 4)) (vx (fp 0 0)))) = false /\
  at_point (snd (calculate_perpendicular_bisector (fp 0 0) (fp 2 4) (f32_Z 2))) (fp 3 1) = true /\
  at_point (snd (calculate_perpendicular_bisector (O := FO lm) (sym_point mirror (fp 0 0)) (sym_point mirror (fp 2 4)) (f32_Z 2))) (fp 3 (-1)) = true.
Proof. split; [|split; [|split]]; vm_compute; reflexivity. Qed.
(** With the coordinates exchanged the second point is another one: (3, 1) turned by 90
    degrees is (-1, 3), but (0, 5) and (-4, -3) are found for the offsets 2 and -2. *)
Example C135_bisector_fails_at_quarter :
  at_point (snd (calculate_perpendicular_bisector (O := FO lm) (sym_point quarter (fp 0 0)) (sym_point quarter (fp 2 4)) (f32_Z 2))) (fp 0 5) = true /\
  at_point (snd (calculate_perpendicular_bisector (O := FO lm) (sym_point quarter (fp 0 0)) (sym_point quarter (fp 2 4)) (f32_Z (-2)))) (fp (-4) (-3)) = true /\
  at_point (sym_point quarter (fp 3 1)) (fp (-1) 3) = true.
Proof. split; [|split]; vm_compute; reflexivity. Qed.
(** A horizontal segment mirrored in the x axis is itself, but the y found is +infinity. *)
Example C135_bisector_fails_at_horizontal :
  let r := snd (calculate_perpendicular_bisector (O := FO lm) (fp 0 0) (fp 2 0) (f32_Z (-3))) in
  at_point (sym_point mirror (fp 0 0)) (fp 0 0) = true /\ at_point (sym_point mirror (fp 2 0)) (fp 2 0) = true /\
  match vy r, vy (sym_point mirror r) with B754_infinity false, B754_infinity true => true | _, _ => false end = true.
Proof. split; [|split]; vm_compute; reflexivity. Qed.
End Witnesses.

(** ** C136: exact arithmetic, all isometries; midpoint and centre under all affine maps *)
Theorem C136_isometries :
  forall f, isometry f ->
  (forall a b c d, parallel (O := XO) (xp (f a)) (xp (f b)) (xp (f c)) (xp (f d)) = parallel (O := XO) (xp a) (xp b) (xp c) (xp d)) /\
  (forall a b c, is_degenerate_triangle (O := XO) (xp (f a)) (xp (f b)) (xp (f c)) = is_degenerate_triangle (O := XO) (xp a) (xp b) (xp c)) /\
  (forall a b p, calculate_perpendicular_point (O := XO) (xp (f a)) (xp (f b)) (xp (f p)) =
     on_reals f (calculate_perpendicular_point (O := XO) (xp a) (xp b) (xp p))) /\
  (forall a b c, calculate_triangle_incenter (O := XO) (xp (f a)) (xp (f b)) (xp (f c)) =
     option_map (fun qr => (on_reals f (fst qr), snd qr)) (calculate_triangle_incenter (O := XO) (xp a) (xp b) (xp c))).
Proof.
  intros f I. split; [exact (h_parallel_iso f I)|]. split; [exact (h_degenerate_iso f I)|]. split; [exact (h_perp_iso f I)|exact (h_incenter_iso f I)].
Qed.
Print Assumptions C136_isometries.
Theorem C136_affine :
  forall a b c d e h, let f := affine a b c d e h in
  (forall p q, calculate_midpoint (O := XO) (xp (f p)) (xp (f q)) = on_reals f (calculate_midpoint (O := XO) (xp p) (xp q))) /\
  (forall p : Polygon R, vertices p <> [] -> polygon_center (O := RO) (move_poly (O := RO) f p) = f (polygon_center (O := RO) p)).
Proof. intros a b c d e h f. split; [exact (h_mid_affine a b c d e h)|exact (h_center_affine a b c d e h)]. Qed.
Print Assumptions C136_affine.

(** A rotation by an angle that is no multiple of 90 degrees, with a translation. *)
Local Open Scope R_scope.
Definition turn345 : point -> point := affine (3 / 5) (- (4 / 5)) (4 / 5) (3 / 5) 1 2.
Example C136_example : isometry turn345 /\ turn345 (P2 5 0) = P2 4 6 /\
  calculate_perpendicular_point (O := XO) (xp (P2 0 0)) (xp (P2 5 0)) (xp (P2 5 5)) = xp (P2 5 0) /\
  calculate_perpendicular_point (O := XO) (xp (turn345 (P2 0 0))) (xp (turn345 (P2 5 0))) (xp (turn345 (P2 5 5))) = xp (P2 4 6).
Proof.
  assert (I : isometry turn345).
  { intros [px py] [qx qy]. unfold dist, turn345, affine. cbn [vx vy]. f_equal. field. }
  assert (P0 : calculate_perpendicular_point (O := XO) (xp (P2 0 0)) (xp (P2 5 0)) (xp (P2 5 5)) = xp (P2 5 0)).
  { unfold calculate_perpendicular_point, powf2, xp. cbn. unfold xdiv. destruct (Req_EM_T _ 0) as [Z|Z]; [exfalso; lra|]. cbn [lift2]. apply f_equal2; apply f_equal; field; exact Z. }
  split; [exact I|]. split; [unfold turn345, affine; cbn; f_equal; field|]. split; [exact P0|].
  rewrite (proj1 (proj2 (proj2 (C136_isometries turn345 I)))), P0, on_reals_xp. f_equal. unfold turn345, affine; cbn; f_equal; field.
Qed.
