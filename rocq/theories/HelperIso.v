(** * The helper functions in exact arithmetic under isometries and affine maps. *)
From Coq Require Import Reals List Bool Lra Lia.
From Verif Require Import Scalar Utils Polygon PlaneSpec UtilsReal SimSpec IsoSpec IsoReal.
Import ListNotations.
Local Open Scope R_scope.

Section Affine.
Variables a b c d e h : R.
Local Notation f := (affine a b c d e h).
Lemma h_mid_affine : forall p q, calculate_midpoint (O := XO) (xp (f p)) (xp (f q)) = on_reals f (calculate_midpoint (O := XO) (xp p) (xp q)).
Proof. intros [px py] [qx qy]. unfold calculate_midpoint, p_scale, p_add, on_reals, xp, affine. cbn. unfold xp; cbn. apply f_equal2; apply f_equal; field. Qed.
Lemma center_sum : forall vs (q : point) n, fold_left (p_add (O := RO)) (map f vs) (P2 (a * vx q + b * vy q + n * e) (c * vx q + d * vy q + n * h)) =
  (let s := fold_left (p_add (O := RO)) vs q in P2 (a * vx s + b * vy s + (n + INR (length vs)) * e) (c * vx s + d * vy s + (n + INR (length vs)) * h)).
Proof.
  induction vs as [|v vs IH]; intros q n; cbn [map fold_left].
  - cbn [length INR]. rewrite Rplus_0_r. reflexivity.
  - replace (p_add (O := RO) (P2 (a * vx q + b * vy q + n * e) (c * vx q + d * vy q + n * h)) (f v))
      with (P2 (a * vx (p_add (O := RO) q v) + b * vy (p_add (O := RO) q v) + (n + 1) * e) (c * vx (p_add (O := RO) q v) + d * vy (p_add (O := RO) q v) + (n + 1) * h)).
    + rewrite IH. cbn zeta. replace (n + 1 + INR (length vs)) with (n + INR (length (v :: vs))) by (cbn [length]; rewrite S_INR; ring). reflexivity.
    + unfold p_add, affine. cbn. f_equal; ring.
Qed.
Lemma h_center_affine : forall p : Polygon R, vertices p <> [] -> polygon_center (O := RO) (move_poly (O := RO) f p) = f (polygon_center (O := RO) p).
Proof.
  intros [vs] N. cbn [vertices] in N. unfold polygon_center, move_poly. cbn [vertices]. rewrite map_length.
  pose proof (center_sum vs (P2 0 0) 0) as E. cbn [vx vy] in E. rewrite !Rmult_0_r, !Rmult_0_l, !Rplus_0_r, Rplus_0_l in E.
  change (@P2 RO c0 c0) with (P2 0 0). cbn [car RO] in *. rewrite E. cbn zeta.
  assert (INR (length vs) <> 0) by (apply not_0_INR; destruct vs; [congruence|discriminate]).
  unfold p_div, affine. cbn. f_equal; field; assumption.
Qed.
End Affine.

Section Iso.
Variable f : point -> point.
Hypothesis I : isometry f.

Lemma h_parallel_iso : forall a b c d, parallel (O := XO) (xp (f a)) (xp (f b)) (xp (f c)) (xp (f d)) = parallel (O := XO) (xp a) (xp b) (xp c) (xp d).
Proof.
  intros a b c d. unfold parallel, normalize_dot. rewrite !p_norm_xp, !I.
  match goal with |- context [oabs (p_dot ?A ?B)] => match goal with |- _ = (if olt (oabs (osub (oabs (p_dot ?A' ?B')) _)) _ then _ else _) =>
    replace (p_dot A B) with (p_dot A' B'); [reflexivity|] end end.
  destruct (isometry_affine f I) as (al & be & ga & de & e & h & E & N1 & N2 & N3). rewrite !E. destruct a as [ax ay], b as [bx by'], c as [cx cy], d as [dx dy].
  unfold p_div, p_dot, p_sub, xp, affine. cbn [vx vy]. cbn [osub omul oadd odiv XO lift2]. set (r := dist _ _). set (r' := dist _ _).
  unfold xdiv. destruct (Req_EM_T r 0) as [Z|Z]; [reflexivity|]. destruct (Req_EM_T r' 0) as [Z'|Z']; [reflexivity|]. cbn [lift2]. apply f_equal.
  set (u := bx - ax). set (v := by' - ay). set (m := dx - cx). set (n := dy - cy).
  replace (al * bx + be * by' + e - (al * ax + be * ay + e)) with (al * u + be * v) by (unfold u, v; ring).
  replace (ga * bx + de * by' + h - (ga * ax + de * ay + h)) with (ga * u + de * v) by (unfold u, v; ring).
  replace (al * dx + be * dy + e - (al * cx + be * cy + e)) with (al * m + be * n) by (unfold m, n; ring).
  replace (ga * dx + de * dy + h - (ga * cx + de * cy + h)) with (ga * m + de * n) by (unfold m, n; ring).
  transitivity ((u * m + v * n) / (r * r')); [field; tauto|].
  transitivity ((u * m * (al * al + ga * ga) + v * n * (be * be + de * de) + (u * n + v * m) * (al * be + ga * de)) / (r * r')); [rewrite N1, N2, N3|]; field; tauto.
Qed.
Lemma h_degenerate_iso : forall a b c, is_degenerate_triangle (O := XO) (xp (f a)) (xp (f b)) (xp (f c)) = is_degenerate_triangle (O := XO) (xp a) (xp b) (xp c).
Proof. intros a b c. unfold is_degenerate_triangle. now rewrite !distance_xp, !I. Qed.
Lemma h_perp_iso : forall a b p, calculate_perpendicular_point (O := XO) (xp (f a)) (xp (f b)) (xp (f p)) =
  on_reals f (calculate_perpendicular_point (O := XO) (xp a) (xp b) (xp p)).
Proof.
  intros a b p. destruct (isometry_affine f I) as (al & be & ga & de & e & h & E & N1 & N2 & N3). rewrite (on_reals_ext f _ E), !E.
  assert (D1 : (al * de - be * ga) * de = al) by (transitivity (al * (be * be + de * de) - be * (al * be + ga * de)); [ring|rewrite N2, N3; ring]).
  assert (D2 : (al * de - be * ga) * ga = - be) by (transitivity (al * (al * be + ga * de) - be * (al * al + ga * ga)); [ring|rewrite N1, N3; ring]).
  destruct a as [ax ay], b as [bx by'], p as [px py]. unfold calculate_perpendicular_point, powf2, xp, affine. cbn [vx vy]. cbn [osub omul oadd odiv XO lift2].
  set (u := bx - ax). set (v := by' - ay). set (m := px - ax). set (n := py - ay). set (D := al * de - be * ga) in *.
  replace (al * bx + be * by' + e - (al * ax + be * ay + e)) with (al * u + be * v) by (unfold u, v; ring).
  replace (ga * bx + de * by' + h - (ga * ax + de * ay + h)) with (ga * u + de * v) by (unfold u, v; ring).
  replace (al * px + be * py + e - (al * ax + be * ay + e)) with (al * m + be * n) by (unfold m, n; ring).
  replace (ga * px + de * py + h - (ga * ax + de * ay + h)) with (ga * m + de * n) by (unfold m, n; ring).
  replace ((ga * u + de * v) * (ga * u + de * v) + (al * u + be * v) * (al * u + be * v)) with (v * v + u * u)
    by (transitivity (u * u * (al * al + ga * ga) + v * v * (be * be + de * de) + 2 * u * v * (al * be + ga * de)); [rewrite N1, N2, N3|]; ring).
  replace ((ga * u + de * v) * (al * m + be * n) - (al * u + be * v) * (ga * m + de * n)) with (D * (v * m - u * n)) by (unfold D; ring).
  unfold xdiv. destruct (Req_EM_T (v * v + u * u) 0) as [Z|Z]; [reflexivity|]. cbn [lift2]. unfold on_reals, xp. cbn [vx vy].
  apply f_equal2; apply f_equal.
  - transitivity (al * px + be * py + e - (v * m - u * n) / (v * v + u * u) * ((D * ga) * u + (D * de) * v)); [field; exact Z|]. rewrite D1, D2. field. exact Z.
  - assert (D3 : D * al = de) by (transitivity (de * (al * al + ga * ga) - ga * (al * be + ga * de)); [unfold D; ring|rewrite N1, N3; ring]).
    assert (D4 : D * be = - ga) by (transitivity (de * (al * be + ga * de) - ga * (be * be + de * de)); [unfold D; ring|rewrite N2, N3; ring]).
    transitivity (ga * px + de * py + h + (v * m - u * n) / (v * v + u * u) * ((D * al) * u + (D * be) * v)); [field; exact Z|]. rewrite D3, D4. field. exact Z.
Qed.
Lemma h_incenter_iso : forall a b c, calculate_triangle_incenter (O := XO) (xp (f a)) (xp (f b)) (xp (f c)) =
  option_map (fun qr => (on_reals f (fst qr), snd qr)) (calculate_triangle_incenter (O := XO) (xp a) (xp b) (xp c)).
Proof.
  intros a b c. unfold calculate_triangle_incenter. rewrite h_degenerate_iso, !distance_xp, !I. destruct (is_degenerate_triangle (O := XO) (xp a) (xp b) (xp c)); [reflexivity|].
  cbn [option_map fst snd]. f_equal. f_equal. destruct (isometry_affine f I) as (al & be & ga & de & e & h & E & _). rewrite (on_reals_ext f _ E), !E.
  destruct a as [ax ay], b as [bx by'], c as [cx cy]. set (A := dist _ _). set (B := dist (P2 ax ay) (P2 cx cy)). set (C := dist (P2 ax ay) (P2 bx by')).
  unfold xp, affine. cbn [vx vy c1 osub omul oadd odiv XO lift2]. unfold xdiv. destruct (Req_EM_T (A + B + C) 0) as [Z|Z]; [reflexivity|]. cbn [lift2].
  unfold on_reals, xp. cbn [vx vy]. apply f_equal2; apply f_equal; field; exact Z.
Qed.
End Iso.
