(** * C109-C110: incenter, degeneracy test and inradius in f32.

    u = [u32] = 2^-24.  [inbox], [pbound], [real_point], [within]: as in Properties_Geo.v;
    [incircle], [wmean], [shape]: IncSpec.v. *)
From Coq Require Import List Arith Bool Lia Reals Lra ZArith Psatz.
From Flocq Require Import Core.Core IEEE754.BinarySingleNaN.
From Verif Require Import Scalar Utils PlaneSpec F32 GraphDemo Format RoundSpec GridGraph GeoSpec GeoRound GeoOn
  PolyF32 IncSpec GeoInc GeoRad Properties_Cons.
Import ListNotations.
Local Open Scope R_scope.
Local Notation cross := PlaneSpec.cross.
Local Notation rp := real_point.

(** ** C109: incenter and degeneracy test *)
Theorem C109_incenter :
  forall lm (a b c : Vec2 (FO lm)), inbox a -> inbox b -> inbox c -> let A := rp a in let B := rp b in let C := rp c in
  bpow radix2 (-40) <= dist B C -> bpow radix2 (-40) <= dist A C -> bpow radix2 (-40) <= dist A B -> ~ collinear3 A B C ->
  forall i r, calculate_triangle_incenter a b c = Some (i, r) -> forall q R, incircle A B C q R ->
  let m := wmean (dist B C) (dist A C) (dist A B) in
  within (17 * u32 * m (Rabs (vx A)) (Rabs (vx B)) (Rabs (vx C)) + bpow radix2 (-100)) (vx i : f32) (vx q) /\
  within (17 * u32 * m (Rabs (vy A)) (Rabs (vy B)) (Rabs (vy C)) + bpow radix2 (-100)) (vy i : f32) (vy q).
Proof.
  intros lm a b c Ia Ib Ic A B C Ha Hb Hc N i r H q R HR m. pose proof (bpow_gt_0 radix2 (-40)).
  destruct (incenter_unique A B C q R N HR ltac:(lra) ltac:(lra) ltac:(lra)) as [-> _]. cbn [vx vy].
  exact (incenter_error lm a b c i r Ia Ib Ic Ha Hb Hc H).
Qed.
Print Assumptions C109_incenter.
(** Triangles that are not too flat are accepted. *)
Theorem C109_accepted :
  forall lm (a b c : Vec2 (FO lm)), inbox a -> inbox b -> inbox c ->
  let sa := dist (rp b) (rp c) in let sb := dist (rp a) (rp c) in let sc := dist (rp a) (rp b) in
  bpow radix2 (-40) <= sa -> bpow radix2 (-40) <= sb -> bpow radix2 (-40) <= sc -> let m := 9 / 2 * u32 * (sa + sb + sc) in
  m < sa + sb - sc -> m < sa + sc - sb -> m < sb + sc - sa ->
  is_degenerate_triangle a b c = false /\ exists i r, calculate_triangle_incenter a b c = Some (i, r).
Proof.
  intros lm a b c Ia Ib Ic sa sb sc Ha Hb Hc m H1 H2 H3. pose proof (degenerate_error lm a b c Ia Ib Ic Ha Hb Hc H1 H2 H3) as D.
  split; [exact D|]. unfold calculate_triangle_incenter. rewrite D. eexists. eexists. reflexivity.
Qed.
Print Assumptions C109_accepted.
(** Without the margin the test errs on both sides: (0,0), (1,6), (5,30) are collinear and are
    given an incenter and a positive inradius... *)
Theorem C109_accepted_fails_at_collinear :
  collinear3 (rp (xy 0 0)) (rp (xy 1 6)) (rp (xy 5 30)) /\
  match calculate_triangle_incenter (O := FO lm0) (xy 0 0) (xy 1 6) (xy 5 30) with Some (_, r) => Bltb (f32_of 3 (-10)) (r : f32) = true | None => False end.
Proof.
  split; [|vm_compute; reflexivity]. rewrite !rp_xy by lia. unfold collinear3, cross. cbn [vx vy]. ring.
Qed.
Print Assumptions C109_accepted_fails_at_collinear.
(** ... and (0,0), (1,2^-13), (2,0) are not collinear and are rejected. *)
Theorem C109_accepted_fails_at_flat :
  let b : Vec2 (FO lm0) := P2 (f32_of 1 0) (f32_of 1 (-13)) in
  ~ collinear3 (rp (xy 0 0)) (rp b) (rp (xy 2 0)) /\ calculate_triangle_incenter (O := FO lm0) (xy 0 0) b (xy 2 0) = None.
Proof.
  cbv zeta. split; [|vm_compute; reflexivity]. rewrite !rp_xy by lia. destruct (f32_of_exact 1 0 ltac:(lia) ltac:(lia)) as [_ E1].
  destruct (f32_of_exact 1 (-13) ltac:(lia) ltac:(lia)) as [_ E2]. unfold collinear3, cross, real_point. cbn [vx vy]. rewrite E1, E2.
  pose proof (bpow_gt_0 radix2 (-13)). intros Z. lra.
Qed.
Print Assumptions C109_accepted_fails_at_flat.

(** ** C110: inradius *)
Theorem C110_inradius :
  forall lm (a b c : Vec2 (FO lm)) k, pbound (bpow radix2 28) a -> pbound (bpow radix2 28) b -> pbound (bpow radix2 28) c ->
  let A := rp a in let B := rp b in let C := rp c in
  bpow radix2 (-20) <= dist B C -> bpow radix2 (-20) <= dist A C -> bpow radix2 (-20) <= dist A B ->
  shape k A B C -> 1000 * u32 * k <= 1 -> forall q R, incircle A B C q R ->
  exists i r, calculate_triangle_incenter a b c = Some (i, r) /\ within (26 * u32 * k * R) (r : f32) R.
Proof. exact inradius_error. Qed.
Print Assumptions C110_inradius.
(** Beyond that size the radius of a finite triangle need not be finite: a right triangle with
    legs 2^33 has inradius below 2^33, and Heron's product overflows. *)
Theorem C110_inradius_fails_at_large :
  let o : Vec2 (FO lm0) := xy 0 0 in let a : Vec2 (FO lm0) := P2 (f32_of 1 33) (f32_of 0 0) in let b : Vec2 (FO lm0) := P2 (f32_of 0 0) (f32_of 1 33) in
  match calculate_triangle_incenter o a b with Some (_, r) => is_finite (r : f32) = false | None => False end.
Proof. vm_compute. reflexivity. Qed.
Print Assumptions C110_inradius_fails_at_large.

(** The triangle (0,0), (14,0), (5,12) with sides 15, 13, 14: incenter (6,4), inradius 4. *)
Lemma dist_of : forall a b d, 0 <= d -> (vx b - vx a) * (vx b - vx a) + (vy b - vy a) * (vy b - vy a) = d * d -> dist a b = d.
Proof. intros a b d H E. unfold dist. rewrite E. now apply sqrt_square. Qed.
Example C109_C110_example :
  let A := P2 0 0 in let B := P2 14 0 in let C := P2 5 12 in
  rp (xy 0 0) = A /\ rp (xy 14 0) = B /\ rp (xy 5 12) = C /\
  pbound (bpow radix2 28) (xy 0 0) /\ pbound (bpow radix2 28) (xy 14 0) /\ pbound (bpow radix2 28) (xy 5 12) /\
  dist B C = 15 /\ dist A C = 13 /\ dist A B = 14 /\ shape (7 / 2) A B C /\ 1000 * u32 * (7 / 2) <= 1 /\ ~ collinear3 A B C /\
  incircle A B C (P2 6 4) 4.
Proof.
  cbv zeta. rewrite !rp_xy by lia. do 3 (split; [reflexivity|]).
  assert (PB : forall x y, (Z.abs x <= 1000)%Z -> (Z.abs y <= 1000)%Z -> pbound (bpow radix2 28) (xy x y)).
  { intros x y Hx Hy. destruct (f32_Z_exact x ltac:(lia)) as [Fx Ex]. destruct (f32_Z_exact y ltac:(lia)) as [Fy Ey].
    assert (G : forall z, (Z.abs z <= 1000)%Z -> Rabs (IZR z) <= bpow radix2 28).
    { intros z Hz. rewrite <- abs_IZR. apply Rle_trans with (bpow radix2 10); [change (bpow radix2 10) with (IZR 1024); apply IZR_le; lia|apply bpow_le; lia]. }
    split; [now split|]. unfold xy. cbn [vx vy]. rewrite Ex, Ey. split; now apply G. }
  do 3 (split; [apply PB; lia|]).
  assert (D1 : dist (P2 14 0) (P2 5 12) = 15) by (apply dist_of; cbn [vx vy]; lra).
  assert (D2 : dist (P2 0 0) (P2 5 12) = 13) by (apply dist_of; cbn [vx vy]; lra).
  assert (D3 : dist (P2 0 0) (P2 14 0) = 14) by (apply dist_of; cbn [vx vy]; lra).
  assert (D4 : dist (P2 5 12) (P2 0 0) = 13) by (apply dist_of; cbn [vx vy]; lra).
  do 3 (split; [assumption|]). split; [unfold shape, half_per; rewrite D1, D2, D3; lra|]. split; [unfold u32; lra|].
  split; [unfold collinear3, cross; cbn [vx vy]; lra|]. unfold incircle, line_dist. rewrite D1, D3, D4. unfold cross. cbn [vx vy]. split.
  - exists (15 / 42), (13 / 42), (14 / 42). repeat split; try lra. cbn [vx vy]. f_equal; lra.
  - repeat split; rewrite Rabs_pos_eq by lra; lra.
Qed.
