(** * C106-C108: midpoint, centre, perpendicular foot and line intersection in f32.

    u = [u32] = 2^-24; [eps32] = 2^-23 is f32::EPSILON.  [pfin], [inbox] (magnitudes up to
    2^60), [real_point], [within], [cond], [par_err], [lerp_err], [gam]: as in
    Properties_Geo.v; [det_err], [rsum], [asum]: ConsSpec.v. *)
From Coq Require Import List Arith Bool Lia Reals Lra ZArith Psatz.
From Flocq Require Import Core.Core IEEE754.BinarySingleNaN.
From Verif Require Import Scalar Utils Polygon PlaneSpec F32 GraphDemo Format RoundSpec GridGraph GeoSpec GeoRound GeoOn GeoSeg
  PolyF32 ConsSpec GeoCons GeoFoot GeoLine.
Import ListNotations.
Local Open Scope R_scope.
Local Notation cross := PlaneSpec.cross.
Local Notation rp := real_point.

(** ** C106: midpoints and centres *)
Theorem C106_midpoint :
  forall lm (a b : Vec2 (FO lm)), pfin a -> pfin b -> let A := rp a in let B := rp b in let m := calculate_midpoint a b in
  (1 + u32) * Rabs (vx A + vx B) < bpow radix2 128 -> (1 + u32) * Rabs (vy A + vy B) < bpow radix2 128 ->
  within (u32 / 2 * Rabs (vx A + vx B) + bpow radix2 (-150)) (vx m : f32) ((vx A + vx B) / 2) /\
  within (u32 / 2 * Rabs (vy A + vy B) + bpow radix2 (-150)) (vy m : f32) ((vy A + vy B) / 2) /\
  Rmin (vx A) (vx B) <= B2R (vx m : f32) <= Rmax (vx A) (vx B) /\
  Rmin (vy A) (vy B) <= B2R (vy m : f32) <= Rmax (vy A) (vy B).
Proof.
  intros lm [ax ay] [bx by'] [Fax Fay] [Fbx Fby] A B m Hx Hy.
  destruct (half_sum lm ax bx Fax Fbx Hx) as [X1 X2]. destruct (half_sum lm ay by' Fay Fby Hy) as [Y1 Y2].
  split; [exact X1|]. split; [exact Y1|]. split; [exact X2|exact Y2].
Qed.
Print Assumptions C106_midpoint.
(** Beyond that range the midpoint of two finite points need not be finite. *)
Theorem C106_midpoint_fails_at_overflow :
  let a : Vec2 (FO lm0) := P2 (f32_of 3 126) (f32_Z 0) in pfin a /\ is_finite (vx (calculate_midpoint a a) : f32) = false.
Proof. vm_compute. auto. Qed.
Print Assumptions C106_midpoint_fails_at_overflow.

Theorem C106_center :
  forall lm (p : Polygon (FO lm)), Forall inbox (vertices p) -> (1 <= Z.of_nat (length (vertices p)) <= 16777216)%Z ->
  let n := length (vertices p) in
  let xs := map (fun v : Vec2 f32 => vx v) (vertices p) in let ys := map (fun v : Vec2 f32 => vy v) (vertices p) in
  within (gam (S n) * (asum xs / INR n) + bpow radix2 (-150)) (vx (polygon_center p) : f32) (rsum (map (@B2R 24 128) xs) / INR n) /\
  within (gam (S n) * (asum ys / INR n) + bpow radix2 (-150)) (vy (polygon_center p) : f32) (rsum (map (@B2R 24 128) ys) / INR n).
Proof.
  intros lm p H L n xs ys. rewrite (center_coords lm p). cbn [vx vy].
  assert (Lx : length xs = n) by apply map_length. assert (Ly : length ys = n) by apply map_length.
  split; [rewrite <- Lx|rewrite <- Ly]; apply (mean_error lm); try (rewrite ?Lx, ?Ly; exact L).
  - apply Forall_map. eapply Forall_impl; [|exact H]. intros v ([F1 _] & B1 & _). now split.
  - apply Forall_map. eapply Forall_impl; [|exact H]. intros v ([_ F2] & _ & B2). now split.
Qed.
Print Assumptions C106_center.

Lemma inbox_xy : forall x y, (Z.abs x <= 1000)%Z -> (Z.abs y <= 1000)%Z -> inbox (xy x y).
Proof.
  intros x y Hx Hy. destruct (f32_Z_exact x ltac:(lia)) as [Fx Ex]. destruct (f32_Z_exact y ltac:(lia)) as [Fy Ey].
  assert (B : forall z, (Z.abs z <= 1000)%Z -> Rabs (IZR z) <= bpow radix2 60).
  { intros z Hz. rewrite <- abs_IZR. apply Rle_trans with (bpow radix2 10); [change (bpow radix2 10) with (IZR 1024); apply IZR_le; lia|apply bpow_le; lia]. }
  split; [now split|]. unfold xy. cbn [vx vy]. rewrite Ex, Ey. split; now apply B.
Qed.
Lemma rp_xy : forall x y, (Z.abs x <= 1000)%Z -> (Z.abs y <= 1000)%Z -> rp (xy x y) = P2 (IZR x) (IZR y).
Proof.
  intros x y Hx Hy. destruct (f32_Z_exact x ltac:(lia)) as [_ Ex]. destruct (f32_Z_exact y ltac:(lia)) as [_ Ey].
  unfold real_point, xy. cbn [vx vy]. now rewrite Ex, Ey.
Qed.
(** (1,0) and (2,1): inside the range; a triangle whose mean abscissa 1/3 is no f32. *)
Example C106_example :
  pfin (xy 1 0) /\ pfin (xy 2 1) /\ (1 + u32) * Rabs (1 + 2) < bpow radix2 128 /\
  let p := MkPolygon [xy 0 0; xy 1 0; xy 0 1] in
  Forall inbox (vertices p) /\ (1 <= Z.of_nat (length (vertices p)) <= 16777216)%Z /\
  is_finite (vx (polygon_center p) : f32) = true.
Proof.
  split; [exact (proj1 (inbox_xy 1 0 ltac:(lia) ltac:(lia)))|]. split; [exact (proj1 (inbox_xy 2 1 ltac:(lia) ltac:(lia)))|].
  split. { rewrite Rabs_pos_eq by lra. apply Rlt_le_trans with (bpow radix2 3); [change (bpow radix2 3) with 8; unfold u32; lra|apply bpow_le; lia]. }
  cbv zeta. cbn [vertices]. split; [repeat (apply Forall_cons; [apply inbox_xy; lia|]); apply Forall_nil|]. split; [cbn; lia|vm_compute; reflexivity].
Qed.

(** ** C107: the perpendicular foot *)
Theorem C107_foot :
  forall lm (a b p : Vec2 (FO lm)), inbox a -> inbox b -> inbox p -> let A := rp a in let B := rp b in let P := rp p in
  bpow radix2 (-40) <= dist A B -> forall q, on_line A B q -> dot A B P q = 0 ->
  within (13 * u32 * dist A P + u32 * Rabs (vx P) + bpow radix2 (-86)) (vx (calculate_perpendicular_point a b p) : f32) (vx q) /\
  within (13 * u32 * dist A P + u32 * Rabs (vy P) + bpow radix2 (-86)) (vy (calculate_perpendicular_point a b p) : f32) (vy q).
Proof. exact foot_error. Qed.
Print Assumptions C107_foot.
(** Without the lower bound on |ab| the result need not be finite: at |ab| = 2^-76 the square
    underflows to 0. *)
Theorem C107_foot_fails_at_short_segments :
  let a : Vec2 (FO lm0) := P2 (f32_of 0 0) (f32_of 0 0) in let b : Vec2 (FO lm0) := P2 (f32_of 1 (-76)) (f32_of 0 0) in
  inbox a /\ inbox b /\ rp a <> rp b /\ is_finite (vy (calculate_perpendicular_point a b (xy 1 1)) : f32) = false.
Proof.
  cbv zeta. destruct (f32_of_exact 1 (-76) ltac:(lia) ltac:(lia)) as [F1 E1]. destruct (f32_of_exact 0 0 ltac:(lia) ltac:(lia)) as [F0 E0].
  assert (Z0 : IZR 0 * bpow radix2 0 = 0) by ring. rewrite Z0 in E0. rewrite Rmult_1_l in E1.
  assert (B0 : Rabs 0 <= bpow radix2 60) by (rewrite Rabs_R0; apply bpow_ge_0).
  assert (B1 : Rabs (bpow radix2 (-76)) <= bpow radix2 60) by (rewrite Rabs_pos_eq by apply bpow_ge_0; apply bpow_le; lia).
  split; [split; [now split|]; cbn [vx vy]; rewrite E0; now split|].
  split; [split; [now split|]; cbn [vx vy]; rewrite E0, E1; now split|].
  split; [|vm_compute; reflexivity]. unfold real_point. cbn [vx vy]. rewrite E0, E1. intros H. injection H as H. pose proof (bpow_gt_0 radix2 (-76)). lra.
Qed.
Print Assumptions C107_foot_fails_at_short_segments.
(** The foot of (1,5) on the line through (0,0) and (3,0). *)
Example C107_example :
  inbox (xy 0 0) /\ inbox (xy 3 0) /\ inbox (xy 1 5) /\ bpow radix2 (-40) <= dist (rp (xy 0 0)) (rp (xy 3 0)) /\
  on_line (rp (xy 0 0)) (rp (xy 3 0)) (P2 1 0) /\ dot (rp (xy 0 0)) (rp (xy 3 0)) (rp (xy 1 5)) (P2 1 0) = 0.
Proof.
  rewrite !rp_xy by lia. split; [apply inbox_xy; lia|]. split; [apply inbox_xy; lia|]. split; [apply inbox_xy; lia|]. split; [|split].
  - unfold dist. cbn [vx vy]. replace (_ + _) with (3 * 3) by ring. rewrite sqrt_square by lra. apply Rle_trans with (bpow radix2 0); [apply bpow_le; lia|cbn; lra].
  - exists (/ 3). unfold along. cbn [vx vy]. f_equal; field.
  - unfold dot. cbn [vx vy]. ring.
Qed.

(** ** C108: intersection of lines *)
Theorem C108_line_intersection :
  forall lm (a b c d : Vec2 (FO lm)), inbox a -> inbox b -> inbox c -> inbox d ->
  let A := rp a in let B := rp b in let C := rp c in let D := rp d in
  cross A B C D <> 0 -> 100 * u32 * cond A B C D <= 1 -> forall t s, along A B t = along C D s ->
  let et := par_err A B C D in let es := par_err C D A B in
  (eps32 + det_err A B C D < Rabs (cross A B C D) -> et <= t <= 1 - et -> es <= s <= 1 - es ->
     exists p, calculate_line_intersection a b c d = Some p) /\
  (forall p, calculate_line_intersection a b c d = Some p ->
     eps32 - det_err A B C D < Rabs (cross A B C D) /\ - et <= t <= 1 + et /\ - es <= s <= 1 + es /\
     within (lerp_err (vx A) (vx B) + et * Rabs (vx B - vx A)) (vx p : f32) (vx (along A B t)) /\
     within (lerp_err (vy A) (vy B) + et * Rabs (vy B - vy A)) (vy p : f32) (vy (along A B t))).
Proof. exact line_accurate. Qed.
Print Assumptions C108_line_intersection.
(** Short segments are never reported to meet, whatever their position. *)
Theorem C108_short_segments_missed :
  forall lm (a b c d : Vec2 (FO lm)), inbox a -> inbox b -> inbox c -> inbox d ->
  dist (rp a) (rp b) * dist (rp c) (rp d) <= eps32 / 2 -> calculate_line_intersection a b c d = None.
Proof.
  intros lm a b c d Ha Hb Hc Hd H. apply (line_parallel lm a b c d Ha Hb Hc Hd). pose proof (cross_le (rp a) (rp b) (rp c) (rp d)) as L.
  assert (T : bpow radix2 (-125) <= / 100 * eps32).
  { rewrite eps_num. apply Rle_trans with (bpow radix2 (-40)); [apply bpow_le; lia|change (bpow radix2 (-40)) with (/ IZR 1099511627776); lra]. }
  unfold det_err. rewrite eps_num in *. unfold u32. lra.
Qed.
Print Assumptions C108_short_segments_missed.
(** (0,2)-(4,2) and (2,0)-(2,4) cross in their middles. *)
Example C108_example :
  let A := P2 0 2 in let B := P2 4 2 in let C := P2 2 0 in let D := P2 2 4 in
  rp (xy 0 2) = A /\ rp (xy 4 2) = B /\ rp (xy 2 0) = C /\ rp (xy 2 4) = D /\
  inbox (xy 0 2) /\ inbox (xy 4 2) /\ inbox (xy 2 0) /\ inbox (xy 2 4) /\
  cross A B C D <> 0 /\ 100 * u32 * cond A B C D <= 1 /\ along A B (/ 2) = along C D (/ 2) /\
  eps32 + det_err A B C D < Rabs (cross A B C D) /\ par_err A B C D <= / 2 <= 1 - par_err A B C D /\ par_err C D A B <= / 2 <= 1 - par_err C D A B.
Proof.
  cbv zeta.
  assert (DL : forall a b c d, (vx b - vx a) * (vx b - vx a) + (vy b - vy a) * (vy b - vy a) = 4 * 4 -> (vx d - vx c) * (vx d - vx c) + (vy d - vy c) * (vy d - vy c) = 4 * 4 ->
    (vx c - vx a) * (vx c - vx a) + (vy c - vy a) * (vy c - vy a) <= 4 * 4 -> Rabs (cross a b c d) = 16 ->
    0 <= cond a b c d <= 2 /\ 0 <= par_err a b c d <= / 2 /\ det_err a b c d <= 1).
  { intros a b c d H1 H2 H3 H4. assert (E1 : dist a b = 4) by (unfold dist; rewrite H1; apply sqrt_square; lra). assert (E2 : dist c d = 4) by (unfold dist; rewrite H2; apply sqrt_square; lra).
    assert (E3 : 0 <= dist a c <= 4) by (split; [apply dist_nonneg|unfold dist; rewrite <- (sqrt_square 4) by lra; now apply sqrt_le_1_alt]).
    assert (T : 0 <= bpow radix2 (-100) <= 1) by (split; [apply bpow_ge_0|change 1 with (bpow radix2 0); apply bpow_le; lia]).
    assert (T2 : bpow radix2 (-125) <= 1) by (change 1 with (bpow radix2 0); apply bpow_le; lia).
    assert (K : 0 <= cond a b c d <= 2) by (unfold cond; rewrite E1, E2, H4; lra). split; [exact K|]. split.
    - unfold par_err. rewrite E1. assert (W : 1 <= dist a c / 4 + 1 <= 2) by lra. set (w := dist a c / 4 + 1) in *. set (k := cond a b c d) in *.
      assert (0 <= k * w <= 4) by nra. replace (6 * u32 * k * w) with (6 * u32 * (k * w)) by ring. unfold u32. lra.
    - unfold det_err. rewrite E1, E2. unfold u32. lra. }
  assert (CR : cross (P2 0 2) (P2 4 2) (P2 2 0) (P2 2 4) = 16) by (unfold cross; cbn [vx vy]; ring).
  assert (CS : cross (P2 2 0) (P2 2 4) (P2 0 2) (P2 4 2) = -16) by (unfold cross; cbn [vx vy]; ring).
  destruct (DL (P2 0 2) (P2 4 2) (P2 2 0) (P2 2 4)) as (K1 & K2 & K3); cbn [vx vy]; try lra; [rewrite CR; apply Rabs_pos_eq; lra|].
  destruct (DL (P2 2 0) (P2 2 4) (P2 0 2) (P2 4 2)) as (_ & K4 & _); cbn [vx vy]; try lra; [rewrite CS, Rabs_left; lra|].
  rewrite !rp_xy by lia. do 4 (split; [reflexivity|]). do 4 (split; [apply inbox_xy; lia|]). split; [rewrite CR; lra|].
  split; [unfold u32; lra|]. split; [unfold along; cbn [vx vy]; f_equal; field|]. split; [rewrite CR, Rabs_pos_eq by lra; rewrite eps_num; lra|]. lra.
Qed.
