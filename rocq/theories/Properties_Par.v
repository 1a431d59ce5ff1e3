(** * C111-C113: the parallel test, axis-parallel lengths and the perpendicular bisector in f32.

    u = [u32] = 2^-24.  [inbox], [pbound], [real_point], [within], [rnd32]: as in Properties_Geo.v;
    [dot], [cross], [dist]: PlaneSpec.v. *)
From Coq Require Import List Arith Bool Lia Reals Lra ZArith Psatz.
From Flocq Require Import Core.Core IEEE754.BinarySingleNaN.
From Verif Require Import Scalar Utils PlaneSpec F32 GraphDemo Format RoundSpec GridGraph GeoSpec GeoRound GeoOn
  PolyF32 GeoPar GeoAxis GeoBis Properties_Cons.
Import ListNotations.
Local Open Scope R_scope.
Local Notation cross := PlaneSpec.cross.
Local Notation rp := real_point.

(** ** C111: what an answer of the parallel test means *)
(** An answer [true] bounds the cosine and the sine of the angle between the segments. *)
Theorem C111_parallel_sound :
  forall lm (a b c d : Vec2 (FO lm)), inbox a -> inbox b -> inbox c -> inbox d ->
  let A := rp a in let B := rp b in let C := rp c in let D := rp d in
  bpow radix2 (-40) <= dist A B -> bpow radix2 (-40) <= dist C D -> parallel a b c d = true ->
  (1 - 17 * u32) * (dist A B * dist C D) <= Rabs (dot A B C D) /\ Rabs (cross A B C D) <= 3 / 2000 * (dist A B * dist C D).
Proof. exact parallel_sound_f32. Qed.
Print Assumptions C111_parallel_sound.
(** The computed cosine. *)
Theorem C111_cosine :
  forall lm (a b c d : Vec2 (FO lm)), inbox a -> inbox b -> inbox c -> inbox d ->
  let A := rp a in let B := rp b in let C := rp c in let D := rp d in
  bpow radix2 (-40) <= dist A B -> bpow radix2 (-40) <= dist C D ->
  within (1401 / 100 * u32) (normalize_dot (p_sub b a) (p_sub d c) : f32) (dot A B C D / (dist A B * dist C D)).
Proof. exact normalize_dot_near. Qed.
Print Assumptions C111_cosine.
(** An answer [false] means nothing: the segment (0,0)-(1,4) is not parallel to itself. *)
Theorem C111_parallel_fails_at_same_segment : parallel (O := FO lm0) (xy 0 0) (xy 1 4) (xy 0 0) (xy 1 4) = false.
Proof. vm_compute. reflexivity. Qed.
Print Assumptions C111_parallel_fails_at_same_segment.

(** ** C112: horizontal and vertical segments *)
(** Their length is correctly rounded. *)
Theorem C112_distance :
  forall lm (a b : Vec2 (FO lm)), inbox a -> inbox b -> let A := rp a in let B := rp b in
  vx A = vx B \/ vy A = vy B -> bpow radix2 (-60) <= dist A B ->
  is_finite (distance a b : f32) = true /\ B2R (distance a b : f32) = rnd32 (dist A B).
Proof. exact distance_axis. Qed.
Print Assumptions C112_distance.
(** The parallel test is exact on them. *)
Theorem C112_parallel :
  forall lm (a b c d : Vec2 (FO lm)), inbox a -> inbox b -> inbox c -> inbox d ->
  let A := rp a in let B := rp b in let C := rp c in let D := rp d in
  vx A = vx B \/ vy A = vy B -> vx C = vx D \/ vy C = vy D -> bpow radix2 (-60) <= dist A B -> bpow radix2 (-60) <= dist C D ->
  (parallel a b c d = true <-> cross A B C D = 0).
Proof. exact parallel_axis. Qed.
Print Assumptions C112_parallel.
(** The bound 2^-60 cannot be dropped: the length of the segment from (0,0) to (2^-80,0) is
    computed as 0. *)
Theorem C112_distance_fails_at_small :
  let b : Vec2 (FO lm0) := P2 (f32_of 1 (-80)) (f32_of 0 0) in
  dist (rp (xy 0 0)) (rp b) = bpow radix2 (-80) /\ B2SF (distance (xy 0 0) b : f32) = SpecFloat.S754_zero false.
Proof.
  cbv zeta. split; [|vm_compute; reflexivity]. rewrite rp_xy by lia. destruct (f32_of_exact 1 (-80) ltac:(lia) ltac:(lia)) as [_ E1].
  destruct (f32_of_exact 0 0 ltac:(lia) ltac:(lia)) as [_ E2]. unfold real_point, dist. cbn [vx vy]. rewrite E1, E2.
  match goal with |- sqrt ?x = _ => replace x with (bpow radix2 (-80) * bpow radix2 (-80)) by ring end. apply sqrt_square, bpow_ge_0.
Qed.
Print Assumptions C112_distance_fails_at_small.

(** ** C113: the second point of the perpendicular bisector *)
Theorem C113_bisector :
  forall lm (a b : Vec2 (FO lm)) (off : f32), pbound (bpow radix2 30) a -> pbound (bpow radix2 30) b ->
  is_finite off = true -> Rabs (B2R off) <= bpow radix2 30 -> let A := rp a in let B := rp b in
  bpow radix2 (-30) <= Rabs (vx B - vx A) -> bpow radix2 (-30) <= Rabs (vy B - vy A) ->
  let mx := (vx A + vx B) / 2 in let my := (vy A + vy B) / 2 in let k := Rabs (vx B - vx A) / Rabs (vy B - vy A) in
  forall q, dist A q = dist q B -> vx q = mx + B2R off ->
  let s := snd (calculate_perpendicular_bisector (O := FO lm) a b off) in
  within (201 / 100 * u32 * (Rabs mx + Rabs (B2R off)) + bpow radix2 (-140)) (vx s : f32) (vx q) /\
  within (901 / 100 * u32 * (Rabs my + k * (2 * Rabs mx + Rabs (B2R off))) + bpow radix2 (-80)) (vy s : f32) (vy q).
Proof.
  intros lm a b off Ia Ib Fo Bo A B Hx Hy mx my k q Eq Eqx s. pose proof (bpow_gt_0 radix2 (-30)) as P.
  assert (N : vy B - vy A <> 0) by (intros Z; rewrite Z, Rabs_R0 in Hy; lra).
  pose proof (equidistant_unique A B q ltac:(lra) Eq) as Y. fold mx my in Y. rewrite Eqx in Y. replace (mx + B2R off - mx) with (B2R off) in Y by ring.
  rewrite Eqx, Y. replace k with (Rabs (- (vx B - vx A) / (vy B - vy A))) by (unfold k, Rdiv; rewrite Rabs_mult, Rabs_Ropp, Rabs_inv; reflexivity).
  exact (bisector_error lm a b off Ia Ib Fo Bo Hx Hy).
Qed.
Print Assumptions C113_bisector.
(** The error is relative to the distance from the origin, not to the offset: on a segment of
    length sqrt 13 near (2^23, 0) and for offset 1 the second point is off by more than 0.3. *)
Theorem C113_bisector_fails_at_far :
  let a : Vec2 (FO lm0) := P2 (f32_of 8388608 0) (f32_of 0 0) in let b : Vec2 (FO lm0) := P2 (f32_of 8388610 0) (f32_of 3 0) in
  let q := P2 8388610 (5 / 6) in dist (rp a) q = dist q (rp b) /\ vx q = (vx (rp a) + vx (rp b)) / 2 + B2R (f32_of 1 0) /\
  3 / 10 < Rabs (B2R (vy (snd (calculate_perpendicular_bisector a b (f32_of 1 0 : FO lm0))) : f32) - vy q).
Proof.
  cbv zeta. destruct (f32_of_exact 8388608 0 ltac:(lia) ltac:(lia)) as [_ E1]. destruct (f32_of_exact 0 0 ltac:(lia) ltac:(lia)) as [_ E2].
  destruct (f32_of_exact 8388610 0 ltac:(lia) ltac:(lia)) as [_ E3]. destruct (f32_of_exact 3 0 ltac:(lia) ltac:(lia)) as [_ E4]. destruct (f32_of_exact 1 0 ltac:(lia) ltac:(lia)) as [_ E5].
  change (bpow radix2 0) with 1 in *. split; [|split].
  - unfold dist, real_point. cbn [vx vy]. rewrite E1, E2, E3, E4. f_equal. field.
  - unfold real_point. cbn [vx vy]. rewrite E1, E3, E5. lra.
  - match goal with |- _ < Rabs (B2R ?s - _) => assert (ES : B2SF s = SpecFloat.S754_finite false 8388608 (-24)) by (vm_compute; reflexivity); rewrite <- (SF2R_B2SF _ _ s), ES end.
    cbn [SF2R vy]. unfold F2R. cbn [Defs.Fnum Defs.Fexp cond_Zopp]. change (bpow radix2 (-24)) with (/ IZR 16777216). rewrite Rabs_left; lra.
Qed.
Print Assumptions C113_bisector_fails_at_far.

(** Examples: (0,0)-(3,0) and (1,1)-(5,1) are parallel, (0,0)-(3,0) and (1,1)-(1,7) are not; the
    point (3,1) is on the bisector of (0,0) and (2,4), at offset 2 from the midpoint (1,2). *)
Example C111_C112_example :
  rp (xy 0 0) = P2 0 0 /\ rp (xy 3 0) = P2 3 0 /\ rp (xy 1 1) = P2 1 1 /\ rp (xy 5 1) = P2 5 1 /\ rp (xy 1 7) = P2 1 7 /\
  inbox (xy 0 0) /\ inbox (xy 3 0) /\ inbox (xy 1 1) /\ inbox (xy 5 1) /\ inbox (xy 1 7) /\
  dist (P2 0 0) (P2 3 0) = 3 /\ dist (P2 1 1) (P2 5 1) = 4 /\ dist (P2 1 1) (P2 1 7) = 6 /\ bpow radix2 (-40) <= 3 /\
  parallel (O := FO lm0) (xy 0 0) (xy 3 0) (xy 1 1) (xy 5 1) = true /\ cross (P2 0 0) (P2 3 0) (P2 1 1) (P2 5 1) = 0 /\
  parallel (O := FO lm0) (xy 0 0) (xy 3 0) (xy 1 1) (xy 1 7) = false /\ cross (P2 0 0) (P2 3 0) (P2 1 1) (P2 1 7) = 18.
Proof.
  rewrite !rp_xy by lia. do 5 (split; [reflexivity|]). do 5 (split; [apply inbox_xy; lia|]).
  assert (DO : forall a b d, 0 <= d -> (vx b - vx a) * (vx b - vx a) + (vy b - vy a) * (vy b - vy a) = d * d -> dist a b = d) by (intros a b d H E; unfold dist; rewrite E; now apply sqrt_square).
  split; [apply DO; cbn [vx vy]; lra|]. split; [apply DO; cbn [vx vy]; lra|]. split; [apply DO; cbn [vx vy]; lra|].
  split; [apply Rle_trans with (bpow radix2 1); [apply bpow_le; lia|change (bpow radix2 1) with 2; lra]|].
  split; [vm_compute; reflexivity|]. split; [unfold cross; cbn [vx vy]; ring|]. split; [vm_compute; reflexivity|unfold cross; cbn [vx vy]; ring].
Qed.
Example C113_example :
  rp (xy 0 0) = P2 0 0 /\ rp (xy 2 4) = P2 2 4 /\ pbound (bpow radix2 30) (xy 0 0) /\ pbound (bpow radix2 30) (xy 2 4) /\
  B2R (f32_of 2 0) = 2 /\ bpow radix2 (-30) <= 2 /\ dist (P2 0 0) (P2 3 1) = dist (P2 3 1) (P2 2 4) /\ 3 = (0 + 2) / 2 + 2 /\
  B2SF (vx (snd (calculate_perpendicular_bisector (O := FO lm0) (xy 0 0) (xy 2 4) (f32_of 2 0))) : f32) = B2SF (f32_of 3 0) /\
  B2SF (vy (snd (calculate_perpendicular_bisector (O := FO lm0) (xy 0 0) (xy 2 4) (f32_of 2 0))) : f32) = B2SF (f32_of 1 0).
Proof.
  rewrite !rp_xy by lia. do 2 (split; [reflexivity|]).
  assert (PB : forall x y, (Z.abs x <= 1000)%Z -> (Z.abs y <= 1000)%Z -> pbound (bpow radix2 30) (xy x y)).
  { intros x y Hx Hy. destruct (f32_Z_exact x ltac:(lia)) as [Fx Ex]. destruct (f32_Z_exact y ltac:(lia)) as [Fy Ey].
    assert (G : forall z, (Z.abs z <= 1000)%Z -> Rabs (IZR z) <= bpow radix2 30).
    { intros z Hz. rewrite <- abs_IZR. apply Rle_trans with (bpow radix2 10); [change (bpow radix2 10) with (IZR 1024); apply IZR_le; lia|apply bpow_le; lia]. }
    split; [now split|]. unfold xy. cbn [vx vy]. rewrite Ex, Ey. split; now apply G. }
  do 2 (split; [apply PB; lia|]). destruct (f32_of_exact 2 0 ltac:(lia) ltac:(lia)) as [_ E]. change (bpow radix2 0) with 1 in E.
  split; [rewrite E; lra|]. split; [change (bpow radix2 (-30)) with (/ IZR 1073741824); lra|]. split; [unfold dist; cbn [vx vy]; f_equal; ring|].
  split; [lra|]. split; vm_compute; reflexivity.
Qed.
