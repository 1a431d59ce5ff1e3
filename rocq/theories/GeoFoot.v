(** * The perpendicular foot in f32. *)
From Coq Require Import ZArith Reals List Bool Lia Lra Psatz Arith.
From Flocq Require Import Core.Core IEEE754.BinarySingleNaN.
From Verif Require Import Scalar Utils PlaneSpec F32 Laws PolyF32 GeoSpec Format RoundSpec Rounding NearCalc GeoRound GeoOn GeoPoly GeoSeg.
Local Open Scope R_scope.

(** ** Real numbers *)
(** The quotient n / d rounded, when d is a squared length. *)
Lemma quot_len : forall n d N L r q, bpow radix2 (-40) <= L -> 0 <= r -> Rabs N <= L * r ->
  Rabs (n - N) <= 41 / 10 * u32 * (L * r + bpow radix2 (-125)) -> Rabs (d - L * L) <= 41 / 10 * u32 * (L * L + bpow radix2 (-125)) ->
  (exists e1 e2, Rabs e1 <= u32 /\ Rabs e2 <= bpow radix2 (-150) /\ q = n / d * (1 + e1) + e2) ->
  0 < d /\ Rabs (n / d) <= 101 / 100 * (r / L) + bpow radix2 (-60) /\
  Rabs (q - N / (L * L)) * L <= 95 / 10 * u32 * r + bpow radix2 (-100) + bpow radix2 (-150) * L.
Proof.
  intros n d N L r q HL Pr HN Hn Hd (e1 & e2 & He1 & He2 & Eq).
  pose proof (bpow_gt_0 radix2 (-40)) as P40. assert (PL : 0 < L) by lra. assert (PLL : 0 < L * L) by nra.
  set (t := bpow radix2 (-125)) in *. assert (Pt : 0 < t) by apply bpow_gt_0.
  assert (L80 : bpow radix2 (-80) <= L * L) by (change (-80)%Z with (-40 + -40)%Z; rewrite bpow_plus; apply Rmult_le_compat; lra).
  assert (T45 : t <= / 10000000000 * (L * L)).
  { apply Rle_trans with (bpow radix2 (-45) * bpow radix2 (-80)); [unfold t; rewrite <- bpow_plus; apply bpow_le; lia|].
    apply Rmult_le_compat; try apply bpow_ge_0; [|exact L80]. change (bpow radix2 (-45)) with (/ IZR 35184372088832). lra. }
  assert (Hd2 : Rabs (d - L * L) <= 411 / 100 * u32 * (L * L)) by (unfold u32 in *; lra).
  pose proof (Rabs_le_inv _ _ Hd2) as Hd3.
  assert (Dd : (1 - / 1000000) * (L * L) <= d) by (unfold u32 in *; lra).
  assert (Pd : 0 < d) by lra. split; [exact Pd|].
  assert (Id : / d <= 100001 / 100000 * / (L * L)).
  { apply Rmult_le_reg_r with (d * (L * L)); [apply Rmult_lt_0_compat; lra|]. replace (/ d * (d * (L * L))) with (L * L) by (field; lra).
    replace (100001 / 100000 * / (L * L) * (d * (L * L))) with (100001 / 100000 * d) by (field; lra). lra. }
  set (K := N / (L * L)). set (w := r / L).
  assert (Ew : r = w * L) by (unfold w; field; lra). assert (Pw : 0 <= w) by (unfold w; apply Rmult_le_pos; [exact Pr|apply Rlt_le, Rinv_0_lt_compat, PL]).
  assert (HK : Rabs K <= w).
  { unfold K, Rdiv. rewrite Rabs_mult, (Rabs_pos_eq (/ (L * L))) by (apply Rlt_le, Rinv_0_lt_compat, PLL).
    apply Rmult_le_reg_r with (L * L); [exact PLL|]. replace (Rabs N * / (L * L) * (L * L)) with (Rabs N) by (field; lra). rewrite Ew in HN. nra. }
  set (z := t / (L * L)). assert (Pz : 0 < z) by (unfold z; apply Rmult_lt_0_compat; [exact Pt|apply Rinv_0_lt_compat, PLL]).
  assert (D1 : Rabs (n / d - K) <= 83 / 10 * u32 * w + 42 / 10 * u32 * z).
  { replace (n / d - K) with (((n - N) - K * (d - L * L)) * / d) by (unfold K; field; split; lra).
    rewrite Rabs_mult, (Rabs_pos_eq (/ d)) by (apply Rlt_le, Rinv_0_lt_compat, Pd).
    assert (A : Rabs (n - N - K * (d - L * L)) <= 41 / 10 * u32 * (L * r + t) + w * (411 / 100 * u32 * (L * L))).
    { unfold Rminus at 1. eapply Rle_trans; [apply Rabs_triang|]. rewrite Rabs_Ropp, Rabs_mult. apply Rplus_le_compat; [exact Hn|].
      apply Rmult_le_compat; try apply Rabs_pos; assumption. }
    apply Rle_trans with ((41 / 10 * u32 * (L * r + t) + w * (411 / 100 * u32 * (L * L))) * (100001 / 100000 * / (L * L))).
    { apply Rmult_le_compat; try apply Rabs_pos; try assumption. apply Rlt_le, Rinv_0_lt_compat, Pd. }
    rewrite Ew. replace ((41 / 10 * u32 * (L * (w * L) + t) + w * (411 / 100 * u32 * (L * L))) * (100001 / 100000 * / (L * L)))
      with (100001 / 100000 * (821 / 100 * u32 * w + 41 / 10 * u32 * z)) by (unfold z; field; lra).
    unfold u32. lra. }
  assert (Z60 : z <= bpow radix2 (-45)).
  { unfold z. apply Rmult_le_reg_r with (L * L); [exact PLL|]. replace (t / (L * L) * (L * L)) with t by (field; lra).
    apply Rle_trans with (bpow radix2 (-45) * bpow radix2 (-80)); [unfold t; rewrite <- bpow_plus; apply bpow_le; lia|]. apply Rmult_le_compat_l; [apply bpow_ge_0|exact L80]. }
  assert (Q : Rabs (n / d) <= (1 + 83 / 10 * u32) * w + 42 / 10 * u32 * z).
  { replace (n / d) with (K + (n / d - K)) by ring. eapply Rle_trans; [apply Rabs_triang|]. lra. }
  split.
  { eapply Rle_trans; [exact Q|]. assert (42 / 10 * u32 * z <= bpow radix2 (-60)).
    { apply Rle_trans with (bpow radix2 (-15) * bpow radix2 (-45)); [|rewrite <- bpow_plus; apply bpow_le; lia].
      apply Rmult_le_compat; [unfold u32; lra|lra|unfold u32; change (bpow radix2 (-15)) with (/ IZR 32768); lra|exact Z60]. }
    unfold u32 in *. lra. }
  assert (D2 : Rabs (q - K) <= 94 / 10 * u32 * w + 43 / 10 * u32 * z + bpow radix2 (-150)).
  { rewrite Eq. replace (n / d * (1 + e1) + e2 - K) with ((n / d - K) + e1 * (n / d) + e2) by ring.
    eapply Rle_trans; [apply Rabs_triang|]. apply Rplus_le_compat; [|exact He2]. eapply Rle_trans; [apply Rabs_triang|]. rewrite Rabs_mult.
    assert (Rabs e1 * Rabs (n / d) <= u32 * ((1 + 83 / 10 * u32) * w + 42 / 10 * u32 * z)) by (apply Rmult_le_compat; try apply Rabs_pos; assumption).
    unfold u32 in *. lra. }
  apply Rle_trans with ((94 / 10 * u32 * w + 43 / 10 * u32 * z + bpow radix2 (-150)) * L); [apply Rmult_le_compat_r; lra|].
  assert (ZL : 43 / 10 * u32 * (z * L) <= bpow radix2 (-100)).
  { assert (z * L <= bpow radix2 (-85)).
    { apply Rmult_le_reg_r with L; [exact PL|]. replace (z * L * L) with t by (unfold z; field; lra).
      apply Rle_trans with (bpow radix2 (-85) * bpow radix2 (-40)); [unfold t; rewrite <- bpow_plus; apply bpow_le; lia|]. apply Rmult_le_compat_l; [apply bpow_ge_0|exact HL]. }
    apply Rle_trans with (bpow radix2 (-15) * bpow radix2 (-85)); [|rewrite <- bpow_plus; apply bpow_le; lia].
    apply Rmult_le_compat; [unfold u32; lra|apply Rmult_le_pos; lra|unfold u32; change (bpow radix2 (-15)) with (/ IZR 32768); lra|exact H]. }
  assert (0 <= u32 * (w * L)) by (apply Rmult_le_pos; [unfold u32; lra|rewrite <- Ew; exact Pr]). rewrite Ew.
  replace ((94 / 10 * u32 * w + 43 / 10 * u32 * z + bpow radix2 (-150)) * L) with (94 / 10 * (u32 * (w * L)) + 43 / 10 * u32 * (z * L) + bpow radix2 (-150) * L) by ring. lra.
Qed.

Lemma foot_real : forall A B P Q, dist A B <> 0 -> on_line A B Q -> dot A B P Q = 0 ->
  let K := cross A P A B / (dist A B * dist A B) in Q = P2 (vx P - K * (vy B - vy A)) (vy P + K * (vx B - vx A)).
Proof.
  intros [ax ay] [bx by'] [px py] Q Nz [t ->] H K. pose proof (dist_sq (P2 ax ay) (P2 bx by')) as S.
  assert (N2 : dist (P2 ax ay) (P2 bx by') * dist (P2 ax ay) (P2 bx by') <> 0) by nra.
  unfold K. rewrite S in *. unfold dot, cross, along in *. cbn [vx vy] in *. set (X := bx - ax) in *. set (Y := by' - ay) in *.
  assert (T : t * (X * X + Y * Y) = X * (px - ax) + Y * (py - ay)) by lra.
  f_equal.
  - apply Rmult_eq_reg_r with (X * X + Y * Y); [|exact N2].
    replace ((ax + t * X) * (X * X + Y * Y)) with (ax * (X * X + Y * Y) + X * (t * (X * X + Y * Y))) by ring. rewrite T. field. exact N2.
  - apply Rmult_eq_reg_r with (X * X + Y * Y); [|exact N2].
    replace ((ay + t * Y) * (X * X + Y * Y)) with (ay * (X * X + Y * Y) + Y * (t * (X * X + Y * Y))) by ring. rewrite T. field. exact N2.
Qed.

Section Foot.
Variable lm : Libm.
Local Notation f := (single lm).
Local Notation F := (FO lm).

(** k y, where y is a rounded difference. *)
Lemma scaled_diff : forall (k y : f32) K Y L r, is_finite k = true -> nr f 1 (Rabs Y) y Y -> 0 <= r <= bpow radix2 62 -> Rabs Y <= L -> L <= bpow radix2 62 ->
  Rabs K * L <= r -> Rabs (B2R k - K) * L <= 95 / 10 * u32 * r + bpow radix2 (-100) + bpow radix2 (-150) * L ->
  within (116 / 10 * u32 * r + bpow radix2 (-87)) (Bmult mode_NE k y) (K * Y).
Proof.
  intros k y K Y L r Fk (_ & Fy & Ey) Hr HY HL HK Hk. rewrite u_eq in Ey. cbn [pow] in Ey. rewrite Rmult_1_r in Ey.
  assert (PL : 0 <= L) by (pose proof (Rabs_pos Y); lra).
  assert (T88 : bpow radix2 (-150) * L <= bpow radix2 (-88)).
  { apply Rle_trans with (bpow radix2 (-150) * bpow radix2 62); [apply Rmult_le_compat_l; [apply bpow_ge_0|exact HL]|]. rewrite <- bpow_plus. apply bpow_le. lia. }
  assert (T100 : bpow radix2 (-100) <= / 1000 * bpow radix2 (-88)).
  { apply Rle_trans with (bpow radix2 (-12) * bpow radix2 (-88)); [rewrite <- bpow_plus; apply bpow_le; lia|]. apply Rmult_le_compat_r; [apply bpow_ge_0|]. change (bpow radix2 (-12)) with (/ IZR 4096). lra. }
  assert (T150 : bpow radix2 (-150) <= / 1000 * bpow radix2 (-88)).
  { apply Rle_trans with (bpow radix2 (-12) * bpow radix2 (-88)); [rewrite <- bpow_plus; apply bpow_le; lia|]. apply Rmult_le_compat_r; [apply bpow_ge_0|]. change (bpow radix2 (-12)) with (/ IZR 4096). lra. }
  assert (T87 : bpow radix2 (-87) = 2 * bpow radix2 (-88)) by (change 2 with (bpow radix2 1); rewrite <- bpow_plus; reflexivity).
  pose proof (bpow_gt_0 radix2 (-88)) as P88.
  assert (D : Rabs (B2R k - K) * Rabs Y <= 95 / 10 * u32 * r + 1001 / 1000 * bpow radix2 (-88)).
  { apply Rle_trans with (Rabs (B2R k - K) * L); [apply Rmult_le_compat_l; [apply Rabs_pos|exact HY]|]. lra. }
  assert (KY : Rabs (K * Y) <= r) by (rewrite Rabs_mult; apply Rle_trans with (Rabs K * L); [apply Rmult_le_compat_l; [apply Rabs_pos|exact HY]|exact HK]).
  change (Rabs (B2R y - Y) <= (1 + u32 - 1) * Rabs Y) in Ey.
  assert (Sy : Rabs (B2R y - Y) <= u32 * Rabs Y) by (replace (1 + u32 - 1) with u32 in Ey by ring; exact Ey).
  assert (KD : Rabs (B2R k * B2R y - K * Y) <= 1055 / 100 * u32 * r + 1002 / 1000 * bpow radix2 (-88)).
  { replace (B2R k * B2R y - K * Y) with ((B2R k - K) * Y + (B2R k - K) * (B2R y - Y) + K * (B2R y - Y)) by ring.
    eapply Rle_trans; [apply Rabs_triang|]. eapply Rle_trans; [apply Rplus_le_compat_r, Rabs_triang|]. rewrite !Rabs_mult.
    assert (Rabs (B2R k - K) * Rabs (B2R y - Y) <= u32 * (Rabs (B2R k - K) * Rabs Y)) by (rewrite <- Rmult_assoc, (Rmult_comm u32), Rmult_assoc; apply Rmult_le_compat_l; [apply Rabs_pos|exact Sy]).
    assert (Rabs K * Rabs (B2R y - Y) <= u32 * Rabs (K * Y)) by (rewrite Rabs_mult, <- Rmult_assoc, (Rmult_comm u32), Rmult_assoc; apply Rmult_le_compat_l; [apply Rabs_pos|exact Sy]).
    unfold u32 in *. lra. }
  assert (SZ : Rabs (B2R k * B2R y) <= (1 + 1055 / 100 * u32) * r + 1002 / 1000 * bpow radix2 (-88)).
  { replace (B2R k * B2R y) with (K * Y + (B2R k * B2R y - K * Y)) by ring. eapply Rle_trans; [apply Rabs_triang|]. lra. }
  assert (T : u32 * tiny f = bpow radix2 (-150)) by (rewrite tiny_eq; change u32 with (bpow radix2 (-24)); rewrite <- bpow_plus; reflexivity).
  destruct (mul_ok f k y Fk Fy) as (Fm & d & e & Hd & He & Em).
  { rewrite u_eq, huge_eq, T. match goal with |- ?z * _ + _ < _ => change z with (Rabs (B2R k * B2R y)) end.
    assert (bpow radix2 (-88) <= bpow radix2 62) by (apply bpow_le; lia). pose proof (bpow_gt_0 radix2 62).
    apply Rle_lt_trans with (4 * bpow radix2 62); [pose proof (Rabs_pos (B2R k * B2R y)); unfold u32 in *; lra|].
    change 4 with (bpow radix2 2). rewrite <- bpow_plus. apply bpow_lt. lia. }
  rewrite u_eq in Hd, He. rewrite T in He. split; [exact Fm|].
  match goal with |- Rabs (?z - _) <= _ => replace z with (B2R k * B2R y * (1 + d) + e) by (symmetry; exact Em) end.
  replace (B2R k * B2R y * (1 + d) + e - K * Y) with ((B2R k * B2R y - K * Y) + d * (B2R k * B2R y) + e) by ring.
  eapply Rle_trans; [apply Rabs_triang|]. eapply Rle_trans; [apply Rplus_le_compat; [apply Rabs_triang|exact He]|]. rewrite (Rabs_mult d).
  assert (Rabs d * Rabs (B2R k * B2R y) <= u32 * ((1 + 1055 / 100 * u32) * r + 1002 / 1000 * bpow radix2 (-88))) by (apply Rmult_le_compat; try apply Rabs_pos; assumption).
  rewrite T87. unfold u32 in *. lra.
Qed.
(** p + m and p - m for a small correction m. *)
Lemma corrected : forall (p m : f32) V r, is_finite p = true -> Rabs (B2R p) <= bpow radix2 60 -> 0 <= r <= bpow radix2 62 -> Rabs V <= r ->
  within (116 / 10 * u32 * r + bpow radix2 (-87)) m V ->
  within (13 * u32 * r + u32 * Rabs (B2R p) + bpow radix2 (-86)) (Bplus mode_NE p m) (B2R p + V) /\
  within (13 * u32 * r + u32 * Rabs (B2R p) + bpow radix2 (-86)) (Bminus mode_NE p m) (B2R p - V).
Proof.
  intros p m V r Fp Bp Hr HV [Fm Hm].
  assert (T86 : bpow radix2 (-86) = 2 * bpow radix2 (-87)) by (change 2 with (bpow radix2 1); rewrite <- bpow_plus; reflexivity).
  pose proof (bpow_gt_0 radix2 (-87)) as P87. assert (Q : bpow radix2 (-87) <= bpow radix2 60) by (apply bpow_le; lia).
  assert (E62 : bpow radix2 62 = 4 * bpow radix2 60) by (change 4 with (bpow radix2 2); rewrite <- bpow_plus; reflexivity).
  assert (H70 : 16 * bpow radix2 60 < bpow radix2 128) by (change 16 with (bpow radix2 4); rewrite <- bpow_plus; apply bpow_lt; lia).
  assert (Sm : Rabs (B2R m) <= (1 + 116 / 10 * u32) * r + bpow radix2 (-87)).
  { replace (B2R m) with (V + (B2R m - V)) by ring. eapply Rle_trans; [apply Rabs_triang|]. lra. }
  assert (G : forall s d z, Rabs s <= Rabs (B2R p) + Rabs (B2R m) -> Rabs d <= u32 -> Rabs (s - z) <= 116 / 10 * u32 * r + bpow radix2 (-87) ->
    Rabs (s * (1 + d) - z) <= 13 * u32 * r + u32 * Rabs (B2R p) + bpow radix2 (-86)).
  { intros s d z H1 H2 H3. replace (s * (1 + d) - z) with ((s - z) + d * s) by ring. eapply Rle_trans; [apply Rabs_triang|]. rewrite Rabs_mult.
    assert (Rabs d * Rabs s <= u32 * (Rabs (B2R p) + Rabs (B2R m))) by (apply Rmult_le_compat; try apply Rabs_pos; assumption).
    unfold u32 in *. lra. }
  assert (A1 : Rabs (B2R p + B2R m) <= Rabs (B2R p) + Rabs (B2R m)) by apply Rabs_triang.
  assert (A2 : Rabs (B2R p - B2R m) <= Rabs (B2R p) + Rabs (B2R m)) by (unfold Rminus; eapply Rle_trans; [apply Rabs_triang|]; rewrite Rabs_Ropp; lra).
  pose proof (Rabs_pos (B2R p + B2R m)). pose proof (Rabs_pos (B2R p - B2R m)). split.
  - destruct (add_ok f p m Fp Fm) as (Fs & d & Hd & Es).
    { rewrite u_eq, huge_eq. match goal with |- ?z * _ < _ => change z with (Rabs (B2R p + B2R m)) end. unfold u32 in *. lra. }
    split; [exact Fs|]. match goal with |- Rabs (?z - _) <= _ => replace z with ((B2R p + B2R m) * (1 + d)) by (symmetry; exact Es) end.
    apply G; [exact A1|exact Hd|]. replace (B2R p + B2R m - (B2R p + V)) with (B2R m - V) by ring. exact Hm.
  - destruct (sub_ok f p m Fp Fm) as (Fs & d & Hd & Es).
    { rewrite u_eq, huge_eq. match goal with |- ?z * _ < _ => change z with (Rabs (B2R p - B2R m)) end. unfold u32 in *. lra. }
    split; [exact Fs|]. match goal with |- Rabs (?z - _) <= _ => replace z with ((B2R p - B2R m) * (1 + d)) by (symmetry; exact Es) end.
    apply G; [exact A2|exact Hd|]. replace (B2R p - B2R m - (B2R p - V)) with (- (B2R m - V)) by ring. rewrite Rabs_Ropp. exact Hm.
Qed.

Theorem foot_error : forall a b p : Vec2 f32, inbox a -> inbox b -> inbox p ->
  let A := real_point a in let B := real_point b in let P := real_point p in bpow radix2 (-40) <= dist A B ->
  forall q, on_line A B q -> dot A B P q = 0 ->
  within (13 * u32 * dist A P + u32 * Rabs (vx P) + bpow radix2 (-86)) (vx (calculate_perpendicular_point (O := F) a b p) : f32) (vx q) /\
  within (13 * u32 * dist A P + u32 * Rabs (vy P) + bpow radix2 (-86)) (vy (calculate_perpendicular_point (O := F) a b p) : f32) (vy q).
Proof.
  intros a b p Ia Ib Ip A B P HL q Hq1 Hq2. pose proof (bpow_gt_0 radix2 (-40)) as P40.
  rewrite (foot_real A B P q ltac:(lra) Hq1 Hq2). cbn [vx vy]. clear q Hq1 Hq2.
  assert (BD : forall x y, inbox x -> inbox y -> dist (real_point x) (real_point y) <= bpow radix2 62) by (intros x y Hx Hy; now apply inbox_dist).
  pose proof (BD a b Ia Ib) as BL. pose proof (BD a p Ia Ip) as BR. fold A B P in BL, BR.
  destruct Ia as ([Fax Fay] & Bax & Bay), Ib as ([Fbx Fby] & Bbx & Bby), Ip as ([Fpx Fpy] & Bpx & Bpy).
  destruct (box_diff lm _ _ Fbx Fax Bbx Bax) as [D1 U1]. destruct (box_diff lm _ _ Fby Fay Bby Bay) as [D2 U2].
  destruct (box_diff lm _ _ Fpx Fax Bpx Bax) as [D3 U3]. destruct (box_diff lm _ _ Fpy Fay Bpy Bay) as [D4 U4].
  assert (SZ : forall z, Rabs z <= bpow radix2 61 -> size61 (Rabs z)) by (intros z Hz; split; [apply Rabs_pos|exact Hz]).
  apply SZ in U1, U2, U3, U4.
  set (L := dist A B) in *. set (r := dist A P) in *.
  assert (L0 : (B2R (vx b) - B2R (vx a)) * (B2R (vx b) - B2R (vx a)) + (B2R (vy b) - B2R (vy a)) * (B2R (vy b) - B2R (vy a)) = L * L) by (symmetry; apply dist_sq).
  assert (R0 : (B2R (vx p) - B2R (vx a)) * (B2R (vx p) - B2R (vx a)) + (B2R (vy p) - B2R (vy a)) * (B2R (vy p) - B2R (vy a)) = r * r) by (symmetry; apply dist_sq).
  assert (PL : 0 <= L) by lra. assert (Pr : 0 <= r) by apply dist_nonneg.
  assert (SW : forall x y z, x + y = z -> y + x = z) by (intros; lra).
  assert (AB : forall x y z, x * x + y * y = z * z -> 0 <= z -> Rabs x <= z) by (intros x y z H1 H2; apply sq_le; [exact H2|]; rewrite <- Rabs_mult, Rabs_pos_eq by apply Rle_0_sqr; pose proof (Rle_0_sqr y); unfold Rsqr in *; lra).
  pose proof (AB _ _ _ L0 PL) as AX. pose proof (AB _ _ _ (SW _ _ _ L0) PL) as AY.
  pose proof (combo_sub lm _ _ _ _ _ _ _ _ _ _ _ _ D2 D3 D1 D4 U2 U3 U1 U4) as Gn.
  apply (near_within lm _ (L * r)) in Gn; [|apply (cauchy _ _ _ _ _ _ PL Pr (SW _ _ _ L0) R0)].
  pose proof (combo_add lm _ _ _ _ _ _ _ _ _ _ _ _ D2 D2 D1 D1 U2 U2 U1 U1) as Gd.
  apply (near_within lm _ (L * L)) in Gd; [|apply (cauchy _ _ _ _ _ _ PL PL (SW _ _ _ L0) (SW _ _ _ L0))].
  rewrite (SW _ _ _ L0) in Gd.
  set (N := (B2R (vy b) - B2R (vy a)) * (B2R (vx p) - B2R (vx a)) - (B2R (vx b) - B2R (vx a)) * (B2R (vy p) - B2R (vy a))) in *.
  assert (EN : cross A P A B = N) by (unfold cross, N, A, B, P, real_point; cbn [vx vy]; ring).
  rewrite EN. assert (HN : Rabs N <= L * r) by (rewrite <- EN, Rmult_comm; apply cross_le).
  unfold calculate_perpendicular_point, powf2. cbn [vx vy].
  match type of Gn with within _ ?z _ => set (n := z) in * end. match type of Gd with within _ ?z _ => set (d := z) in * end.
  destruct Gn as [Fn Hn], Gd as [Fd Hd]. set (k := Bdiv mode_NE n d).
  destruct (quot_len (B2R n) (B2R d) N L r (B2R n / B2R d * (1 + 0) + 0) HL Pr HN Hn Hd) as (Pd & Q & _).
  { exists 0, 0. rewrite !Rabs_R0. split; [unfold u32; lra|]. split; [apply bpow_ge_0|reflexivity]. }
  assert (Wb : r / L <= bpow radix2 102).
  { apply Rmult_le_reg_r with L; [lra|]. replace (r / L * L) with r by (field; lra). apply Rle_trans with (bpow radix2 102 * bpow radix2 (-40)); [rewrite <- bpow_plus; exact BR|].
    apply Rmult_le_compat_l; [apply bpow_ge_0|exact HL]. }
  assert (T : u32 * tiny f = bpow radix2 (-150)) by (rewrite tiny_eq; change u32 with (bpow radix2 (-24)); rewrite <- bpow_plus; reflexivity).
  assert (Fk : is_finite k = true).
  { refine (proj1 (div_ok f n d Fn _ _)); [change (B2R d <> 0); lra|]. rewrite u_eq, huge_eq, T.
    match goal with |- ?z * _ + _ < _ => change z with (Rabs (B2R n / B2R d)) end. pose proof (Rabs_pos (B2R n / B2R d)).
    assert (bpow radix2 (-60) <= bpow radix2 102) by (apply bpow_le; lia). assert (bpow radix2 (-150) <= bpow radix2 102) by (apply bpow_le; lia).
    apply Rle_lt_trans with (8 * bpow radix2 102); [unfold u32; lra|]. change 8 with (bpow radix2 3). rewrite <- bpow_plus. apply bpow_lt. lia. }
  destruct (quot_len (B2R n) (B2R d) N L r (B2R k) HL Pr HN Hn Hd) as (_ & _ & Hk).
  { apply (finite_div lm); [exact (Rgt_not_eq _ _ Pd)|exact Fk]. }
  set (K := N / (L * L)) in *.
  assert (HK : Rabs K * L <= r).
  { unfold K, Rdiv. rewrite Rabs_mult, (Rabs_pos_eq (/ (L * L))) by (apply Rlt_le, Rinv_0_lt_compat; nra).
    apply Rmult_le_reg_r with L; [lra|]. replace (Rabs N * / (L * L) * L * L) with (Rabs N) by (field; lra). lra. }
  assert (KY : forall Y, Rabs Y <= L -> Rabs (K * Y) <= r) by (intros Y HY; rewrite Rabs_mult; apply Rle_trans with (Rabs K * L); [apply Rmult_le_compat_l; [apply Rabs_pos|exact HY]|exact HK]).
  pose proof (scaled_diff k _ K _ L r Fk D2 (conj Pr BR) AY BL HK Hk) as W1.
  pose proof (scaled_diff k _ K _ L r Fk D1 (conj Pr BR) AX BL HK Hk) as W2.
  split.
  - exact (proj2 (corrected (vx p) _ _ r Fpx Bpx (conj Pr BR) (KY _ AY) W1)).
  - exact (proj1 (corrected (vy p) _ _ r Fpy Bpy (conj Pr BR) (KY _ AX) W2)).
Qed.
End Foot.
