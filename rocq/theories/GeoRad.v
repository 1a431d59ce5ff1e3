(** * The inradius in f32. *)
From Coq Require Import ZArith Reals List Bool Lia Lra Psatz Arith.
From Flocq Require Import Core.Core IEEE754.BinarySingleNaN.
From Verif Require Import Scalar Utils PlaneSpec F32 Laws PolyF32 GeoSpec Format RoundSpec Rounding NearCalc GeoRound GeoOn GeoPoly GeoSeg GeoCons
  IncSpec GeoInc UtilsReal.
Local Open Scope R_scope.
Local Notation cross := PlaneSpec.cross.

Section Rad.
Variable lm : Libm.
Local Notation f := (single lm).
Local Notation F := (FO lm).

(** x is r up to the relative error e. *)
Definition rel (e : R) (x : f32) (r : R) : Prop := is_finite x = true /\ (1 - e) * r <= B2R x <= (1 + e) * r.
Lemma rel_within : forall e x r, 0 < r -> rel e x r <-> within (e * r) x r.
Proof.
  intros e x r P. split; intros [F1 H]; (split; [exact F1|]).
  - apply Rabs_le. lra.
  - apply Rabs_le_inv in H. lra.
Qed.
Lemma rel_mono : forall e g x r, 0 < r -> e <= g -> rel e x r -> rel g x r.
Proof.
  intros e g x r P L [F1 H]. split; [exact F1|]. assert (e * r <= g * r) by (apply Rmult_le_compat_r; lra). lra.
Qed.
Lemma tiny_half : forall r, bpow radix2 (-125) <= r -> ur f * tiny f <= u32 / 2 * r.
Proof.
  intros r H. rewrite u_eq, tiny_eq. replace (u32 / 2 * r) with (u32 * (r / 2)) by field. apply Rmult_le_compat_l; [unfold u32; lra|].
  change (-125)%Z with (1 + -126)%Z in H. rewrite bpow_plus in H. change (bpow radix2 1) with 2 in H. lra.
Qed.
(** A rounded positive number. *)
Lemma rel_round : forall e g v d t r, 0 < r -> 0 <= e <= / 4 -> e + 2 * u32 <= g -> (1 - e) * r <= v <= (1 + e) * r -> Rabs d <= u32 -> Rabs t <= u32 / 2 * r ->
  (1 - g) * r <= v * (1 + d) + t <= (1 + g) * r.
Proof.
  intros e g v d t r P He Hg Hv Hd Ht. apply Rabs_le_inv in Hd, Ht.
  assert (B : 0 <= v <= 5 / 4 * r).
  { assert (0 <= e * r <= / 4 * r) by (split; [apply Rmult_le_pos; lra|apply Rmult_le_compat_r; lra]). lra. }
  assert (V : - (5 / 4 * u32 * r) <= v * d <= 5 / 4 * u32 * r).
  { assert (- (v * u32) <= v * d <= v * u32) by (split; [replace (- (v * u32)) with (v * - u32) by ring|]; apply Rmult_le_compat_l; lra).
    assert (v * u32 <= 5 / 4 * r * u32) by (apply Rmult_le_compat_r; [unfold u32; lra|lra]). lra. }
  assert (G : (e + 2 * u32) * r <= g * r) by (apply Rmult_le_compat_r; lra). assert (0 < u32 * r) by (apply Rmult_lt_0_compat; [unfold u32; lra|exact P]). lra.
Qed.
Lemma below : forall v, 0 <= v <= bpow radix2 126 -> Rabs v * (1 + ur f) + ur f * tiny f < huge f.
Proof.
  intros v H. rewrite Rabs_pos_eq by lra. rewrite u_eq, huge_eq, tiny_eq. assert (bpow radix2 (-126) <= bpow radix2 126) by (apply bpow_le; lia).
  assert (bpow radix2 128 = 4 * bpow radix2 126) by (change 128%Z with (2 + 126)%Z; rewrite bpow_plus; reflexivity).
  pose proof (bpow_gt_0 radix2 (-126)). unfold u32. lra.
Qed.
Lemma rel_mul : forall e1 e2 g x y r s, 0 < r -> 0 < s -> 0 <= e1 <= / 10 -> 0 <= e2 <= / 10 -> e1 + e2 + e1 * e2 + 2 * u32 <= g ->
  bpow radix2 (-125) <= r * s <= bpow radix2 125 -> rel e1 x r -> rel e2 y s -> rel g (Bmult mode_NE x y) (r * s).
Proof.
  intros e1 e2 g x y r s Pr Ps H1 H2 Hg B [Fx Hx] [Fy Hy].
  assert (X0 : 0 <= B2R x) by (apply Rle_trans with ((1 - e1) * r); [apply Rmult_le_pos; lra|lra]).
  assert (Y0 : 0 <= B2R y) by (apply Rle_trans with ((1 - e2) * s); [apply Rmult_le_pos; lra|lra]).
  set (e := e1 + e2 + e1 * e2). assert (He : 0 <= e <= / 4) by (unfold e; nra). assert (Prs : 0 < r * s) by now apply Rmult_lt_0_compat.
  assert (V : (1 - e) * (r * s) <= B2R x * B2R y <= (1 + e) * (r * s)).
  { split.
    - apply Rle_trans with ((1 - e1) * r * ((1 - e2) * s)).
      + replace ((1 - e1) * r * ((1 - e2) * s)) with ((1 - e + 2 * (e1 * e2)) * (r * s)) by (unfold e; ring). apply Rmult_le_compat_r; [lra|]. nra.
      + apply Rmult_le_compat; try lra; apply Rmult_le_pos; lra.
    - replace ((1 + e) * (r * s)) with ((1 + e1) * r * ((1 + e2) * s)) by (unfold e; ring). apply Rmult_le_compat; lra. }
  destruct (mul_ok f x y Fx Fy) as (Fm & d & t & Hd & Ht & E).
  { apply below. split; [now apply Rmult_le_pos|]. apply Rle_trans with (2 * bpow radix2 125); [|change 2 with (bpow radix2 1); rewrite <- bpow_plus; apply bpow_le; lia].
    change (B2R x * B2R y <= 2 * bpow radix2 125). eapply Rle_trans; [apply V|]. apply Rmult_le_compat; lra. }
  split; [exact Fm|]. match goal with |- _ <= ?z <= _ => replace z with (B2R x * B2R y * (1 + d) + t) by (symmetry; exact E) end.
  apply (rel_round e); auto. eapply Rle_trans; [exact Ht|]. apply tiny_half, B.
Qed.
Lemma rel_div : forall e1 e2 g x y r s, 0 < r -> 0 < s -> 0 <= e1 <= / 10 -> 0 <= e2 <= / 10 -> e1 + 2 * e2 + 2 * (e1 * e2) + 2 * u32 <= g ->
  e1 + 2 * e2 + 2 * (e1 * e2) <= / 4 ->
  bpow radix2 (-125) <= r / s <= bpow radix2 125 -> rel e1 x r -> rel e2 y s -> rel g (Bdiv mode_NE x y) (r / s).
Proof.
  intros e1 e2 g x y r s Pr Ps H1 H2 Hg Hs B [Fx Hx] [Fy Hy].
  assert (X0 : 0 <= B2R x) by (apply Rle_trans with ((1 - e1) * r); [apply Rmult_le_pos; lra|lra]).
  assert (Y0 : 0 < B2R y) by (apply Rlt_le_trans with ((1 - e2) * s); [apply Rmult_lt_0_compat; lra|lra]).
  set (e := e1 + 2 * e2 + 2 * (e1 * e2)). assert (He : 0 <= e <= / 4) by (unfold e in *; nra). assert (Prs : 0 < r / s) by now apply Rdiv_lt_0_compat.
  assert (V : (1 - e) * (r / s) <= B2R x / B2R y <= (1 + e) * (r / s)).
  { assert (Er : r = r / s * s) by (field; lra). set (q := r / s) in *. split; apply Rmult_le_reg_r with (B2R y); try exact Y0; replace (B2R x / B2R y * B2R y) with (B2R x) by (field; lra).
    - apply Rle_trans with ((1 - e1) * r); [|lra]. rewrite Er. apply Rle_trans with ((1 - e) * q * ((1 + e2) * s)).
      + apply Rmult_le_compat_l; [apply Rmult_le_pos; lra|lra].
      + replace ((1 - e) * q * ((1 + e2) * s)) with ((1 - e) * (1 + e2) * (q * s)) by ring. apply Rmult_le_compat_r; [rewrite <- Er; lra|]. unfold e in *. nra.
    - apply Rle_trans with ((1 + e1) * r); [lra|]. rewrite Er. apply Rle_trans with ((1 + e) * q * ((1 - e2) * s)).
      + replace ((1 + e) * q * ((1 - e2) * s)) with ((1 + e) * (1 - e2) * (q * s)) by ring. apply Rmult_le_compat_r; [rewrite <- Er; lra|]. unfold e in *. nra.
      + apply Rmult_le_compat_l; [apply Rmult_le_pos; lra|lra]. }
  destruct (div_ok f x y Fx (Rgt_not_eq _ _ Y0)) as (Fm & d & t & Hd & Ht & E).
  { apply below. split; [apply Rmult_le_pos; [exact X0|now apply Rlt_le, Rinv_0_lt_compat]|]. apply Rle_trans with (2 * bpow radix2 125); [|change 2 with (bpow radix2 1); rewrite <- bpow_plus; apply bpow_le; lia].
    change (B2R x / B2R y <= 2 * bpow radix2 125). eapply Rle_trans; [apply V|]. apply Rmult_le_compat; lra. }
  split; [exact Fm|]. match goal with |- _ <= ?z <= _ => replace z with (B2R x / B2R y * (1 + d) + t) by (symmetry; exact E) end.
  apply (rel_round e); auto. eapply Rle_trans; [exact Ht|]. apply tiny_half, B.
Qed.
Lemma rel_sqrt : forall e g x r, 0 < r -> 0 <= e <= / 10 -> e / 2 + e * e / 2 + 2 * u32 <= g ->
  bpow radix2 (-125) <= sqrt r -> rel e x r -> rel g (Bsqrt mode_NE x) (sqrt r).
Proof.
  intros e g x r Pr He Hg B [Fx Hx].
  assert (X0 : 0 <= B2R x) by (apply Rle_trans with ((1 - e) * r); [apply Rmult_le_pos; lra|lra]).
  destruct (sqrt_rel lm x Fx X0) as (Fs & d & t & Hd & Ht & E). split; [exact Fs|].
  pose proof (sqrt_lt_R0 r Pr) as Ps. pose proof (sqrt_sqrt r (Rlt_le _ _ Pr)) as Q. set (s := sqrt r) in *.
  match goal with |- _ <= ?z <= _ => replace z with (sqrt (B2R x) * (1 + d) + t) by (symmetry; exact E) end.
  apply (rel_round (e / 2 + e * e / 2)); auto; [nra| |].
  - split.
    + replace ((1 - (e / 2 + e * e / 2)) * s) with (sqrt (((1 - (e / 2 + e * e / 2)) * s) * ((1 - (e / 2 + e * e / 2)) * s))) by (apply sqrt_square, Rmult_le_pos; nra).
      apply sqrt_le_1_alt. eapply Rle_trans; [|apply Hx]. replace (((1 - (e / 2 + e * e / 2)) * s) * ((1 - (e / 2 + e * e / 2)) * s)) with ((1 - (e / 2 + e * e / 2)) * (1 - (e / 2 + e * e / 2)) * (s * s)) by ring.
      rewrite Q. apply Rmult_le_compat_r; [lra|]. nra.
    + replace ((1 + (e / 2 + e * e / 2)) * s) with (sqrt (((1 + (e / 2 + e * e / 2)) * s) * ((1 + (e / 2 + e * e / 2)) * s))) by (apply sqrt_square, Rmult_le_pos; nra).
      apply sqrt_le_1_alt. eapply Rle_trans; [apply Hx|]. replace (((1 + (e / 2 + e * e / 2)) * s) * ((1 + (e / 2 + e * e / 2)) * s)) with ((1 + (e / 2 + e * e / 2)) * (1 + (e / 2 + e * e / 2)) * (s * s)) by ring.
      rewrite Q. apply Rmult_le_compat_r; [lra|]. nra.
  - eapply Rle_trans; [exact Ht|]. rewrite <- (u_eq lm). apply tiny_half, B.
Qed.

(** s - side, from the rounded half perimeter. *)
Lemma semi_minus : forall (p x : f32) s a k, 3 <= k -> 1000 * u32 * k <= 1 -> 0 < a -> s <= bpow radix2 31 -> s <= k * (s - a) -> 0 < s ->
  rel (702 / 100 * u32) p s -> rel (321 / 100 * u32) x a -> rel (107 / 10 * (u32 * k)) (Bminus mode_NE p x) (s - a).
Proof.
  intros p x s a k K3 Kb Pa Bs Hk Ps [Fp Hp] [Fx Hx]. assert (Psa : 0 < s - a) by (apply Rmult_lt_reg_l with k; lra).
  set (q := s - a) in *. set (y := B2R p - B2R x).
  assert (Y : Rabs (y - q) <= 1023 / 100 * (u32 * k) * q).
  { apply Rle_trans with (1023 / 100 * u32 * s).
    - apply Rabs_le. unfold y, q in *. assert (0 < u32) by (unfold u32; lra). assert (u32 * a <= u32 * s) by (apply Rmult_le_compat_l; lra). lra.
    - replace (1023 / 100 * (u32 * k) * q) with (1023 / 100 * u32 * (k * q)) by ring. apply Rmult_le_compat_l; [unfold u32; lra|exact Hk]. }
  set (e := u32 * k) in *. assert (E3 : 3 * u32 <= e) by (unfold e, u32; lra). assert (E1 : e <= / 1000) by (unfold e; lra).
  apply Rabs_le_inv in Y. assert (B0 : 0 <= y <= 2 * q).
  { assert (1023 / 100 * e * q <= 1023 / 100 * / 1000 * q) by (apply Rmult_le_compat_r; lra). lra. }
  destruct (sub_ok f p x Fp Fx) as (Fs & d & Hd & E).
  { rewrite u_eq, huge_eq. change (Rabs y * (1 + u32) < bpow radix2 128). rewrite Rabs_pos_eq by lra.
    apply Rle_lt_trans with (4 * bpow radix2 31); [unfold u32, q in *; lra|]. change 4 with (bpow radix2 2). rewrite <- bpow_plus. apply bpow_lt. lia. }
  split; [exact Fs|]. match goal with |- _ <= ?z <= _ => replace z with (y * (1 + d)) by (symmetry; exact E) end.
  rewrite u_eq in Hd. apply Rabs_le_inv in Hd.
  assert (D : - (102 / 100 * u32 * q) <= y * d <= 102 / 100 * u32 * q).
  { assert (y <= 102 / 100 * q) by (assert (1023 / 100 * e * q <= 1023 / 100 * / 1000 * q) by (apply Rmult_le_compat_r; lra); lra).
    assert (- (y * u32) <= y * d <= y * u32) by (split; [replace (- (y * u32)) with (y * - u32) by ring|]; apply Rmult_le_compat_l; lra).
    assert (y * u32 <= 102 / 100 * q * u32) by (apply Rmult_le_compat_r; [unfold u32; lra|lra]). lra. }
  assert (3 * u32 * q <= e * q) by (apply Rmult_le_compat_r; lra). lra.
Qed.

(** Heron's formula with roundings. *)
Lemma heron_error : forall (p x y z : f32) s a b c k, 3 <= k -> 1000 * u32 * k <= 1 -> 0 < a -> 0 < b -> 0 < c ->
  bpow radix2 (-20) <= s <= bpow radix2 31 -> s <= k * (s - a) -> s <= k * (s - b) -> s <= k * (s - c) ->
  rel (702 / 100 * u32) p s -> rel (321 / 100 * u32) x a -> rel (321 / 100 * u32) y b -> rel (321 / 100 * u32) z c ->
  rel (26 * (u32 * k)) (Bdiv mode_NE (Bsqrt mode_NE (Bmult mode_NE (Bmult mode_NE (Bmult mode_NE p (Bminus mode_NE p x)) (Bminus mode_NE p y)) (Bminus mode_NE p z))) p)
    (sqrt (s * (s - a) * (s - b) * (s - c)) / s).
Proof.
  intros p x y z s a b c k K3 Kb Pa Pb Pc Bs Ka Kb' Kc Hp Hx Hy Hz. pose proof (bpow_gt_0 radix2 (-20)) as P20. assert (Ps : 0 < s) by lra.
  pose proof (semi_minus p x s a k K3 Kb Pa (proj2 Bs) Ka Ps Hp Hx) as Q1.
  pose proof (semi_minus p y s b k K3 Kb Pb (proj2 Bs) Kb' Ps Hp Hy) as Q2.
  pose proof (semi_minus p z s c k K3 Kb Pc (proj2 Bs) Kc Ps Hp Hz) as Q3.
  assert (LO : forall t, s <= k * (s - t) -> 0 < t -> bpow radix2 (-35) <= s - t <= bpow radix2 31).
  { intros t Ht Pt. split; [|lra]. assert (K15 : k <= bpow radix2 15) by (change (bpow radix2 15) with 32768; unfold u32 in Kb; lra).
    apply Rmult_le_reg_l with k; [lra|]. apply Rle_trans with (bpow radix2 15 * bpow radix2 (-35)); [apply Rmult_le_compat_r; [apply bpow_ge_0|exact K15]|].
    rewrite <- bpow_plus. change (15 + -35)%Z with (-20)%Z. lra. }
  pose proof (LO a Ka Pa) as B1. pose proof (LO b Kb' Pb) as B2. pose proof (LO c Kc Pc) as B3. clear LO Hx Hy Hz Ka Kb' Kc.
  set (q1 := s - a) in *. set (q2 := s - b) in *. set (q3 := s - c) in *. pose proof (bpow_gt_0 radix2 (-35)) as P35.
  set (e := u32 * k) in *. assert (E3 : 3 * u32 <= e) by (unfold e, u32; lra). assert (E1 : e <= / 1000) by (unfold e; lra). assert (U0 : 0 < u32) by (unfold u32; lra).
  assert (EE : e * e <= / 1000 * e) by (apply Rmult_le_compat_r; lra).
  assert (BM : forall l h x y, (0 <= x)%R -> (0 <= y)%R -> bpow radix2 l <= x -> bpow radix2 (-35) <= y -> x <= bpow radix2 h -> y <= bpow radix2 31 ->
    bpow radix2 (l + -35) <= x * y <= bpow radix2 (h + 31)).
  { intros l h v w V0 W0 L1 L2 H1 H2. rewrite !bpow_plus. split; apply Rmult_le_compat; auto; apply bpow_ge_0. }
  assert (R1 : bpow radix2 (-55) <= s * q1 <= bpow radix2 62) by (apply (BM (-20) 31)%Z; lra).
  assert (R2 : bpow radix2 (-90) <= s * q1 * q2 <= bpow radix2 93) by (pose proof (bpow_gt_0 radix2 (-55)); apply (BM (-55) 62)%Z; lra).
  assert (R3 : bpow radix2 (-125) <= s * q1 * q2 * q3 <= bpow radix2 124) by (pose proof (bpow_gt_0 radix2 (-90)); apply (BM (-90) 93)%Z; lra).
  assert (IN : forall l h v, (-125 <= l)%Z -> (h <= 125)%Z -> bpow radix2 l <= v <= bpow radix2 h -> bpow radix2 (-125) <= v <= bpow radix2 125).
  { intros l h v Hl Hh Hv. assert (bpow radix2 (-125) <= bpow radix2 l) by now apply bpow_le. assert (bpow radix2 h <= bpow radix2 125) by now apply bpow_le. lra. }
  pose proof (bpow_gt_0 radix2 (-55)). pose proof (bpow_gt_0 radix2 (-90)). pose proof (bpow_gt_0 radix2 (-125)).
  assert (Hp' : rel (235 / 100 * e) p s) by (apply (rel_mono (702 / 100 * u32)); [lra|lra|exact Hp]).
  assert (M1 : rel (14 * e) (Bmult mode_NE p (Bminus mode_NE p x)) (s * q1)).
  { apply (rel_mul (235 / 100 * e) (107 / 10 * e)); try lra; try assumption. exact (IN (-55)%Z 62%Z _ ltac:(lia) ltac:(lia) R1). }
  assert (M2 : rel (256 / 10 * e) (Bmult mode_NE (Bmult mode_NE p (Bminus mode_NE p x)) (Bminus mode_NE p y)) (s * q1 * q2)).
  { apply (rel_mul (14 * e) (107 / 10 * e)); try lra; try assumption. exact (IN (-90)%Z 93%Z _ ltac:(lia) ltac:(lia) R2). }
  assert (M3 : rel (373 / 10 * e) (Bmult mode_NE (Bmult mode_NE (Bmult mode_NE p (Bminus mode_NE p x)) (Bminus mode_NE p y)) (Bminus mode_NE p z)) (s * q1 * q2 * q3)).
  { apply (rel_mul (256 / 10 * e) (107 / 10 * e)); try lra; try assumption. exact (IN (-125)%Z 124%Z _ ltac:(lia) ltac:(lia) R3). }
  clear M1 M2. set (T := s * q1 * q2 * q3) in *. assert (PT : 0 < T) by lra.
  assert (SQ : bpow radix2 (-63) <= sqrt T <= bpow radix2 62).
  { split; [rewrite <- (sqrt_square (bpow radix2 (-63))) by apply bpow_ge_0|rewrite <- (sqrt_square (bpow radix2 62)) by apply bpow_ge_0]; apply sqrt_le_1_alt; rewrite <- bpow_plus.
    - eapply Rle_trans; [apply bpow_le|apply R3]. lia.
    - exact (proj2 R3). }
  assert (S1 : rel (201 / 10 * e) (Bsqrt mode_NE (Bmult mode_NE (Bmult mode_NE (Bmult mode_NE p (Bminus mode_NE p x)) (Bminus mode_NE p y)) (Bminus mode_NE p z))) (sqrt T)).
  { apply (rel_sqrt (373 / 10 * e)); try lra; try assumption. assert (bpow radix2 (-125) <= bpow radix2 (-63)) by (apply bpow_le; lia). lra. }
  pose proof (bpow_gt_0 radix2 (-63)).
  apply (rel_mono (201 / 10 * e + 2 * (702 / 100 * u32) + 2 * (201 / 10 * e * (702 / 100 * u32)) + 2 * u32)).
  - apply Rdiv_lt_0_compat; lra.
  - assert (e * u32 <= / 1000 * u32) by (apply Rmult_le_compat_r; lra). lra.
  - assert (X : e * u32 <= / 1000 * u32) by (apply Rmult_le_compat_r; lra). apply (rel_div (201 / 10 * e) (702 / 100 * u32)); try lra; try assumption.
    apply (IN (-94)%Z 82%Z); [lia|lia|]. split.
    + apply Rmult_le_reg_r with s; [exact Ps|]. replace (sqrt T / s * s) with (sqrt T) by (field; lra). eapply Rle_trans; [|apply SQ].
        change (-63)%Z with (-94 + 31)%Z. rewrite bpow_plus. apply Rmult_le_compat_l; [apply bpow_ge_0|lra].
    + apply Rmult_le_reg_r with s; [exact Ps|]. replace (sqrt T / s * s) with (sqrt T) by (field; lra). eapply Rle_trans; [apply SQ|].
        change 62%Z with (82 + -20)%Z. rewrite bpow_plus. apply Rmult_le_compat_l; [apply bpow_ge_0|lra].
Qed.

Lemma dist28 : forall a b : Vec2 F, pbound (bpow radix2 28) a -> pbound (bpow radix2 28) b -> dist (real_point a) (real_point b) <= bpow radix2 30.
Proof.
  intros [ax ay] [bx by'] (_ & A1 & A2) (_ & B1 & B2). cbn [vx vy real_point] in *.
  apply Rabs_le_inv in A1, A2, B1, B2. apply sq_le; [apply bpow_ge_0|]. rewrite dist_sq. cbn [vx vy real_point].
  change 30%Z with (2 + 28)%Z. rewrite bpow_plus. change (bpow radix2 2) with 4. set (M := bpow radix2 28) in *.
  set (X := B2R bx - B2R ax). set (Y := B2R by' - B2R ay). assert (- (2 * M) <= X <= 2 * M) by (unfold X; lra). assert (- (2 * M) <= Y <= 2 * M) by (unfold Y; lra). nra.
Qed.
Lemma box28 : forall a : Vec2 F, pbound (bpow radix2 28) a -> inbox a.
Proof.
  intros a (Fa & B1 & B2). split; [exact Fa|]. assert (bpow radix2 28 <= bpow radix2 60) by (apply bpow_le; lia). lra.
Qed.
Lemma half_per_rel : forall (x y z : f32) a b c, nr f 4 a x a -> nr f 4 b y b -> nr f 4 c z c ->
  bpow radix2 (-20) <= a <= bpow radix2 30 -> bpow radix2 (-20) <= b <= bpow radix2 30 -> bpow radix2 (-20) <= c <= bpow radix2 30 ->
  rel (702 / 100 * u32) (Bmult mode_NE (Bplus mode_NE (Bplus mode_NE x y) z) (chalf : F)) ((a + b + c) / 2).
Proof.
  intros x y z a b c Hx Hy Hz Ba Bb Bc. pose proof (bpow_gt_0 radix2 (-20)) as P20.
  assert (H30 : bpow radix2 30 <= bpow radix2 62) by (apply bpow_le; lia).
  destruct (per_nr lm x y z a b c Hx Hy Hz ltac:(lra) ltac:(lra) ltac:(lra)) as (_ & Fs & Es). rewrite u_eq in Es.
  destruct (half_val lm) as [Fh Eh]. set (s := Bplus mode_NE (Bplus mode_NE x y) z) in *. set (P := a + b + c) in *.
  assert (E1 : Rabs (B2R s - P) <= 601 / 100 * u32 * P).
  { eapply Rle_trans; [exact Es|]. apply Rmult_le_compat_r; [unfold P; lra|]. unfold u32. cbn [pow]. lra. }
  apply Rabs_le_inv in E1. assert (P32 : bpow radix2 (-20) <= P <= bpow radix2 32) by (split; [unfold P; lra|change 32%Z with (2 + 30)%Z; rewrite bpow_plus; change (bpow radix2 2) with 4; unfold P; lra]).
  destruct (mul_ok f s (chalf : F) Fs Fh) as (Fm & d & t & Hd & Ht & E).
  { match goal with |- Rabs ?z * _ + _ < _ => replace z with (B2R s * / 2) by (symmetry; change (B2R s * B2R (chalf : F) = B2R s * / 2); now rewrite Eh) end.
    apply below. assert (bpow radix2 32 <= bpow radix2 126) by (apply bpow_le; lia). unfold u32 in *. lra. }
  split; [exact Fm|].
  match goal with |- _ <= ?z <= _ => replace z with (B2R s * / 2 * (1 + d) + t) by (symmetry; etransitivity; [exact E|]; change (B2R s * B2R (chalf : F) * (1 + d) + t = B2R s * / 2 * (1 + d) + t); now rewrite Eh) end.
  assert (T : Rabs t <= / 1000 * u32 * P).
  { eapply Rle_trans; [exact Ht|]. rewrite u_eq, tiny_eq. replace (/ 1000 * u32 * P) with (u32 * (/ 1000 * P)) by ring. apply Rmult_le_compat_l; [unfold u32; lra|].
    apply Rle_trans with (bpow radix2 (-10) * bpow radix2 (-20)); [rewrite <- bpow_plus; apply bpow_le; lia|].
    apply Rle_trans with (/ 1000 * bpow radix2 (-20)); [apply Rmult_le_compat_r; [lra|change (bpow radix2 (-10)) with (/ IZR 1024); lra]|lra]. }
  rewrite u_eq in Hd. apply Rabs_le_inv in Hd, T. set (h := B2R s * / 2) in *.
  assert (H : - (u32 * h) <= h * d <= u32 * h).
  { assert (0 <= h) by (unfold h, u32 in *; lra). split; [replace (- (u32 * h)) with (h * - u32) by ring|rewrite (Rmult_comm u32)]; apply Rmult_le_compat_l; lra. }
  unfold h, u32 in *. lra.
Qed.

Theorem inradius_error : forall (a b c : Vec2 F) k, pbound (bpow radix2 28) a -> pbound (bpow radix2 28) b -> pbound (bpow radix2 28) c ->
  let A := real_point a in let B := real_point b in let C := real_point c in
  bpow radix2 (-20) <= dist B C -> bpow radix2 (-20) <= dist A C -> bpow radix2 (-20) <= dist A B ->
  shape k A B C -> 1000 * u32 * k <= 1 -> forall q R, incircle A B C q R ->
  exists i r, calculate_triangle_incenter a b c = Some (i, r) /\ within (26 * u32 * k * R) (r : f32) R.
Proof.
  intros a b c k Ia Ib Ic A B C Ha Hb Hc (K1 & K2 & K3) Kb q R HR.
  pose proof (dist28 b c Ib Ic) as Ba. pose proof (dist28 a c Ia Ic) as Bb. pose proof (dist28 a b Ia Ib) as Bc. fold A B C in Ba, Bb, Bc.
  pose proof (bpow_gt_0 radix2 (-20)) as P20. assert (P40 : bpow radix2 (-40) <= bpow radix2 (-20)) by (apply bpow_le; lia).
  pose proof (box28 a Ia) as Ja. pose proof (box28 b Ib) as Jb. pose proof (box28 c Ic) as Jc.
  pose proof (side_err lm b c Jb Jc ltac:(unfold A, B, C in *; lra)) as Ea. pose proof (side_err lm a c Ja Jc ltac:(unfold A, B, C in *; lra)) as Eb. pose proof (side_err lm a b Ja Jb ltac:(unfold A, B, C in *; lra)) as Ec.
  pose proof (side_nr lm b c Jb Jc ltac:(unfold A, B, C in *; lra)) as Na. pose proof (side_nr lm a c Ja Jc ltac:(unfold A, B, C in *; lra)) as Nb. pose proof (side_nr lm a b Ja Jb ltac:(unfold A, B, C in *; lra)) as Nc.
  pose proof (degenerate_error lm a b c Ja Jb Jc ltac:(unfold A, B, C in *; lra) ltac:(unfold A, B, C in *; lra) ltac:(unfold A, B, C in *; lra)) as D.
  pose proof (heron A B C) as HE. cbv zeta in HE, D. pose proof (incenter_unique A B C q R) as IU. cbv zeta in IU.
  fold A B C in Ea, Eb, Ec, Na, Nb, Nc, D. unfold half_per in *.
  set (x := dist B C) in *. set (y := dist A C) in *. set (z := dist A B) in *. set (s := (x + y + z) / 2) in *.
  assert (ES : s - x + (s - y) + (s - z) = s) by (unfold s; field). assert (Ps : 0 < s) by (unfold s; lra).
  assert (Pk : 0 < k).
  { destruct (Rle_or_lt k 0) as [N|N]; [|exact N]. exfalso. assert (k * s = k * (s - x) + k * (s - y) + k * (s - z)) by (rewrite <- !Rmult_plus_distr_l; f_equal; lra).
    assert (k * s <= 0) by (replace 0 with (0 * s) by ring; apply Rmult_le_compat_r; lra). lra. }
  assert (Kge : 3 <= k).
  { apply Rmult_le_reg_r with s; [exact Ps|]. assert (k * s = k * (s - x) + k * (s - y) + k * (s - z)) by (rewrite <- !Rmult_plus_distr_l; f_equal; lra). lra. }
  assert (SL : forall t, s <= k * (s - t) -> 1000 * u32 * s <= s - t).
  { intros t Ht. apply Rmult_le_reg_l with k; [exact Pk|]. replace (k * (1000 * u32 * s)) with (1000 * u32 * k * s) by ring.
    assert (1000 * u32 * k * s <= 1 * s) by (apply Rmult_le_compat_r; lra). lra. }
  pose proof (SL x K1) as L1. pose proof (SL y K2) as L2. pose proof (SL z K3) as L3. clear SL.
  assert (Us : 0 < u32 * s) by (apply Rmult_lt_0_compat; [unfold u32; lra|exact Ps]).
  assert (DD : is_degenerate_triangle a b c = false).
  { replace (x + y + z) with (2 * s) in D by (unfold s; field). apply D; unfold s in *; lra. }
  assert (HP : (x + y + z) * (x + y - z) * (x + z - y) * (y + z - x) = 16 * (s * (s - x) * (s - y) * (s - z))) by (unfold s; field).
  rewrite HP in HE.
  assert (PP : 0 < s * (s - x) * (s - y) * (s - z)) by (repeat apply Rmult_lt_0_compat; lra).
  assert (NC : ~ collinear3 A B C) by (unfold collinear3; intros Z; rewrite Z in HE; lra).
  destruct (IU NC HR ltac:(lra) ltac:(lra) ltac:(lra)) as [_ ER].
  assert (SR : sqrt (s * (s - x) * (s - y) * (s - z)) / s = R).
  { rewrite ER. replace (s * (s - x) * (s - y) * (s - z)) with (Rsqr (cross A B A C / 2)) by (unfold Rsqr; lra). rewrite sqrt_Rsqr_abs.
    unfold Rdiv at 2. rewrite Rabs_mult, (Rabs_pos_eq (/ 2)) by lra. unfold s. field. unfold s in Ps. lra. }
  assert (PR : 0 < R) by (rewrite <- SR; apply Rdiv_lt_0_compat; [now apply sqrt_lt_R0|exact Ps]).
  assert (CE : exists i r, calculate_triangle_incenter a b c = Some (i, r)).
  { unfold calculate_triangle_incenter. rewrite DD. eexists. eexists. reflexivity. }
  destruct CE as (i & r & CE). exists i, r. split; [exact CE|]. destruct (incenter_parts _ _ _ _ _ _ CE) as (_ & ->). clear CE.
  replace (26 * u32 * k * R) with (26 * (u32 * k) * R) by ring. apply (rel_within (26 * (u32 * k))); [exact PR|]. rewrite <- SR.
  apply heron_error; try assumption; try lra.
  - split; [unfold s; lra|]. change 31%Z with (1 + 30)%Z. rewrite bpow_plus. change (bpow radix2 1) with 2. unfold s. lra.
  - apply half_per_rel; try assumption; lra.
  - apply rel_within; [lra|exact Ea].
  - apply rel_within; [lra|exact Eb].
  - apply rel_within; [lra|exact Ec].
Qed.
End Rad.
