(** * Ranges of f32 and f64, and the example values of Properties_Round.v. *)
From Coq Require Import ZArith Reals Lia Lra Psatz.
From Flocq Require Import Core.Core BinarySingleNaN.
From Verif Require Import Scalar GA GASpec GARing GAReal Format RoundSpec Rounding GARound NormRound BitRound.
Local Open Scope R_scope.

Lemma sized_between : forall f k m L, (2 - emax f + prec f <= 2 * k)%Z -> (2 * m + 2 <= emax f)%Z ->
  bpow radix2 k <= L <= bpow radix2 m -> sized f L.
Proof.
  intros f k m L Hk Hm [H1 H2]. pose proof (bpow_gt_0 radix2 k). unfold sized, tiny, ur, huge.
  assert (S1 : bpow radix2 (2 * k) <= L ^ 2).
  { replace (2 * k)%Z with (k + k)%Z by ring. rewrite bpow_plus. replace (L ^ 2) with (L * L) by ring. apply Rmult_le_compat; lra. }
  assert (S2 : L ^ 2 <= bpow radix2 (2 * m)).
  { replace (2 * m)%Z with (m + m)%Z by ring. rewrite bpow_plus. replace (L ^ 2) with (L * L) by ring. apply Rmult_le_compat; lra. }
  split; [lra|]. split.
  - apply Rle_trans with (bpow radix2 (- prec f) * bpow radix2 (2 * k)).
    + rewrite <- bpow_plus. apply bpow_le. lia.
    + apply Rmult_le_compat_l; [apply bpow_ge_0|exact S1].
  - apply Rle_trans with (bpow radix2 2 * bpow radix2 (2 * m)).
    + change (bpow radix2 2) with 4. lra.
    + rewrite <- bpow_plus. apply bpow_le. lia.
Qed.
Lemma single_range : forall lm, (11 <= prec (single lm))%Z /\ tiny (single lm) <= ur (single lm) ^ 3 /\
  ur (single lm) = bpow radix2 (-24) /\ tiny (single lm) = bpow radix2 (-126) /\ huge (single lm) = bpow radix2 128 /\
  forall L, bpow radix2 (-51) <= L <= bpow radix2 63 -> sized (single lm) L.
Proof.
  intros lm. split; [cbn; lia|]. split.
  { unfold tiny, ur. cbn [prec emax single]. replace (bpow radix2 (- (24)) ^ 3) with (bpow radix2 (- (24) + - (24) + - (24))) by (rewrite !bpow_plus; ring).
    apply bpow_le. lia. }
  split; [reflexivity|]. split; [reflexivity|]. split; [reflexivity|].
  intros L HL. apply (sized_between _ (-51) 63); [cbn; lia|cbn; lia|exact HL].
Qed.
Lemma double_range : forall lm, (11 <= prec (double lm))%Z /\ tiny (double lm) <= ur (double lm) ^ 3 /\
  ur (double lm) = bpow radix2 (-53) /\ tiny (double lm) = bpow radix2 (-1022) /\ huge (double lm) = bpow radix2 1024 /\
  forall L, bpow radix2 (-484) <= L <= bpow radix2 511 -> sized (double lm) L.
Proof.
  intros lm. split; [cbn; lia|]. split.
  { unfold tiny, ur. cbn [prec emax double]. replace (bpow radix2 (- (53)) ^ 3) with (bpow radix2 (- (53) + - (53) + - (53))) by (rewrite !bpow_plus; ring).
    apply bpow_le. lia. }
  split; [reflexivity|]. split; [reflexivity|]. split; [reflexivity|].
  intros L HL. apply (sized_between _ (-484) 511); [cbn; lia|cbn; lia|exact HL].
Qed.

Section Demo.
Variable f : Fmt.
Hypothesis wide : (11 <= prec f)%Z.
(** Small integers in any such format. *)
Lemma small_int : forall m, (Z.abs m < 2048)%Z -> is_finite (fl_of f m 0) = true /\ B2R (fl_of f m 0) = IZR m.
Proof.
  intros m Hm. apply int_value. eapply Z.lt_le_trans; [exact Hm|]. change 2048%Z with (2 ^ 11)%Z. apply Z.pow_le_mono_r; lia.
Qed.
Lemma small_sized : forall L, 2 <= L <= 31 -> sized f L.
Proof.
  intros L [H1 H2]. pose proof (huge_big f wide) as Hb. pose proof (u_small f wide) as [Pu _].
  assert (T : tiny f <= 2 * ur f).
  { change 2 with (bpow radix2 1). unfold tiny, ur. rewrite <- bpow_plus. apply bpow_le. pose proof (prec_emax f) as Q. unfold Prec_lt_emax in Q. lia. }
  assert (4 <= L ^ 2 <= 961) by (split; nra).
  split; [lra|]. split; [|lra]. apply Rle_trans with (ur f * 4); [lra|]. apply Rmult_le_compat_l; lra.
Qed.
Definition iv (x y z : Z) : Vector3 (BO f) := V3 (fl_of f x 0) (fl_of f y 0) (fl_of f z 0).
Definition ib (x y z : Z) : Bivector3 (BO f) := B3 (fl_of f x 0) (fl_of f y 0) (fl_of f z 0).
Definition it (x : Z) : Trivector3 (BO f) := T3 (fl_of f x 0).
Definition ir (w x y z : Z) : Rotor3 (BO f) := Ro3 (fl_of f w 0) (ib x y z).
Lemma demo_v : vfin (iv 3 4 12) /\ rv (iv 3 4 12) = V3 3 4 12 /\ vlen (rv (iv 3 4 12)) = 13 /\ sized f (vlen (rv (iv 3 4 12))).
Proof.
  destruct (small_int 3 ltac:(cbn; lia)) as [F1 E1], (small_int 4 ltac:(cbn; lia)) as [F2 E2], (small_int 12 ltac:(cbn; lia)) as [F3 E3].
  assert (V : rv (iv 3 4 12) = V3 3 4 12) by exact (f_equal3 (@V3 R) E1 E2 E3).
  assert (L : vlen (rv (iv 3 4 12)) = 13).
  { rewrite V. unfold vlen. cbn [a1 a2 a3]. replace (3 ^ 2 + 4 ^ 2 + 12 ^ 2) with (13 ^ 2) by ring. apply sqrt_pow2. lra. }
  split; [exact (conj F1 (conj F2 F3))|]. split; [exact V|]. split; [exact L|]. rewrite L. apply small_sized. lra.
Qed.
Lemma demo_w : vfin (iv 4 0 (-3)) /\ rv (iv 4 0 (-3)) = V3 4 0 (-3) /\ vlen (rv (iv 4 0 (-3))) = 5 /\ sized f (vlen (rv (iv 4 0 (-3)))).
Proof.
  destruct (small_int 4 ltac:(cbn; lia)) as [F1 E1], (small_int 0 ltac:(cbn; lia)) as [F2 E2], (small_int (-3) ltac:(cbn; lia)) as [F3 E3].
  assert (V : rv (iv 4 0 (-3)) = V3 4 0 (-3)) by exact (f_equal3 (@V3 R) E1 E2 E3).
  assert (L : vlen (rv (iv 4 0 (-3))) = 5).
  { rewrite V. unfold vlen. cbn [a1 a2 a3]. replace (4 ^ 2 + 0 ^ 2 + (-3) ^ 2) with (5 ^ 2) by ring. apply sqrt_pow2. lra. }
  split; [exact (conj F1 (conj F2 F3))|]. split; [exact V|]. split; [exact L|]. rewrite L. apply small_sized. lra.
Qed.
Lemma demo_b : bfin (ib 2 3 6) /\ rb (ib 2 3 6) = B3 2 3 6 /\ blen (rb (ib 2 3 6)) = 7 /\ sized f (blen (rb (ib 2 3 6))).
Proof.
  destruct (small_int 2 ltac:(cbn; lia)) as [F1 E1], (small_int 3 ltac:(cbn; lia)) as [F2 E2], (small_int 6 ltac:(cbn; lia)) as [F3 E3].
  assert (V : rb (ib 2 3 6) = B3 2 3 6) by exact (f_equal3 (@B3 R) E1 E2 E3).
  assert (L : blen (rb (ib 2 3 6)) = 7).
  { rewrite V. unfold blen. cbn [b1 b2 b3]. replace (2 ^ 2 + 3 ^ 2 + 6 ^ 2) with (7 ^ 2) by ring. apply sqrt_pow2. lra. }
  split; [exact (conj F1 (conj F2 F3))|]. split; [exact V|]. split; [exact L|]. rewrite L. apply small_sized. lra.
Qed.
Lemma demo_t : tfin (it (-7)) /\ tlen (rt (it (-7))) = 7 /\ sized f (tlen (rt (it (-7)))).
Proof.
  destruct (small_int (-7) ltac:(cbn; lia)) as [F1 E1].
  assert (L : tlen (rt (it (-7))) = 7).
  { unfold tlen, rt, it. cbn [t1]. rewrite E1. rewrite Rabs_left; lra. }
  split; [exact F1|]. split; [exact L|]. rewrite L. apply small_sized. lra.
Qed.
Lemma demo_r : rfin (ir 1 2 2 4) /\ rr (ir 1 2 2 4) = Ro3 1 (B3 2 2 4) /\ rlen (rr (ir 1 2 2 4)) = 5 /\ sized f (rlen (rr (ir 1 2 2 4))).
Proof.
  destruct (small_int 1 ltac:(cbn; lia)) as [F1 E1], (small_int 2 ltac:(cbn; lia)) as [F2 E2], (small_int 4 ltac:(cbn; lia)) as [F3 E3].
  assert (V : rr (ir 1 2 2 4) = Ro3 1 (B3 2 2 4)) by exact (f_equal2 (@Ro3 R) E1 (f_equal3 (@B3 R) E2 E2 E3)).
  assert (L : rlen (rr (ir 1 2 2 4)) = 5).
  { rewrite V. unfold rlen. cbn [scalar bivector b1 b2 b3]. replace (1 ^ 2 + 2 ^ 2 + 2 ^ 2 + 4 ^ 2) with (5 ^ 2) by ring. apply sqrt_pow2. lra. }
  split; [exact (conj F1 (conj F2 (conj F2 F3)))|]. split; [exact V|]. split; [exact L|]. rewrite L. apply small_sized. lra.
Qed.
(** Products of example values are in range. *)
Lemma demo_room : forall L, 0 <= L <= 169 -> (1 + ur f) ^ 4 * (L + 4 * tiny f) < huge f.
Proof. intros L HL. pose proof (huge_big f wide). apply room4; [exact wide|lra|lra]. Qed.
End Demo.
