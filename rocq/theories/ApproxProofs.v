(** * The approx comparisons on finite f32 values: their exact regions. *)
From Coq Require Import ZArith Reals Bool Lia Lra Psatz.
From Flocq Require Import Core.Core IEEE754.BinarySingleNaN.
From Verif Require Import Scalar GA Approx F32 GAF32.
Local Open Scope R_scope.

(** The next number of f32's (unbounded) grid, iterated. *)
Notation next32 := (succ radix2 fexp32).
Fixpoint after (n : nat) (x : R) : R := match n with O => x | S n => next32 (after n x) end.

Lemma minus_abs : forall x y : f32, is_finite x = true -> is_finite y = true ->
  is_nan (Babs (Bminus mode_NE x y)) = false /\
  (Rabs (rnd32 (B2R x - B2R y)) < bpow radix2 128 /\ ext (Babs (Bminus mode_NE x y)) = Rabs (rnd32 (B2R x - B2R y)) \/
   bpow radix2 128 <= Rabs (rnd32 (B2R x - B2R y)) /\ ext (Babs (Bminus mode_NE x y)) = bpow radix2 128).
Proof.
  intros x y Fx Fy. pose proof (Bminus_correct 24 128 _ _ mode_NE x y Fx Fy) as C.
  destruct (Rlt_bool_spec (Rabs (rnd32 (B2R x - B2R y))) (bpow radix2 128)) as [L|L].
  - destruct C as (C & F & _). split; [now destruct (Bminus mode_NE x y)|]. left. split; [exact L|].
    rewrite ext_finite, B2R_Babs by now rewrite is_finite_Babs. f_equal. exact C.
  - destruct C as (C & _). apply Babs_inf in C. rewrite C. split; [reflexivity|]. right. split; [exact L|]. reflexivity.
Qed.

Lemma abs_diff_region : forall x y eps : f32,
  is_finite x = true -> is_finite y = true -> is_finite eps = true ->
  (f32_abs_diff_eq x y eps = true <-> Rabs (rnd32 (B2R x - B2R y)) <= B2R eps).
Proof.
  intros x y eps Fx Fy Fe. destruct (minus_abs x y Fx Fy) as (N & C). unfold f32_abs_diff_eq.
  assert (Ne : is_nan eps = false) by now destruct eps.
  rewrite Bleb_ext by assumption. rewrite (ext_finite eps Fe). pose proof (finite_bound eps) as B.
  destruct C as [(L & ->)|(L & ->)].
  - destruct (Rle_bool_spec (Rabs (rnd32 (B2R x - B2R y))) (B2R eps)); split; intros; try reflexivity; try discriminate; lra.
  - destruct (Rle_bool_spec (bpow radix2 128) (B2R eps)); split; intros; try discriminate; lra.
Qed.

Lemma mult_small : forall x y : f32, is_finite x = true -> is_finite y = true -> Rabs (B2R y) <= 1 ->
  is_finite (Bmult mode_NE x y) = true /\ B2R (Bmult mode_NE x y) = rnd32 (B2R x * B2R y).
Proof.
  intros x y Fx Fy S. pose proof (Bmult_correct 24 128 _ _ mode_NE x y) as C.
  assert (L : Rabs (rnd32 (B2R x * B2R y)) < bpow radix2 128).
  { apply Rle_lt_trans with (Rabs (B2R x)).
    - apply abs_round_le_generic; [exact fexp32_valid|apply rnd32_valid|apply generic_format_abs, generic_format_B2R|].
      rewrite Rabs_mult. pose proof (Rabs_pos (B2R x)). pose proof (Rabs_pos (B2R y)). nra.
    - pose proof (finite_bound x). apply Rabs_lt. lra. }
  rewrite Rlt_bool_true in C by exact L. destruct C as (C & F & _). rewrite F, Fx, Fy. split; [reflexivity|exact C].
Qed.

Lemma relative_region : forall x y eps mr : f32,
  is_finite x = true -> is_finite y = true -> is_finite eps = true -> is_finite mr = true -> Rabs (B2R mr) <= 1 ->
  (f32_relative_eq x y eps mr = true <->
   B2R x = B2R y \/ Rabs (rnd32 (B2R x - B2R y)) <= B2R eps \/
   Rabs (rnd32 (B2R x - B2R y)) <= rnd32 (Rmax (Rabs (B2R x)) (Rabs (B2R y)) * B2R mr)).
Proof.
  intros x y eps mr Fx Fy Fe Fm S. unfold f32_relative_eq.
  assert (Nx : is_nan x = false) by now destruct x. assert (Ny : is_nan y = false) by now destruct y.
  rewrite Beqb_ext, !ext_finite by assumption.
  destruct (Req_bool_spec (B2R x) (B2R y)) as [E|E]; [split; tauto|].
  replace (f32_is_infinite x || f32_is_infinite y)%bool with false by (now destruct x, y).
  pose proof (abs_diff_region x y eps Fx Fy Fe) as A. unfold f32_abs_diff_eq in A.
  destruct (Bleb _ eps); [split; [intros _; right; left; now apply A|reflexivity]|].
  assert (A' : ~ Rabs (rnd32 (B2R x - B2R y)) <= B2R eps) by (intros K; now apply A in K). clear A.
  assert (L : exists z : f32, (if Bltb (Babs x) (Babs y) then Babs y else Babs x) = z /\ is_finite z = true /\
    B2R z = Rmax (Rabs (B2R x)) (Rabs (B2R y))).
  { eexists; split; [reflexivity|].
    rewrite Bltb_ext, !ext_finite, !B2R_Babs by (rewrite ?is_finite_Babs; try assumption; now destruct x, y).
    destruct (Rlt_bool_spec (Rabs (B2R x)) (Rabs (B2R y))); rewrite is_finite_Babs, B2R_Babs;
      (split; [assumption|]); [rewrite Rmax_right|rewrite Rmax_left]; lra. }
  destruct L as (z & -> & Fz & Vz). destruct (mult_small z mr Fz Fm S) as (Fp & Vp). rewrite Vz in Vp.
  destruct (minus_abs x y Fx Fy) as (N & C). set (p := Bmult mode_NE z mr) in *.
  assert (Np : is_nan p = false) by now destruct p.
  rewrite Bleb_ext, (ext_finite p Fp) by assumption. pose proof (finite_bound p) as B. rewrite Vp in B |- *.
  destruct C as [(L & ->)|(L & ->)].
  - destruct (Rle_bool_spec (Rabs (rnd32 (B2R x - B2R y))) (rnd32 (Rmax (Rabs (B2R x)) (Rabs (B2R y)) * B2R mr)));
      split; intros; try tauto; try discriminate. exfalso. intuition lra.
  - rewrite Rle_bool_false by lra. split; [discriminate|]. intros K. exfalso. intuition lra.
Qed.

(** ** Bit patterns count grid points *)

Lemma canon : forall m e, SpecFloat.bounded 24 128 m e = true ->
  (-149 <= e <= 104)%Z /\ (Zpos m < 2 ^ 24)%Z /\ (e = -149 \/ 2 ^ 23 <= Zpos m)%Z.
Proof.
  intros m e H. unfold SpecFloat.bounded, SpecFloat.canonical_mantissa in H.
  apply andb_true_iff in H. destruct H as [H1 H2]. apply Zeq_bool_eq in H1. apply Zle_bool_imp_le in H2.
  rewrite Digits.Zpos_digits2_pos in H1. unfold SpecFloat.fexp, SpecFloat.emin in H1.
  pose proof (Zdigits_correct radix2 (Zpos m)) as D. rewrite Z.abs_eq in D by lia. change (radix_val radix2) with 2%Z in D.
  set (d := Zdigits radix2 (Zpos m)) in *.
  assert (0 < d)%Z by (apply Zdigits_gt_0; lia).
  split; [lia|]. split.
  - apply Z.lt_le_trans with (2 ^ d)%Z; [lia|]. apply Z.pow_le_mono_r; lia.
  - destruct (Z.eq_dec e (-149)) as [E|E]; [now left|right].
    apply Z.le_trans with (2 ^ (d - 1))%Z; [|lia]. apply Z.pow_le_mono_r; lia.
Qed.

Definition nonneg (x : f32) : Prop := is_finite x = true /\ Bsign x = false.

Lemma nonneg_cases : forall x, nonneg x ->
  x = B754_zero false \/ exists m e H, x = B754_finite false m e H.
Proof. intros [s|s| |s m e H] [F S]; try discriminate; cbn in S; subst s; [now left|right; eauto]. Qed.

Lemma nonneg_val : forall x, nonneg x -> 0 <= B2R x.
Proof.
  intros x H. destruct (nonneg_cases x H) as [->|(m & e & B & ->)]; [cbn; lra|]. cbn. apply F2R_ge_0. cbn. lia.
Qed.

Local Ltac pw := change (2 ^ 23)%Z with 8388608%Z in *; change (2 ^ 24)%Z with 16777216%Z in *.

Lemma bits_range : forall x, nonneg x -> (0 <= f32_bits x < 255 * 2 ^ 23)%Z.
Proof.
  intros x H. destruct (nonneg_cases x H) as [->|(m & e & B & ->)]; [cbn; lia|].
  unfold f32_bits; cbn [Bsign]. destruct (canon m e B) as (E & M & C). pw.
  destruct (Z.ltb_spec (Zpos m) 8388608); lia.
Qed.

Lemma bits_inj : forall x y, nonneg x -> nonneg y -> f32_bits x = f32_bits y -> B2R x = B2R y.
Proof.
  intros x y Hx Hy. destruct (nonneg_cases x Hx) as [->|(m & e & B & ->)], (nonneg_cases y Hy) as [->|(m' & e' & B' & ->)];
    unfold f32_bits; cbn [Bsign]; [reflexivity| | |];
    try destruct (canon m e B) as (E & M & C); try destruct (canon m' e' B') as (E' & M' & C'); pw;
    repeat match goal with |- context [(?a <? ?b)%Z] => destruct (Z.ltb_spec a b) end; try lia;
    intros K; cbn [B2R cond_Zopp].
  all: assert (e = e') as <- by lia; assert (m = m') as <- by lia; reflexivity.
Qed.

Lemma succ_val : forall m e, SpecFloat.bounded 24 128 m e = true ->
  next32 (F2R (Float radix2 (Zpos m) e)) = F2R (Float radix2 (Zpos m + 1) e).
Proof.
  intros m e B. rewrite succ_eq_pos by (apply F2R_ge_0; cbn; lia).
  rewrite ulp_canonical; [|lia|].
  - unfold F2R; cbn [Fnum Fexp]. rewrite plus_IZR. ring.
  - apply (canonical_canonical_mantissa 24 128 false). unfold SpecFloat.bounded in B. now apply andb_true_iff in B.
Qed.

Lemma step_bits : forall x, nonneg x -> (f32_bits x + 1 < 255 * 2 ^ 23)%Z ->
  exists z, nonneg z /\ f32_bits z = (f32_bits x + 1)%Z /\ B2R z = next32 (B2R x).
Proof.
  intros x Hx Hb.
  assert (V : exists m e, (-149 <= e <= 104)%Z /\ (0 <= m < 2 ^ 24)%Z /\ (e = -149 \/ 2 ^ 23 <= m)%Z /\
    f32_bits x = (if m <? 2 ^ 23 then m else (e + 150) * 2 ^ 23 + (m - 2 ^ 23))%Z /\
    next32 (B2R x) = F2R (Float radix2 (m + 1) e)).
  { destruct (nonneg_cases x Hx) as [->|(m & e & B & ->)].
    - exists 0%Z, (-149)%Z. split; [lia|]. split; [lia|]. split; [lia|]. split; [reflexivity|].
      cbn [B2R]. rewrite succ_0. change (ulp radix2 (FLT_exp (-149) 24) 0 = F2R (Float radix2 1 (-149))).
      rewrite ulp_FLT_0 by reflexivity. unfold F2R; cbn [Fnum Fexp]. ring.
    - exists (Zpos m), e. destruct (canon m e B) as (E & M & C). split; [exact E|]. split; [lia|]. split; [lia|].
      split; [reflexivity|]. cbn [B2R cond_Zopp]. now apply succ_val. }
  destruct V as (m & e & E & M & C & Vb & Vs). pose proof (Bsucc_correct 24 128 _ _ x (proj1 Hx)) as S.
  assert (L : F2R (Float radix2 (m + 1) e) < bpow radix2 128).
  { destruct (Z.eq_dec e 104) as [E4|E4].
    - subst e. assert (m + 1 < 2 ^ 24)%Z. { pw. destruct (Z.ltb_spec m 8388608) in Vb; lia. }
      apply Rlt_le_trans with (F2R (Float radix2 (2 ^ 24) 104)); [apply F2R_lt; cbn [Fnum]; exact H|].
      unfold F2R; cbn [Fnum Fexp]. change (IZR (2 ^ 24)) with (bpow radix2 24). rewrite <- bpow_plus. apply Rle_refl.
    - apply Rle_lt_trans with (F2R (Float radix2 (2 ^ 24) e)); [apply F2R_le; lia|].
      unfold F2R; cbn [Fnum Fexp]. change (IZR (2 ^ 24)) with (bpow radix2 24). rewrite <- bpow_plus. apply bpow_lt. lia. }
  rewrite Vs, Rlt_bool_true in S by exact L. destruct S as (S1 & S2 & S3).
  set (z := Bsucc x) in *.
  assert (Nz : nonneg z). { split; [exact S2|]. rewrite S3, (proj2 Hx). reflexivity. }
  exists z. split; [exact Nz|]. split; [|now rewrite Vs].
  rewrite Vb. destruct (nonneg_cases z Nz) as [Ez|(m' & e' & B' & Ez)]; rewrite Ez in *.
  { exfalso. cbn [B2R] in S1. assert (0 < F2R (Float radix2 (m + 1) e)) by (apply F2R_gt_0; cbn; lia). lra. }
  cbn [B2R cond_Zopp] in S1. destruct (canon m' e' B') as (E' & M' & C').
  unfold f32_bits; cbn [Bsign].
  destruct (Z.lt_trichotomy e' e) as [G|[G|G]].
  - exfalso. rewrite (F2R_change_exp radix2 e' (m + 1) e) in S1 by lia. apply eq_F2R in S1.
    change (radix_val radix2) with 2%Z in S1.
    assert (2 ^ 1 <= 2 ^ (e - e'))%Z by (apply Z.pow_le_mono_r; lia). change (2 ^ 1)%Z with 2%Z in H. pw. nia.
  - subst e'. apply eq_F2R in S1. rewrite S1 in *. pw.
    destruct (Z.ltb_spec m 8388608), (Z.ltb_spec (m + 1) 8388608); lia.
  - rewrite (F2R_change_exp radix2 e (Zpos m') e') in S1 by lia. apply eq_F2R in S1.
    change (radix_val radix2) with 2%Z in S1.
    assert (K : (e' - e = 1)%Z).
    { destruct (Z.eq_dec (e' - e) 1); [assumption|]. exfalso.
      assert (2 ^ 2 <= 2 ^ (e' - e))%Z by (apply Z.pow_le_mono_r; lia). change (2 ^ 2)%Z with 4%Z in H. pw. nia. }
    rewrite K in S1. change (2 ^ 1)%Z with 2%Z in S1. pw.
    destruct (Z.ltb_spec m 8388608), (Z.ltb_spec (Zpos m') 8388608); lia.
Qed.

Lemma after_S : forall n x, after (S n) x = after n (next32 x).
Proof. intros n x. induction n as [|n IH]; [reflexivity|]. cbn [after] in *. now rewrite IH. Qed.

Lemma after_plus : forall n k x, after (n + k) x = after n (after k x).
Proof. intros n k x. induction n as [|n IH]; [reflexivity|]. cbn [after Nat.add]. now rewrite IH. Qed.

Lemma next_gt : forall x, 0 <= x -> x < next32 x.
Proof.
  intros x H. destruct (Req_dec x 0) as [->|N].
  - rewrite succ_0. change (0 < ulp radix2 (FLT_exp (-149) 24) 0). rewrite ulp_FLT_0 by reflexivity. apply bpow_gt_0.
  - now apply succ_gt_id.
Qed.

Lemma after_pos : forall n x, 0 <= x -> x <= after n x.
Proof.
  intros n x H. induction n as [|n IH]; [apply Rle_refl|]. cbn [after].
  assert (0 <= after n x) by lra. pose proof (next_gt (after n x) H0). lra.
Qed.

Lemma after_gt : forall n x, 0 <= x -> x < after (S n) x.
Proof.
  intros n x H. cbn [after]. pose proof (after_pos n x H). pose proof (next_gt (after n x)). lra.
Qed.

Lemma bits_after : forall n x y, nonneg x -> nonneg y ->
  f32_bits y = (f32_bits x + Z.of_nat n)%Z -> B2R y = after n (B2R x).
Proof.
  induction n as [|n IH]; intros x y Hx Hy H.
  - cbn. apply bits_inj; try assumption. lia.
  - pose proof (bits_range y Hy). destruct (step_bits x Hx) as (z & Hz & Bz & Vz); [lia|].
    rewrite after_S, <- Vz. apply IH; try assumption. lia.
Qed.

Lemma bits_after_iff : forall n x y, nonneg x -> nonneg y ->
  (f32_bits y = (f32_bits x + Z.of_nat n)%Z <-> B2R y = after n (B2R x)).
Proof.
  intros n x y Hx Hy. split; [now apply bits_after|]. intros H.
  pose proof (nonneg_val x Hx) as Px. pose proof (nonneg_val y Hy) as Py.
  destruct (Z.le_gt_cases (f32_bits x) (f32_bits y)) as [L|L].
  - pose proof (bits_after (Z.to_nat (f32_bits y - f32_bits x)) x y Hx Hy ltac:(lia)) as K.
    set (k := Z.to_nat (f32_bits y - f32_bits x)) in *.
    assert (n = k); [|lia].
    destruct (Nat.lt_trichotomy n k) as [G|[G|G]]; [exfalso|exact G|exfalso].
    + replace k with (S (k - n - 1) + n)%nat in K by lia. rewrite after_plus, <- H in K.
      pose proof (after_gt (k - n - 1) (B2R y) Py). lra.
    + replace n with (S (n - k - 1) + k)%nat in H by lia. rewrite after_plus, <- K in H.
      pose proof (after_gt (n - k - 1) (B2R y) Py). lra.
  - exfalso. pose proof (bits_after (Z.to_nat (f32_bits x - f32_bits y)) y x Hy Hx ltac:(lia)) as K.
    set (k := Z.to_nat (f32_bits x - f32_bits y)) in *. rewrite K, <- after_plus in H.
    replace (n + k)%nat with (S (n + k - 1)) in H by lia. pose proof (after_gt (n + k - 1) (B2R y) Py). lra.
Qed.

Lemma bits_abs : forall x : f32, is_finite x = true -> f32_bits (Babs x) = (f32_bits x + if Bsign x then 2 ^ 31 else 0)%Z.
Proof.
  intros [s|s| |s m e H] F; try discriminate; unfold f32_bits; cbn [Babs Bsign]; destruct s; cbn [Bsign]; lia.
Qed.

Lemma sign_eqb : forall x y : f32, is_finite x = true -> is_finite y = true ->
  Beqb (f32_signum x) (f32_signum y) = Bool.eqb (Bsign x) (Bsign y).
Proof.
  intros x y Fx Fy. unfold f32_signum. replace (is_nan x) with false by now destruct x. replace (is_nan y) with false by now destruct y.
  destruct (Bsign x), (Bsign y); vm_compute; reflexivity.
Qed.

Lemma ulps_region : forall (x y eps : f32) (mu : Z),
  is_finite x = true -> is_finite y = true -> is_finite eps = true ->
  (f32_ulps_eq x y eps mu = true <->
   Rabs (rnd32 (B2R x - B2R y)) <= B2R eps \/
   Bsign x = Bsign y /\ exists n : nat, (Z.of_nat n <= mu)%Z /\
     (Rabs (B2R y) = after n (Rabs (B2R x)) \/ Rabs (B2R x) = after n (Rabs (B2R y)))).
Proof.
  intros x y eps mu Fx Fy Fe. unfold f32_ulps_eq.
  pose proof (abs_diff_region x y eps Fx Fy Fe) as A.
  destruct (f32_abs_diff_eq x y eps); [split; [intros _; left; now apply A|reflexivity]|].
  assert (A' : ~ Rabs (rnd32 (B2R x - B2R y)) <= B2R eps) by (intros K; now apply A in K). clear A.
  rewrite sign_eqb by assumption.
  assert (Nx : nonneg (Babs x)) by (split; [now rewrite is_finite_Babs|now destruct x]).
  assert (Ny : nonneg (Babs y)) by (split; [now rewrite is_finite_Babs|now destruct y]).
  pose proof (fun n => bits_after_iff n _ _ Nx Ny) as I1. pose proof (fun n => bits_after_iff n _ _ Ny Nx) as I2.
  rewrite !B2R_Babs in I1. rewrite !B2R_Babs in I2.
  setoid_rewrite (bits_abs x Fx) in I1. setoid_rewrite (bits_abs y Fy) in I1.
  setoid_rewrite (bits_abs x Fx) in I2. setoid_rewrite (bits_abs y Fy) in I2.
  destruct (Bool.eqb_spec (Bsign x) (Bsign y)) as [S|S]; cbn [negb].
  2:{ split; [discriminate|]. intros [K|(K & _)]; contradiction. }
  rewrite S in *. rewrite Z.leb_le. split.
  - intros K. right. split; [reflexivity|]. destruct (Z.le_gt_cases (f32_bits x) (f32_bits y)) as [L|L].
    + exists (Z.to_nat (f32_bits y - f32_bits x)). split; [lia|]. left. apply I1. lia.
    + exists (Z.to_nat (f32_bits x - f32_bits y)). split; [lia|]. right. apply I2. lia.
  - intros [K|(_ & n & Hn & [K|K])]; [contradiction| |].
    + apply I1 in K. lia.
    + apply I2 in K. lia.
Qed.

Lemma infinities : forall (s : bool) (y eps : f32),
  (is_finite eps = true -> f32_abs_diff_eq (B754_infinity s) y eps = false) /\
  (forall mr, f32_relative_eq (B754_infinity s) y eps mr = true <-> y = B754_infinity s) /\
  (forall mu t, is_finite eps = true -> (0 <= mu)%Z ->
   (f32_ulps_eq (B754_infinity s) (B754_infinity t) eps mu = true <-> s = t)) /\
  (forall mu, (1 <= mu)%Z -> f32_ulps_eq (B754_infinity false) (f32_of 16777215 104) eps mu = true).
Proof.
  intros s y eps. split; [|split; [|split]].
  - intros Fe. unfold f32_abs_diff_eq. destruct s, y as [t|[|]| |t m e B], eps as [u|u| |u m' e' B']; try discriminate; destruct u; reflexivity.
  - intros mr. unfold f32_relative_eq. split.
    + destruct s, y as [t|[|]| |t m e B]; cbn; try discriminate; try reflexivity; destruct t; discriminate.
    + intros ->. now destruct s.
  - intros mu t Fe Hm. unfold f32_ulps_eq.
    assert (f32_abs_diff_eq (B754_infinity s) (B754_infinity t) eps = false) as ->.
    { unfold f32_abs_diff_eq. destruct s, t, eps as [u|u| |u m' e' B']; try discriminate; destruct u; reflexivity. }
    destruct s, t; (split; [vm_compute; try discriminate; reflexivity|]); intros E; try discriminate E; cbn; apply Z.leb_le; exact Hm.
  - intros mu Hm. unfold f32_ulps_eq. destruct (f32_abs_diff_eq _ _ _); [reflexivity|].
    replace (Beqb _ _) with true by (vm_compute; reflexivity). cbn [negb].
    replace (f32_bits (B754_infinity false) - f32_bits (f32_of 16777215 104))%Z with 1%Z by (vm_compute; reflexivity).
    now apply Z.leb_le.
Qed.
