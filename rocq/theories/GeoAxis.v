(** * Axis-parallel distances in f32: the square root of a square. *)
From Coq Require Import ZArith Reals List Bool Lia Lra Psatz Arith.
From Flocq Require Import Core.Core IEEE754.BinarySingleNaN.
From Verif Require Import Scalar Utils PlaneSpec F32 Laws PolyF32 GeoSpec Format RoundSpec Rounding NearCalc GeoRound GeoOn GeoPoly GeoSeg GeoCons GeoInc GeoPar.
Local Open Scope R_scope.
Local Notation fx := (SpecFloat.fexp 24 128).
Local Notation rn := (round radix2 fx (round_mode mode_NE)).
Local Notation cross := PlaneSpec.cross.
Local Notation fmt := (generic_format radix2 fx).

Lemma fx_normal : forall e, (-125 <= e)%Z -> fx e = (e - 24)%Z.
Proof. intros e H. unfold SpecFloat.fexp, SpecFloat.emin. lia. Qed.

(** A positive number of the format is the rounded square root of its rounded square. *)
Lemma sqrt_square_pos : forall x, fmt x -> bpow radix2 (-60) <= x <= bpow radix2 62 -> rn (sqrt (rn (x * x))) = x.
Proof.
  intros x Fx B. pose proof (bpow_gt_0 radix2 (-60)) as P60. assert (Px : 0 < x) by lra.
  assert (VE : Valid_exp fx) by apply fexp32_valid.
  set (k := Raux.mag radix2 x : Z). assert (M : bpow radix2 (k - 1) <= x < bpow radix2 k).
  { pose proof (bpow_mag_le radix2 x ltac:(lra)) as G1. pose proof (bpow_mag_gt radix2 x) as G2. rewrite Rabs_pos_eq in G1, G2 by lra. now split. }
  assert (K1 : (-60 < k)%Z) by (apply (lt_bpow radix2); lra). assert (K2 : (k - 1 <= 62)%Z) by (apply (le_bpow radix2); lra).
  set (q := bpow radix2 (k - 24)). assert (Pq : 0 < q) by apply bpow_gt_0.
  assert (CE : cexp radix2 fx x = (k - 24)%Z) by (unfold cexp; fold k; apply fx_normal; lia).
  assert (UL : ulp radix2 fx x = q) by (rewrite ulp_neq_0 by lra; now rewrite CE).
  assert (Q23 : bpow radix2 (k - 1) = 8388608 * q) by (unfold q; change 8388608 with (bpow radix2 23); rewrite <- bpow_plus; f_equal; lia).
  assert (HU : Rabs (rn (x * x) - x * x) <= 8388608 * (q * q)).
  { eapply Rle_trans; [apply error_le_half_ulp, VE|]. rewrite ulp_neq_0 by (apply Rgt_not_eq, Rmult_lt_0_compat; lra).
    apply Rle_trans with (/ 2 * bpow radix2 (k + k - 24)).
    - apply Rmult_le_compat_l; [lra|]. apply bpow_le. unfold cexp.
      assert (MG : (Raux.mag radix2 (x * x) <= k + k)%Z).
      { apply mag_le_bpow; [apply Rgt_not_eq, Rmult_lt_0_compat; lra|]. rewrite Rabs_mult, Rabs_pos_eq by lra. rewrite bpow_plus. apply Rmult_le_0_lt_compat; lra. }
      unfold SpecFloat.fexp, SpecFloat.emin. lia.
    - replace (bpow radix2 (k + k - 24)) with (16777216 * (q * q)); [lra|]. unfold q. change 16777216 with (bpow radix2 24). rewrite <- !bpow_plus. f_equal. lia. }
  apply Rabs_le_inv in HU. set (s := rn (x * x)) in *.
  destruct (Req_dec x (bpow radix2 (k - 1))) as [E|NE].
  { assert (Es : s = x * x).
    { unfold s. rewrite E, <- bpow_plus. apply round_generic; [apply valid_rnd_round_mode|]. apply generic_format_bpow. unfold SpecFloat.fexp, SpecFloat.emin. lia. }
    rewrite Es, sqrt_square by lra. apply round_generic; [apply valid_rnd_round_mode|exact Fx]. }
  assert (X1 : 8388609 * q <= x).
  { assert (Ex : x = IZR (Ztrunc (scaled_mantissa radix2 fx x)) * q) by (rewrite Fx at 1; unfold F2R; cbn [Fnum Fexp]; now rewrite CE).
    set (m := Ztrunc _) in *. assert (8388608 < m)%Z; [|apply Rle_trans with (IZR m * q); [apply Rmult_le_compat_r; [lra|apply IZR_le; lia]|lra]].
    apply lt_IZR. apply Rmult_lt_reg_r with q; [exact Pq|]. lra. }
  assert (XQ : 8388609 * (q * q) <= x * q) by (rewrite <- Rmult_assoc; apply Rmult_le_compat_r; lra).
  assert (QQ : 0 < q * q) by (apply Rmult_lt_0_compat; lra).
  assert (XX : 2 * (q * q) <= x * x) by (assert (q * q <= x * q) by (apply Rmult_le_compat_r; lra); assert (8388609 * q * x <= x * x) by (apply Rmult_le_compat_r; lra); lra).
  assert (UP : sqrt s < x + q / 2).
  { rewrite <- (sqrt_square (x + q / 2)) by lra. apply sqrt_lt_1_alt. split; [unfold Rsqr in *; nra|]. replace ((x + q / 2) * (x + q / 2)) with (x * x + x * q + q * q / 4) by field. lra. }
  assert (LO : x - q / 2 < sqrt s).
  { rewrite <- (sqrt_square (x - q / 2)) by lra. apply sqrt_lt_1_alt. split; [apply Rle_0_sqr|]. replace ((x - q / 2) * (x - q / 2)) with (x * x - x * q + q * q / 4) by field. lra. }
  apply Rle_antisym.
  - apply round_N_le_midp; [exact VE|exact Fx|]. rewrite succ_eq_pos, UL by lra. lra.
  - apply round_N_ge_midp; [exact VE|exact Fx|]. rewrite pred_eq_pos by lra. unfold pred_pos. fold k. rewrite Req_bool_false by exact NE. rewrite UL. lra.
Qed.
Lemma sqrt_square_abs : forall x, fmt x -> bpow radix2 (-60) <= Rabs x <= bpow radix2 62 -> rn (sqrt (rn (x * x))) = Rabs x.
Proof.
  intros x Fx B. replace (x * x) with (Rabs x * Rabs x) by (rewrite <- Rabs_mult; apply Rabs_pos_eq, Rle_0_sqr).
  apply sqrt_square_pos; [now apply generic_format_abs|exact B].
Qed.

Lemma plus_0 : forall x z : f32, is_finite x = true -> is_finite z = true -> B2R z = 0 ->
  is_finite (Bplus mode_NE x z) = true /\ B2R (Bplus mode_NE x z) = B2R x /\ is_finite (Bplus mode_NE z x) = true /\ B2R (Bplus mode_NE z x) = B2R x.
Proof.
  intros x z F Fz E. pose proof (Bplus_correct 24 128 _ _ mode_NE x z F Fz) as C. pose proof (Bplus_correct 24 128 _ _ mode_NE z x Fz F) as C'.
  rewrite E, Rplus_0_r in C. rewrite E, Rplus_0_l in C'. rewrite round_generic in C, C' by (apply rnd32_valid || apply generic_format_B2R).
  rewrite Rlt_bool_true in C, C' by apply abs_B2R_lt_emax. destruct C as (C1 & C2 & _), C' as (C3 & C4 & _). auto.
Qed.
Lemma distance_eq : forall (O : Ops) (a b : Vec2 O), distance a b =
  osqrt (oadd (omul (osub (vx b) (vx a)) (osub (vx b) (vx a))) (omul (osub (vy b) (vy a)) (osub (vy b) (vy a)))).
Proof. reflexivity. Qed.

Section Axis.
Variable lm : Libm.
Local Notation f := (single lm).
Local Notation F := (FO lm).

(** The length of a rounded vector with one component 0. *)
Lemma norm_axis : forall d z : f32, is_finite d = true -> is_finite z = true -> B2R z = 0 -> bpow radix2 (-60) <= Rabs (B2R d) <= bpow radix2 62 ->
  (is_finite (Bsqrt mode_NE (Bplus mode_NE (Bmult mode_NE d d) (Bmult mode_NE z z))) = true /\ B2R (Bsqrt mode_NE (Bplus mode_NE (Bmult mode_NE d d) (Bmult mode_NE z z))) = Rabs (B2R d)) /\
  (is_finite (Bsqrt mode_NE (Bplus mode_NE (Bmult mode_NE z z) (Bmult mode_NE d d))) = true /\ B2R (Bsqrt mode_NE (Bplus mode_NE (Bmult mode_NE z z) (Bmult mode_NE d d))) = Rabs (B2R d)).
Proof.
  intros d z Fd Fz Ez B.
  assert (FD : is_finite (Bmult mode_NE d d) = true).
  { destruct (mul_ok f d d Fd Fd) as [G _]; [|exact G]. rewrite u_eq, huge_eq, tiny_eq.
    assert (Rabs (B2R d * B2R d) <= bpow radix2 124) by (rewrite Rabs_mult; change 124%Z with (62 + 62)%Z; rewrite bpow_plus; apply Rmult_le_compat; try apply Rabs_pos; apply B).
    assert (bpow radix2 (-126) <= bpow radix2 124) by (apply bpow_le; lia). pose proof (bpow_gt_0 radix2 (-126)).
    apply Rle_lt_trans with (4 * bpow radix2 124); [match goal with |- Rabs ?v * _ + _ <= _ => change v with (B2R d * B2R d) end; unfold u32; lra|].
    change 128%Z with (4 + 124)%Z. rewrite bpow_plus. change (bpow radix2 4) with 16. pose proof (bpow_gt_0 radix2 124). lra. }
  assert (FZ : is_finite (Bmult mode_NE z z) = true).
  { destruct (mul_ok f z z Fz Fz) as [G _]; [|exact G]. rewrite u_eq, huge_eq, tiny_eq. match goal with |- Rabs ?v * _ + _ < _ => replace v with 0 by (symmetry; change (B2R z * B2R z = 0); rewrite Ez; ring) end.
    rewrite Rabs_R0, Rmult_0_l, Rplus_0_l. change u32 with (bpow radix2 (-24)). rewrite <- bpow_plus. apply bpow_lt. lia. }
  assert (VD : B2R (Bmult mode_NE d d) = rnd32 (B2R d * B2R d)) by now apply mult_val.
  assert (VZ : B2R (Bmult mode_NE z z) = 0) by (rewrite mult_val, Ez, Rmult_0_l by exact FZ; apply round_0, rnd32_valid).
  destruct (plus_0 _ _ FD FZ VZ) as (F1 & E1 & F2 & E2).
  assert (SQ : forall s : f32, is_finite s = true -> B2R s = rnd32 (B2R d * B2R d) -> is_finite (Bsqrt mode_NE s) = true /\ B2R (Bsqrt mode_NE s) = Rabs (B2R d)).
  { intros s Fs Es. assert (Ps : 0 <= B2R s) by (rewrite Es; apply rnd_ge0, Rle_0_sqr). destruct (sqrt_rel lm s Fs Ps) as [G _]. split; [exact G|].
    destruct (Bsqrt_correct 24 128 _ _ mode_NE s) as (E & _). rewrite E, Es. apply sqrt_square_abs; [apply generic_format_B2R|exact B]. }
  split; apply SQ; congruence.
Qed.

(** Horizontal and vertical distances are correctly rounded. *)
Lemma diff_axis : forall x y : f32, is_finite x = true -> is_finite y = true -> Rabs (B2R x) <= bpow radix2 60 -> Rabs (B2R y) <= bpow radix2 60 ->
  is_finite (Bminus mode_NE x y) = true /\ B2R (Bminus mode_NE x y) = rnd32 (B2R x - B2R y) /\ Rabs (rnd32 (B2R x - B2R y)) <= bpow radix2 62 /\
  (bpow radix2 (-60) <= Rabs (B2R x - B2R y) -> bpow radix2 (-60) <= Rabs (rnd32 (B2R x - B2R y))).
Proof.
  intros x y Fx Fy Bx By. destruct (box_diff lm x y Fx Fy Bx By) as [(_ & G & _) D]. split; [exact G|]. split; [now apply minus_val|].
  assert (FB : forall k, (-149 < k < 128)%Z -> generic_format radix2 (SpecFloat.fexp 24 128) (bpow radix2 k)) by (intros k Hk; apply generic_format_bpow; unfold SpecFloat.fexp, SpecFloat.emin; lia).
  split.
  - apply abs_round_le_generic; [apply fexp32_valid|apply rnd32_valid|apply FB; lia|]. apply Rle_trans with (bpow radix2 61); [exact D|apply bpow_le; lia].
  - intros L. apply abs_round_ge_generic; [apply fexp32_valid|apply rnd32_valid|apply FB; lia|exact L].
Qed.
Theorem distance_axis : forall a b : Vec2 F, inbox a -> inbox b -> let A := real_point a in let B := real_point b in
  vx A = vx B \/ vy A = vy B -> bpow radix2 (-60) <= dist A B ->
  is_finite (distance a b : f32) = true /\ B2R (distance a b : f32) = rnd32 (dist A B).
Proof.
  intros a b ([Fax Fay] & Bax & Bay) ([Fbx Fby] & Bbx & Bby) A B H L. rewrite distance_eq.
  destruct (diff_axis _ _ Fbx Fax Bbx Bax) as (F1 & E1 & U1 & L1). destruct (diff_axis _ _ Fby Fay Bby Bay) as (F2 & E2 & U2 & L2).
  assert (RA : forall x, Rabs (rnd32 x) = rnd32 (Rabs x)) by (intros x; symmetry; apply round_NE_abs, fexp32_valid).
  assert (ZZ : forall x y w, x = y -> w = rnd32 (y - x) -> w = 0) by (intros x y w Exy Ew; rewrite Ew, Exy, Rminus_diag_eq by reflexivity; apply round_0, rnd32_valid).
  destruct H as [H|H].
  - assert (DE : dist A B = Rabs (vy B - vy A)) by (unfold dist; rewrite H, Rminus_diag_eq, Rmult_0_l, Rplus_0_l by reflexivity; apply sqrt_Rsqr_abs).
    pose proof (ZZ _ _ _ H E1) as E0. rewrite DE in L. specialize (L2 L).
    edestruct (norm_axis _ _ F2 F1 E0) as [_ [G1 G2]]; [rewrite E2; split; [exact L2|exact U2]|]. split; [exact G1|].
    rewrite DE, <- RA. etransitivity; [exact G2|]. now f_equal.
  - assert (DE : dist A B = Rabs (vx B - vx A)) by (unfold dist; rewrite H, (Rminus_diag_eq (vy B)), Rmult_0_l, Rplus_0_r by reflexivity; apply sqrt_Rsqr_abs).
    pose proof (ZZ _ _ _ H E2) as E0. rewrite DE in L. specialize (L1 L).
    edestruct (norm_axis _ _ F1 F2 E0) as [[G1 G2] _]; [rewrite E1; split; [exact L1|exact U1]|]. split; [exact G1|].
    rewrite DE, <- RA. etransitivity; [exact G2|]. now f_equal.
Qed.

(** Dividing by the length: -1, 0 or 1 exactly. *)
Lemma div_unit : forall (d l : f32) s, is_finite d = true -> 0 < B2R l -> B2R d / B2R l = IZR s -> (-1 <= s <= 1)%Z ->
  is_finite (Bdiv mode_NE d l) = true /\ B2R (Bdiv mode_NE d l) = IZR s.
Proof.
  intros d l s Fd Pl E Hs. pose proof (Bdiv_correct 24 128 _ _ mode_NE d l (Rgt_not_eq _ _ Pl)) as C. rewrite E in C.
  rewrite round_generic in C; [|apply rnd32_valid|].
  - rewrite Rlt_bool_true in C; [destruct C as (C1 & C2 & _); split; [now rewrite C2|exact C1]|].
    apply Rle_lt_trans with 1; [rewrite <- abs_IZR; apply IZR_le; lia|change 1 with (bpow radix2 0); apply bpow_lt; lia].
  - assert (S : (s = -1 \/ s = 0 \/ s = 1)%Z) by lia. assert (G : generic_format radix2 (SpecFloat.fexp 24 128) 1) by (change 1 with (bpow radix2 0); apply generic_format_bpow; unfold SpecFloat.fexp, SpecFloat.emin; lia).
    destruct S as [->|[->| ->]]; [apply generic_format_opp; exact G|apply generic_format_0|exact G].
Qed.
Lemma mul_unit : forall (x y : f32) s t, is_finite x = true -> is_finite y = true -> B2R x = IZR s -> B2R y = IZR t -> (-1 <= s <= 1)%Z -> (-1 <= t <= 1)%Z ->
  is_finite (Bmult mode_NE x y) = true /\ B2R (Bmult mode_NE x y) = IZR (s * t).
Proof.
  intros x y s t Fx Fy Ex Ey Hs Ht. pose proof (Bmult_correct 24 128 _ _ mode_NE x y) as C. rewrite Ex, Ey, <- mult_IZR in C.
  rewrite round_generic in C; [|apply rnd32_valid|].
  - rewrite Rlt_bool_true in C; [destruct C as (C1 & C2 & _); split; [now rewrite C2, Fx, Fy|exact C1]|].
    apply Rle_lt_trans with 1; [rewrite <- abs_IZR; apply IZR_le; nia|change 1 with (bpow radix2 0); apply bpow_lt; lia].
  - assert (S : (s * t = -1 \/ s * t = 0 \/ s * t = 1)%Z) by nia. assert (G : generic_format radix2 (SpecFloat.fexp 24 128) 1) by (change 1 with (bpow radix2 0); apply generic_format_bpow; unfold SpecFloat.fexp, SpecFloat.emin; lia).
    destruct S as [->|[->| ->]]; [apply generic_format_opp; exact G|apply generic_format_0|exact G].
Qed.

(** The direction of an axis-parallel segment, as the code computes it. *)
Lemma unit_axis : forall a b : Vec2 F, inbox a -> inbox b -> let A := real_point a in let B := real_point b in
  vx A = vx B \/ vy A = vy B -> bpow radix2 (-60) <= dist A B -> exists s t : Z,
  (is_finite (Bdiv mode_NE (Bminus mode_NE (vx b) (vx a)) (distance a b : f32)) = true /\ B2R (Bdiv mode_NE (Bminus mode_NE (vx b) (vx a)) (distance a b : f32)) = IZR s) /\
  (is_finite (Bdiv mode_NE (Bminus mode_NE (vy b) (vy a)) (distance a b : f32)) = true /\ B2R (Bdiv mode_NE (Bminus mode_NE (vy b) (vy a)) (distance a b : f32)) = IZR t) /\
  ((s = 0 /\ (t = 1 \/ t = -1)) \/ (t = 0 /\ (s = 1 \/ s = -1)))%Z /\ vx B - vx A = IZR s * dist A B /\ vy B - vy A = IZR t * dist A B.
Proof.
  intros a b Ia Ib A B H L. destruct (distance_axis a b Ia Ib H L) as [Fl El]. fold A B in El. revert Fl El. generalize (distance a b : f32). intros l Fl El.
  destruct Ia as ([Fax Fay] & Bax & Bay), Ib as ([Fbx Fby] & Bbx & Bby).
  destruct (diff_axis _ _ Fbx Fax Bbx Bax) as (F1 & E1 & U1 & L1). destruct (diff_axis _ _ Fby Fay Bby Bay) as (F2 & E2 & U2 & L2).
  assert (RA : forall x, Rabs (rnd32 x) = rnd32 (Rabs x)) by (intros x; symmetry; apply round_NE_abs, fexp32_valid).
  assert (R0 : rnd32 0 = 0) by (apply round_0, rnd32_valid).
  assert (RN : forall x, rnd32 (- x) = - rnd32 x) by (intros; apply round_NE_opp).
  pose proof (bpow_gt_0 radix2 (-60)) as P60.
  assert (PL : 0 < B2R l).
  { apply Rlt_le_trans with (bpow radix2 (-60)); [exact P60|]. replace (B2R l) with (Rabs (rnd32 (dist A B))) by (rewrite RA, Rabs_pos_eq by lra; now rewrite El).
    apply abs_round_ge_generic; [apply fexp32_valid|apply rnd32_valid|apply generic_format_bpow; unfold SpecFloat.fexp, SpecFloat.emin; lia|rewrite Rabs_pos_eq by lra; exact L]. }
  assert (EX : B2R (Bminus mode_NE (vx b : f32) (vx a : f32)) = rnd32 (vx B - vx A)) by exact E1. assert (EY : B2R (Bminus mode_NE (vy b : f32) (vy a : f32)) = rnd32 (vy B - vy A)) by exact E2.
  assert (SG : forall w, dist A B = Rabs w -> exists s, (s = 1 \/ s = -1)%Z /\ w = IZR s * dist A B /\ rnd32 w / B2R l = IZR s).
  { intros w Hw. destruct (Rle_or_lt 0 w) as [G|G].
    - exists 1%Z. rewrite Rabs_pos_eq in Hw by exact G. rewrite <- Hw. split; [auto|split; [lra|]]. rewrite <- El. field. lra.
    - exists (-1)%Z. rewrite Rabs_left in Hw by exact G. replace w with (- dist A B) by lra. split; [auto|split; [lra|]]. rewrite RN, <- El. field. lra. }
  destruct H as [H|H].
  - assert (DE : dist A B = Rabs (vy B - vy A)) by (unfold dist; rewrite H, Rminus_diag_eq, Rmult_0_l, Rplus_0_l by reflexivity; apply sqrt_Rsqr_abs).
    destruct (SG _ DE) as (t & Ht & V & Q). exists 0%Z, t. split; [|split].
    + apply div_unit; [exact F1|exact PL| |lia]. rewrite EX, H, Rminus_diag_eq, R0 by reflexivity. unfold Rdiv. lra.
    + apply div_unit; [exact F2|exact PL| |lia]. rewrite EY. exact Q.
    + split; [tauto|]. split; [lra|exact V].
  - assert (DE : dist A B = Rabs (vx B - vx A)) by (unfold dist; rewrite H, (Rminus_diag_eq (vy B)), Rmult_0_l, Rplus_0_r by reflexivity; apply sqrt_Rsqr_abs).
    destruct (SG _ DE) as (s & Hs & V & Q). exists s, 0%Z. split; [|split].
    + apply div_unit; [exact F1|exact PL| |lia]. rewrite EX. exact Q.
    + apply div_unit; [exact F2|exact PL| |lia]. rewrite EY, H, Rminus_diag_eq, R0 by reflexivity. unfold Rdiv. lra.
    + split; [tauto|]. split; [exact V|lra].
Qed.

(** The tolerance test at the values -1, 0 and 1. *)
Lemma par_test : forall (n : f32) s, is_finite n = true -> B2R n = IZR s -> (-1 <= s <= 1)%Z ->
  olt (oabs (osub (oabs (n : car F)) c1)) (ceps : car F) = negb (s =? 0)%Z.
Proof.
  intros n s Fn En Hs. change (Bltb (Babs (Bminus mode_NE (Babs n) (c1 : F))) (ceps : F) = negb (s =? 0)%Z).
  assert (V1 : B2R (c1 : F) = 1) by (vm_compute; lra). assert (F1 : is_finite (c1 : F) = true) by reflexivity.
  assert (FA : is_finite (Babs n) = true) by now rewrite is_finite_Babs. assert (EA : B2R (Babs n) = IZR (Z.abs s)) by (rewrite B2R_Babs, En, abs_IZR; reflexivity).
  pose proof (Bminus_correct 24 128 _ _ mode_NE (Babs n) (c1 : F) FA F1) as C.
  match type of C with context [round _ _ _ ?v] => replace v with (IZR (Z.abs s - 1)) in C by (rewrite minus_IZR; change (IZR (Z.abs s) - 1 = B2R (Babs n) - B2R (c1 : F)); rewrite EA, V1; reflexivity) end.
  rewrite round_generic in C; [|apply rnd32_valid|].
  - rewrite Rlt_bool_true in C; [|apply Rle_lt_trans with 1; [rewrite <- abs_IZR; apply IZR_le; lia|change 1 with (bpow radix2 0); apply bpow_lt; lia]].
    destruct C as (C1 & C2 & _). destruct (eps_val lm) as [Fe Ee]. rewrite Bltb_correct; [|now rewrite is_finite_Babs|exact Fe].
    rewrite B2R_Babs. match goal with |- Rlt_bool (Rabs ?v) ?w = _ => replace v with (IZR (Z.abs s - 1)) by (symmetry; exact C1); replace w with eps32 by (symmetry; exact Ee) end.
    rewrite eps_num, <- abs_IZR. destruct (Z.eqb_spec s 0) as [->|N]; cbn [negb].
    + apply Rlt_bool_false. cbn. unfold u32. lra.
    + replace (Z.abs (Z.abs s - 1))%Z with 0%Z by lia. apply Rlt_bool_true. unfold u32. lra.
  - assert (S : (Z.abs s - 1 = -1 \/ Z.abs s - 1 = 0)%Z) by lia.
    assert (G : generic_format radix2 (SpecFloat.fexp 24 128) 1) by (change 1 with (bpow radix2 0); apply generic_format_bpow; unfold SpecFloat.fexp, SpecFloat.emin; lia).
    destruct S as [->| ->]; [apply generic_format_opp; exact G|apply generic_format_0].
Qed.

(** On axis-parallel segments the test decides parallelism exactly. *)
Theorem parallel_axis : forall a b c d : Vec2 F, inbox a -> inbox b -> inbox c -> inbox d ->
  let A := real_point a in let B := real_point b in let C := real_point c in let D := real_point d in
  vx A = vx B \/ vy A = vy B -> vx C = vx D \/ vy C = vy D -> bpow radix2 (-60) <= dist A B -> bpow radix2 (-60) <= dist C D ->
  (parallel a b c d = true <-> cross A B C D = 0).
Proof.
  intros a b c d Ia Ib Ic Id A B C D H1 H2 L1 L2. rewrite parallel_eq, normalize_dot_eq. pose proof (bpow_gt_0 radix2 (-60)) as P60.
  destruct (unit_axis a b Ia Ib H1 L1) as (s & t & [Fs Es] & [Ft Et] & K1 & X1 & Y1). destruct (unit_axis c d Ic Id H2 L2) as (s' & t' & [Fs' Es'] & [Ft' Et'] & K2 & X2 & Y2).
  fold A B in X1, Y1. fold C D in X2, Y2.
  assert (CE : cross A B C D = IZR (s * t' - t * s') * (dist A B * dist C D)) by (unfold PlaneSpec.cross; rewrite X1, Y1, X2, Y2, minus_IZR, !mult_IZR; ring).
  destruct (mul_unit _ _ s s' Fs Fs' Es Es') as [FM EM]; try lia. destruct (mul_unit _ _ t t' Ft Ft' Et Et') as [FN EN]; try lia.
  assert (SUM : exists k, (-1 <= k <= 1)%Z /\ (k = 0 <-> s * t' - t * s' <> 0)%Z /\ is_finite (Bplus mode_NE (Bmult mode_NE (Bdiv mode_NE (Bminus mode_NE (vx b) (vx a)) (distance a b : f32)) (Bdiv mode_NE (Bminus mode_NE (vx d) (vx c)) (distance c d : f32)))
     (Bmult mode_NE (Bdiv mode_NE (Bminus mode_NE (vy b) (vy a)) (distance a b : f32)) (Bdiv mode_NE (Bminus mode_NE (vy d) (vy c)) (distance c d : f32)))) = true /\
     B2R (Bplus mode_NE (Bmult mode_NE (Bdiv mode_NE (Bminus mode_NE (vx b) (vx a)) (distance a b : f32)) (Bdiv mode_NE (Bminus mode_NE (vx d) (vx c)) (distance c d : f32)))
     (Bmult mode_NE (Bdiv mode_NE (Bminus mode_NE (vy b) (vy a)) (distance a b : f32)) (Bdiv mode_NE (Bminus mode_NE (vy d) (vy c)) (distance c d : f32)))) = IZR k).
  { assert (ZZ : (t * t' = 0)%Z \/ (s * s' = 0)%Z) by nia. destruct ZZ as [ZZ|ZZ].
    - exists (s * s')%Z. split; [nia|]. split; [nia|]. rewrite ZZ in EN. destruct (plus_0 _ _ FM FN EN) as (G1 & G2 & _). split; [exact G1|]. etransitivity; [exact G2|exact EM].
    - exists (t * t')%Z. split; [nia|]. split; [nia|]. rewrite ZZ in EM. destruct (plus_0 _ _ FN FM EM) as (_ & _ & G1 & G2). split; [exact G1|]. etransitivity; [exact G2|exact EN]. }
  destruct SUM as (k & Hk & K & FK & EK). pose proof (par_test _ k FK EK Hk) as PT.
  match goal with |- ?l = true <-> _ => assert (LT : l = negb (k =? 0)%Z) by exact PT end. rewrite LT, CE.
  assert (PD : 0 < dist A B * dist C D) by (apply Rmult_lt_0_compat; lra).
  destruct (Z.eqb_spec k 0) as [Z0|Z0]; cbn [negb]; split; intros Q; try discriminate.
  - apply Rmult_integral in Q. destruct Q as [Q|Q]; [|lra]. apply eq_IZR in Q. tauto.
  - assert (G : (s * t' - t * s' = 0)%Z) by (destruct (Z.eq_dec (s * t' - t * s') 0); tauto). rewrite G. ring.
  - reflexivity.
Qed.
End Axis.
