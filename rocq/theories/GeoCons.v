(** * Midpoints and polygon centres in f32. *)
From Coq Require Import ZArith Reals List Bool Lia Lra Psatz Arith.
From Flocq Require Import Core.Core IEEE754.BinarySingleNaN Mult_error.
From Verif Require Import Scalar Utils Polygon PlaneSpec F32 Laws PolyF32 GeoSpec Format RoundSpec Rounding NearCalc GeoRound GeoOn GeoPoly GeoSeg GridGraph ConsSpec.
Import ListNotations.
Local Open Scope R_scope.

Section Cons.
Variable lm : Libm.
Local Notation f := (single lm).
Local Notation F := (FO lm).
Local Notation fx := (SpecFloat.fexp 24 128).
Local Notation rn := (round radix2 fx (round_mode mode_NE)).

Lemma half_val : is_finite (chalf : F) = true /\ B2R (chalf : F) = / 2.
Proof. split; [reflexivity|]. vm_compute. lra. Qed.
Lemma fmt : forall x : f32, generic_format radix2 fx (B2R x).
Proof. intros x. apply generic_format_B2R. Qed.
Lemma fmt_double : forall x : f32, generic_format radix2 fx (2 * B2R x).
Proof.
  intros x. rewrite Rmult_comm. change 2 with (bpow radix2 1).
  apply (mult_bpow_pos_exact_FLT radix2 (-149) 24); [apply (fmt x)|lia].
Qed.
(** Halving an f32 is exact down to the subnormal range, and off by 2^-150 there. *)
Lemma half_err : forall s : f32, Rabs (rn (B2R s * / 2) - B2R s * / 2) <= bpow radix2 (-150) /\
  (bpow radix2 (-125) <= Rabs (B2R s) -> rn (B2R s * / 2) = B2R s * / 2).
Proof.
  intros s.
  assert (X : bpow radix2 (-125) <= Rabs (B2R s) -> rn (B2R s * / 2) = B2R s * / 2).
  { intros H. apply round_generic; [apply rnd32_valid|]. change (/ 2) with (bpow radix2 (-1)).
    apply (mult_bpow_exact_FLT radix2 (-149) 24); [apply (fmt s)|].
    assert ((-124 <= Raux.mag radix2 (B2R s))%Z) by (apply mag_ge_bpow; exact H). lia. }
  split; [|exact X]. destruct (Rle_lt_dec (bpow radix2 (-125)) (Rabs (B2R s))) as [H|H].
  - rewrite X by exact H. replace (B2R s * / 2 - B2R s * / 2) with 0 by ring. rewrite Rabs_R0. apply bpow_ge_0.
  - eapply Rle_trans; [apply (error_le_half_ulp radix2 (FLT_exp (-149) 24))|].
    rewrite ulp_FLT_small; [|reflexivity|].
    + change (/ 2) with (bpow radix2 (-1)). rewrite <- bpow_plus. apply bpow_le. lia.
    + rewrite Rabs_mult, (Rabs_pos_eq (/ 2)) by lra. change (-149 + 24)%Z with (-125)%Z. pose proof (Rabs_pos (B2R s)). lra.
Qed.

Lemma half_sum : forall x y : f32, is_finite x = true -> is_finite y = true -> (1 + u32) * Rabs (B2R x + B2R y) < bpow radix2 128 ->
  let m := Bmult mode_NE (Bplus mode_NE x y) (chalf : F) in
  within (u32 / 2 * Rabs (B2R x + B2R y) + bpow radix2 (-150)) m ((B2R x + B2R y) / 2) /\
  Rmin (B2R x) (B2R y) <= B2R m <= Rmax (B2R x) (B2R y).
Proof.
  intros x y Fx Fy H m. destruct half_val as [Fh Eh].
  pose proof (Bplus_correct 24 128 _ _ mode_NE x y Fx Fy) as C.
  destruct (rnd_plus f x y) as (d & Hd & E). change (rn (B2R x + B2R y) = (B2R x + B2R y) * (1 + d)) in E. change (Rabs d <= u32) in Hd.
  assert (Bs : Rabs (rn (B2R x + B2R y)) < bpow radix2 128).
  { rewrite E, Rabs_mult. eapply Rle_lt_trans; [|exact H]. rewrite Rmult_comm. apply Rmult_le_compat_r; [apply Rabs_pos|].
    eapply Rle_trans; [apply Rabs_triang|]. rewrite Rabs_R1. lra. }
  rewrite Rlt_bool_true in C by exact Bs. destruct C as (Es & Fs & _). set (s := Bplus mode_NE x y) in *.
  pose proof (Bmult_correct 24 128 _ _ mode_NE s (chalf : F)) as M. fold m in M.
  rewrite Eh in M. destruct (half_err s) as [H1 H2].
  assert (Bm : Rabs (rn (B2R s * / 2)) < bpow radix2 128).
  { destruct (Rle_lt_dec (bpow radix2 (-125)) (Rabs (B2R s))) as [L|L].
    - rewrite H2 by exact L. rewrite Rabs_mult, (Rabs_pos_eq (/ 2)) by lra. rewrite <- Es in Bs. pose proof (Rabs_pos (B2R s)). lra.
    - replace (rn (B2R s * / 2)) with ((rn (B2R s * / 2) - B2R s * / 2) + B2R s * / 2) by ring.
      eapply Rle_lt_trans; [apply Rabs_triang|]. rewrite (Rabs_mult _ (/ 2)), (Rabs_pos_eq (/ 2)) by lra.
      assert (bpow radix2 (-150) <= 1) by (change 1 with (bpow radix2 0); apply bpow_le; lia).
      assert (bpow radix2 (-125) <= 1) by (change 1 with (bpow radix2 0); apply bpow_le; lia).
      apply Rle_lt_trans with (bpow radix2 1); [change (bpow radix2 1) with 2; lra|apply bpow_lt; lia]. }
  rewrite Rlt_bool_true in M by exact Bm. destruct M as (Em & Fm & _). rewrite Fs, Fh in Fm.
  split; [split; [exact Fm|]|].
  - rewrite Em. replace (rn (B2R s * / 2) - (B2R x + B2R y) / 2) with ((B2R s - (B2R x + B2R y)) / 2 + (rn (B2R s * / 2) - B2R s * / 2)) by field.
    eapply Rle_trans; [apply Rabs_triang|]. apply Rplus_le_compat; [|exact H1]. rewrite Es, E.
    replace (((B2R x + B2R y) * (1 + d) - (B2R x + B2R y)) / 2) with (d / 2 * (B2R x + B2R y)) by field. rewrite Rabs_mult.
    apply Rmult_le_compat_r; [apply Rabs_pos|]. unfold Rdiv. rewrite Rabs_mult, (Rabs_pos_eq (/ 2)) by lra. lra.
  - rewrite Em. set (lo := Rmin _ _). set (hi := Rmax _ _).
    assert (B : 2 * lo <= B2R s <= 2 * hi).
    { rewrite Es. unfold lo, hi, Rmin, Rmax. destruct (Rle_dec (B2R x) (B2R y)) as [L|L]; split;
        (apply round_ge_generic || apply round_le_generic); try apply fexp32_valid; try apply rnd32_valid; try apply fmt_double; lra. }
    split; (apply round_ge_generic || apply round_le_generic); try apply fexp32_valid; try apply rnd32_valid; try lra;
      unfold lo, hi, Rmin, Rmax; destruct (Rle_dec (B2R x) (B2R y)); apply fmt.
Qed.

(** ** Sums *)
Lemma asum_pos : forall l, 0 <= asum l.
Proof. induction l as [|x l IH]; [cbn; lra|]. change (0 <= Rabs (B2R x) + asum l). pose proof (Rabs_pos (B2R x)). lra. Qed.
Lemma sum_near : forall l n M acc r, Forall (fun x : f32 => is_finite x = true) l -> nr f n M acc r ->
  (1 + u32) ^ (n + length l) * (M + asum l) < bpow radix2 128 ->
  nr f (n + length l) (M + asum l) (fold_left (fun a b : f32 => Bplus mode_NE a b) l acc) (r + rsum (map (@B2R 24 128) l)).
Proof.
  induction l as [|x l IH]; intros n M acc r Fl H B.
  - cbn [length map rsum fold_right fold_left]. unfold asum. cbn [map rsum fold_right]. rewrite Nat.add_0_r, !Rplus_0_r. exact H.
  - inversion Fl as [|? ? Fx Fl']; subst. cbn [length fold_left map] in *.
    change (asum (x :: l)) with (Rabs (B2R x) + asum l) in *. change (rsum (B2R x :: map (@B2R 24 128) l)) with (B2R x + rsum (map (@B2R 24 128) l)).
    rewrite <- Rplus_assoc, <- (Rplus_assoc r). rewrite <- Rplus_assoc in B. replace (n + S (length l))%nat with (S n + length l)%nat in * by lia.
    pose proof (asum_pos l) as P. pose proof (Rabs_pos (B2R x)) as Px. assert (PM : 0 <= M) by (pose proof (Rabs_pos r); destruct H; lra).
    apply IH; [exact Fl'| |exact B]. apply (nr_add f); [exact H| |].
    + apply (nr_mono f 0 n (Rabs (B2R x))); [lia|lra|now apply (nr_val f)].
    + rewrite u_eq, huge_eq. eapply Rle_lt_trans; [|exact B].
      apply Rmult_le_compat; [apply pow_le; unfold u32; lra|lra|apply Rle_pow; [unfold u32; lra|lia]|].
      match goal with |- _ <= ?z => change (M + Rabs (B2R x) <= z) end. lra.
Qed.
Lemma pow_exp : forall n, (1 + u32) ^ n <= exp (INR n * u32).
Proof.
  induction n as [|n IH]; [cbn; rewrite Rmult_0_l, exp_0; lra|]. rewrite S_INR. replace ((INR n + 1) * u32) with (u32 + INR n * u32) by ring.
  rewrite exp_plus. cbn [pow]. apply Rmult_le_compat; [unfold u32; lra|apply pow_le; unfold u32; lra| |exact IH].
  apply exp_ineq1_le.
Qed.
Lemma pow_3 : forall n, (Z.of_nat n <= 16777216)%Z -> (1 + u32) ^ n <= 3.
Proof.
  intros n H. eapply Rle_trans; [apply pow_exp|]. eapply Rle_trans; [|apply exp_le_3].
  assert (INR n * u32 <= 1). { rewrite INR_IZR_INZ. apply IZR_le in H. unfold u32. lra. }
  destruct (Rle_lt_or_eq_dec _ _ H0) as [L|E]; [left; now apply exp_increasing|rewrite E; lra].
Qed.
Lemma asum_box : forall l M, Forall (fun x : f32 => Rabs (B2R x) <= M) l -> asum l <= INR (length l) * M.
Proof.
  induction l as [|x l IH]; intros M H; [unfold asum; cbn; lra|]. inversion H; subst. cbn [length]. rewrite S_INR.
  change (Rabs (B2R x) + asum l <= (INR (length l) + 1) * M). specialize (IH M H3). lra.
Qed.

Definition cmean (l : list f32) : f32 := Bdiv mode_NE (fold_left (fun a b : f32 => Bplus mode_NE a b) l (f32_Z 0)) (f32_Z (Z.of_nat (length l))).
Lemma mean_error : forall l, Forall (fun x : f32 => is_finite x = true /\ Rabs (B2R x) <= bpow radix2 60) l -> (1 <= Z.of_nat (length l) <= 16777216)%Z ->
  within (gam (S (length l)) * (asum l / INR (length l)) + bpow radix2 (-150)) (cmean l) (rsum (map (@B2R 24 128) l) / INR (length l)).
Proof.
  intros l H L. set (n := length l) in *.
  assert (Fl : Forall (fun x : f32 => is_finite x = true) l) by (eapply Forall_impl; [|exact H]; now intros x [? _]).
  assert (Bl : asum l <= INR n * bpow radix2 60) by (apply asum_box; eapply Forall_impl; [|exact H]; now intros x [_ ?]).
  assert (N1 : 1 <= INR n <= 16777216) by (rewrite INR_IZR_INZ; split; apply IZR_le; lia).
  pose proof (pow_3 n ltac:(lia)) as P3. pose proof (asum_pos l) as PA.
  assert (B84 : asum l <= bpow radix2 84).
  { eapply Rle_trans; [exact Bl|]. change 84%Z with (24 + 60)%Z. rewrite bpow_plus. apply Rmult_le_compat_r; [apply bpow_ge_0|]. change (bpow radix2 24) with 16777216. lra. }
  destruct (f32_Z_exact 0 ltac:(lia)) as [F0 E0].
  assert (Z0 : nr f 0 0 (f32_Z 0) 0) by (split; [rewrite Rabs_R0; lra|]; split; [exact F0|]; match goal with |- Rabs (?z - _) <= _ => replace z with 0 by (symmetry; exact E0) end; cbn [pow]; rewrite Rminus_0_r, Rabs_R0; lra).
  pose proof (sum_near l 0 0 _ _ Fl Z0) as S. cbn [Nat.add] in S. rewrite !Rplus_0_l in S. fold n in S.
  assert (R128 : 3 * bpow radix2 84 < bpow radix2 100).
  { apply Rlt_le_trans with (bpow radix2 2 * bpow radix2 84); [apply Rmult_lt_compat_r; [apply bpow_gt_0|change (bpow radix2 2) with 4; lra]|]. rewrite <- bpow_plus. apply bpow_le. lia. }
  assert (R100 : bpow radix2 100 < bpow radix2 127) by (apply bpow_lt; lia).
  assert (R127 : bpow radix2 127 * 2 = bpow radix2 128) by (change 2 with (bpow radix2 1); rewrite <- bpow_plus; reflexivity).
  assert (PB : 0 < bpow radix2 127) by apply bpow_gt_0.
  assert (SB : (1 + u32) ^ n * asum l <= 3 * bpow radix2 84) by (apply Rmult_le_compat; auto; apply pow_le; unfold u32; lra).
  specialize (S ltac:(lra)). pose proof (nr_size f _ _ _ _ S) as Sz. rewrite u_eq in Sz. destruct S as (Sr & Fs & Es). rewrite u_eq in Es.
  unfold cmean. fold n. set (s := fold_left _ l _) in *. destruct (f32_Z_exact (Z.of_nat n) ltac:(lia)) as [Fn En].
  rewrite <- INR_IZR_INZ in En.
  assert (Dn : Rabs (B2R s / INR n) <= Rabs (B2R s)).
  { unfold Rdiv. rewrite Rabs_mult. rewrite <- (Rmult_1_r (Rabs (B2R s))) at 2. apply Rmult_le_compat_l; [apply Rabs_pos|].
    rewrite Rabs_pos_eq by (apply Rlt_le, Rinv_0_lt_compat; lra). rewrite <- Rinv_1. apply Rinv_le_contravar; lra. }
  assert (T150 : u32 * bpow radix2 (-126) = bpow radix2 (-150)) by (change u32 with (bpow radix2 (-24)); rewrite <- bpow_plus; reflexivity).
  assert (T1 : bpow radix2 (-150) <= bpow radix2 84) by (apply bpow_le; lia).
  change (Rabs (B2R s) <= (1 + u32) ^ n * asum l) in Sz.
  destruct (div_ok f s (f32_Z (Z.of_nat n)) Fs) as (Fq & d & e & Hd & He & Eq).
  { change (B2R (f32_Z (Z.of_nat n)) <> 0). rewrite En. lra. }
  { change (Rabs (B2R s / B2R (f32_Z (Z.of_nat n))) * (1 + ur f) + ur f * tiny f < huge f). rewrite En, u_eq, huge_eq, tiny_eq, T150. match goal with |- ?z * _ + _ < _ => change z with (Rabs (B2R s / INR n)) end.
    pose proof (Rabs_pos (B2R s / INR n)). unfold u32 in *. lra. }
  split; [exact Fq|]. rewrite u_eq in Hd, He. rewrite tiny_eq, T150 in He. change (B2R (Bdiv mode_NE s (f32_Z (Z.of_nat n))) = B2R s / B2R (f32_Z (Z.of_nat n)) * (1 + d) + e) in Eq. rewrite En in Eq.
  change (B2R (Bdiv mode_NE s (f32_Z (Z.of_nat n))) = B2R s / INR n * (1 + d) + e) in Eq. match goal with |- Rabs (?z - _) <= _ => replace z with (B2R s / INR n * (1 + d) + e) by (symmetry; exact Eq) end.
  set (r := rsum _) in *. match goal with |- Rabs (?z - _) <= _ => change z with (B2R s / INR n * (1 + d) + e) end.
  replace (B2R s / INR n * (1 + d) + e - r / INR n) with ((B2R s / INR n * (1 + d) - r / INR n) + e) by ring.
  eapply Rle_trans; [apply Rabs_triang|]. apply Rplus_le_compat; [|exact He]. unfold gam.
  assert (IN : 0 < / INR n) by (apply Rinv_0_lt_compat; lra).
  apply (round_step f); [| |exact Hd]; unfold Rdiv.
  - rewrite Rabs_mult, (Rabs_pos_eq (/ INR n)) by lra. apply Rmult_le_compat_r; lra.
  - rewrite u_eq, <- Rmult_minus_distr_r, Rabs_mult, (Rabs_pos_eq (/ INR n)) by lra. rewrite <- Rmult_assoc. apply Rmult_le_compat_r; [lra|exact Es].
Qed.
Lemma center_coords : forall p : Polygon F, polygon_center p = P2 (cmean (map vx (vertices p)) : F) (cmean (map vy (vertices p))).
Proof.
  intros [vs]. unfold polygon_center, p_div, cmean. cbn [vertices]. rewrite !map_length.
  assert (G : forall l (a : Vec2 F), fold_left p_add l a = P2 (fold_left (fun a b : f32 => Bplus mode_NE a b) (map vx l) (vx a) : F) (fold_left (fun a b : f32 => Bplus mode_NE a b) (map vy l) (vy a))).
  { induction l as [|v l IH]; intros [x y]; [reflexivity|]. cbn [fold_left map]. rewrite IH. reflexivity. }
  rewrite G. reflexivity.
Qed.
End Cons.
