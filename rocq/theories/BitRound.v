(** * Facts of src/math that hold bit for bit in every binary format. *)
From Coq Require Import ZArith Reals Lia Lra Bool.
From Flocq Require Import Core.Core BinarySingleNaN.
From Verif Require Import Scalar GA GASpec GARing GAReal Format RoundSpec Rounding GARound.
Local Open Scope R_scope.

(** Integers that fit the precision. *)
Lemma int_value : forall f m, (Z.abs m < 2 ^ prec f)%Z -> is_finite (fl_of f m 0) = true /\ B2R (fl_of f m 0) = IZR m.
Proof.
  intros f m Hm. pose proof (binary_normalize_correct (prec f) (emax f) _ _ mode_NE m 0 false) as C.
  pose proof (prec_pos f) as P. pose proof (prec_emax f) as Q. unfold Prec_gt_0 in P. unfold Prec_lt_emax in Q.
  assert (E : F2R (Float radix2 m 0) = IZR m) by (unfold F2R; cbn; ring).
  assert (Lt : Rabs (IZR m) < bpow radix2 (prec f)).
  { rewrite <- abs_IZR. rewrite <- (IZR_Zpower radix2) by lia. now apply IZR_lt. }
  assert (G : generic_format radix2 (SpecFloat.fexp (prec f) (emax f)) (IZR m)).
  { destruct (Z.eq_dec m 0) as [-> |N]; [apply generic_format_0|]. rewrite <- E. apply generic_format_F2R. intros _.
    rewrite E. unfold cexp, SpecFloat.fexp, SpecFloat.emin.
    assert (Raux.mag radix2 (IZR m) <= prec f)%Z by (apply mag_le_bpow; [now apply not_0_IZR|exact Lt]). lia. }
  cbv zeta in C. rewrite E in C. rewrite round_generic in C; [|apply valid_rnd_round_mode|exact G].
  rewrite Rlt_bool_true in C. { destruct C as (A & B & _). split; [exact B|exact A]. }
  eapply Rlt_le_trans; [exact Lt|]. apply bpow_le. lia.
Qed.

Section Bits.
Variable f : Fmt.
Local Notation O := (BO f).

Lemma Bmult_comm : forall x y : fl f, Bmult mode_NE x y = Bmult mode_NE y x.
Proof.
  intros [sx|sx| |sx mx ex Hx] [sy|sy| |sy my ey Hy]; try reflexivity; try (simpl; now destruct sx, sy).
  apply B2SF_inj. unfold Bmult. rewrite !B2SF_SF2B. rewrite xorb_comm. now rewrite (Pos.mul_comm mx my), (Z.add_comm ex ey).
Qed.
Lemma Bmult_opp : forall x y : fl f, Bmult mode_NE (Bopp x) y = Bmult mode_NE x (Bopp y).
Proof.
  intros [sx|sx| |sx mx ex Hx] [sy|sy| |sy my ey Hy]; try reflexivity; try (simpl; now destruct sx, sy).
  apply B2SF_inj. unfold Bopp, Bmult. rewrite !B2SF_SF2B. now destruct sx, sy.
Qed.
Lemma vec_dot_comm : forall u v : Vector3 O, vec_dot u v = vec_dot v u.
Proof.
  intros [x y z] [x' y' z']. unfold vec_dot. cbn [a1 a2 a3 oadd omul BO].
  now rewrite (Bmult_comm x x'), (Bmult_comm y y'), (Bmult_comm z z').
Qed.
Lemma biv_dot_comm : forall u v : Bivector3 O, biv_dot u v = biv_dot v u.
Proof.
  intros [x y z] [x' y' z']. unfold biv_dot. cbn [b1 b2 b3 oadd omul oneg BO].
  now rewrite (Bmult_comm x x'), (Bmult_comm y y'), (Bmult_comm z z').
Qed.
Lemma tri_dot_comm : forall u v : Trivector3 O, tri_dot u v = tri_dot v u.
Proof. intros [x] [y]. unfold tri_dot. cbn [t1 omul oneg BO]. now rewrite Bmult_opp, Bmult_comm. Qed.
Lemma rot_dot_comm : forall u v : Rotor3 O, rot_dot u v = rot_dot v u.
Proof.
  intros [a B] [b C]. unfold rot_dot. cbn [scalar bivector]. rewrite biv_dot_comm. cbn [omul BO]. now rewrite (Bmult_comm a b).
Qed.
Lemma vec_angle_comm : forall u v : Vector3 O, vec_angle u v = vec_angle v u.
Proof. intros u v. unfold vec_angle. now rewrite vec_dot_comm. Qed.

Lemma zero_const : (c0 : O) = B754_zero false.
Proof.
  destruct (int_value f 0) as [F E]. { cbn. pose proof (prec_pos f) as P. unfold Prec_gt_0 in P. apply Z.pow_pos_nonneg; lia. }
  reflexivity.
Qed.
Lemma is_zero_bits : forall x : fl f, sc_is_zero (O := O) x = true <-> x = B754_zero true \/ x = B754_zero false.
Proof.
  intros x. unfold sc_is_zero. rewrite zero_const. cbn [oeq BO].
  destruct x as [[|]|[|]| |[|] m e H]; split; try (intros _; auto; fail); try discriminate; intros [E|E]; discriminate.
Qed.

Lemma is_zero_all : let zero x := x = B754_zero true \/ x = (B754_zero false : fl f) in
  (forall v : Vector3 O, vec_is_zero v = true <-> zero (a1 v) /\ zero (a2 v) /\ zero (a3 v)) /\
  (forall v : Bivector3 O, biv_is_zero v = true <-> zero (b1 v) /\ zero (b2 v) /\ zero (b3 v)) /\
  (forall v : Trivector3 O, tri_is_zero v = true <-> zero (t1 v)).
Proof.
  intros zero. split; [|split]; intros v;
    unfold vec_is_zero, biv_is_zero, tri_is_zero; rewrite ?andb_true_iff, ?is_zero_bits; unfold zero; tauto.
Qed.

(** Sums whose exact value is representable. *)
Lemma plus_exact : forall x y z : fl f, is_finite x = true -> is_finite y = true -> B2R x + B2R y = B2R z ->
  is_finite (Bplus mode_NE x y) = true /\ B2R (Bplus mode_NE x y) = B2R z.
Proof.
  intros x y z Fx Fy E. pose proof (Bplus_correct _ _ _ _ mode_NE x y Fx Fy) as C. rewrite E in C.
  rewrite round_generic in C; [|apply valid_rnd_round_mode|apply generic_format_B2R].
  rewrite Rlt_bool_true in C by apply abs_B2R_lt_emax. now destruct C as (A & B & _).
Qed.
Lemma minus_exact : forall x y z : fl f, is_finite x = true -> is_finite y = true -> B2R x - B2R y = B2R z ->
  is_finite (Bminus mode_NE x y) = true /\ B2R (Bminus mode_NE x y) = B2R z.
Proof.
  intros x y z Fx Fy E. pose proof (Bminus_correct _ _ _ _ mode_NE x y Fx Fy) as C. rewrite E in C.
  rewrite round_generic in C; [|apply valid_rnd_round_mode|apply generic_format_B2R].
  rewrite Rlt_bool_true in C by apply abs_B2R_lt_emax. now destruct C as (A & B & _).
Qed.
Lemma mul_opp_r : forall x y : fl f, is_finite (Bmult mode_NE x y) = true ->
  is_finite (Bmult mode_NE x (Bopp y)) = true /\ B2R (Bmult mode_NE x (Bopp y)) = - B2R (Bmult mode_NE x y).
Proof.
  intros x y F.
  pose proof (Bmult_correct (prec f) (emax f) _ _ mode_NE x y) as C.
  pose proof (Bmult_correct (prec f) (emax f) _ _ mode_NE x (Bopp y)) as D.
  rewrite B2R_Bopp, Ropp_mult_distr_r_reverse in D. cbn [round_mode] in C, D. rewrite round_NE_opp, Rabs_Ropp in D.
  destruct (Rlt_bool (Rabs (round radix2 (SpecFloat.fexp (prec f) (emax f)) ZnearestE (B2R x * B2R y))) (bpow radix2 (emax f))) eqn:B.
  - destruct C as (C1 & C2 & _), D as (D1 & D2 & _). rewrite D1, D2, C1, is_finite_Bopp, <- C2. split; [exact F|reflexivity].
  - exfalso. assert (N : is_finite_SF (B2SF (Bmult mode_NE x y)) = false) by now rewrite C.
    rewrite is_finite_SF_B2SF, F in N. discriminate.
Qed.
Lemma cancel3 : forall x y : fl f, is_finite x = true -> is_finite y = true -> forall x' y', is_finite x' = true -> is_finite y' = true ->
  B2R x' = - B2R x -> B2R y' = - B2R y ->
  (is_finite (Bplus mode_NE (Bminus mode_NE (Bplus mode_NE x' x) y') y') = true /\ B2R (Bplus mode_NE (Bminus mode_NE (Bplus mode_NE x' x) y') y') = 0) /\
  (is_finite (Bminus mode_NE (Bplus mode_NE (Bplus mode_NE x' x) y') y') = true /\ B2R (Bminus mode_NE (Bplus mode_NE (Bplus mode_NE x' x) y') y') = 0).
Proof.
  intros x y Fx Fy x' y' Fx' Fy' Ex Ey.
  destruct (plus_exact x' x (B754_zero false) Fx' Fx) as [F1 E1]; [cbn; lra|]. cbn [B2R] in E1.
  split.
  - destruct (minus_exact _ y' y F1 Fy') as [F2 E2]; [lra|].
    destruct (plus_exact _ y' (B754_zero false) F2 Fy') as [F3 E3]; [cbn; lra|]. split; [exact F3|exact E3].
  - destruct (plus_exact _ y' y' F1 Fy') as [F2 E2]; [lra|].
    destruct (minus_exact _ y' (B754_zero false) F2 Fy') as [F3 E3]; [cbn; lra|]. split; [exact F3|exact E3].
Qed.
Lemma prod_finite : forall x y L, is_finite x = true -> is_finite y = true -> Rabs (B2R x) <= L -> Rabs (B2R y) <= L ->
  (1 + ur f) ^ 4 * (L * L + 4 * tiny f) < huge f -> is_finite (Bmult mode_NE (x : fl f) y) = true.
Proof.
  intros x y L Fx Fy Hx Hy H. apply (mul_ok f x y Fx Fy). eapply Rle_lt_trans; [|exact H].
  pose proof (ur_pos f). pose proof (tiny_pos f). pose proof (Rabs_pos (B2R x)). pose proof (Rabs_pos (B2R y)).
  assert (Rabs (B2R x * B2R y) <= L * L) by (rewrite Rabs_mult; now apply Rmult_le_compat).
  assert (1 + ur f <= (1 + ur f) ^ 4). { rewrite <- (pow_1 (1 + ur f)) at 1. apply Rle_pow; [lra|lia]. }
  assert (0 <= L * L) by (eapply Rle_trans; [apply Rabs_pos|eassumption]).
  apply Rle_trans with ((1 + ur f) * (L * L + 4 * tiny f)); [|apply Rmult_le_compat_r; lra].
  assert (Rabs (B2R x * B2R y) * (1 + ur f) <= L * L * (1 + ur f)) by (apply Rmult_le_compat_r; lra).
  assert (0 <= ur f * tiny f) by (apply Rmult_le_pos; lra). lra.
Qed.
Lemma rot_reverse_bivector : forall r : Rotor3 O, rfin r -> (1 + ur f) ^ 4 * (rlen (rr r) * rlen (rr r) + 4 * tiny f) < huge f ->
  bfin (bivector (rot_mul r (rot_inverse r))) /\ rb (bivector (rot_mul r (rot_inverse r))) = B3 0 0 0.
Proof.
  intros [a [x y z]] (Fa & Fx & Fy & Fz) H. unfold rlen, rr, rb in H. cbn [scalar bivector b1 b2 b3] in *.
  set (L := sqrt _) in H.
  assert (AL : forall w, w = a \/ w = x \/ w = y \/ w = z -> Rabs (B2R w) <= L).
  { clear - f. intros w Hw. unfold L. rewrite <- sqrt_Rsqr_abs. apply sqrt_le_1_alt. rewrite Rsqr_pow2.
    pose proof (pow2_ge_0 (B2R a)). pose proof (pow2_ge_0 (B2R x)). pose proof (pow2_ge_0 (B2R y)). pose proof (pow2_ge_0 (B2R z)).
    destruct Hw as [-> |[-> |[-> | ->]]]; lra. }
  pose proof (AL a ltac:(auto)) as Ba. pose proof (AL x ltac:(auto)) as Bx. pose proof (AL y ltac:(auto)) as By. pose proof (AL z ltac:(auto)) as Bz.
  assert (P : forall v w, is_finite v = true -> is_finite w = true -> Rabs (B2R v) <= L -> Rabs (B2R w) <= L -> is_finite (Bmult mode_NE (v : fl f) w) = true)
    by (intros; now apply (prod_finite _ _ L)).
  assert (C : forall v w v' w' : fl f, is_finite (Bmult mode_NE v w) = true -> is_finite (Bmult mode_NE v' w') = true ->
    (is_finite (Bplus mode_NE (Bminus mode_NE (Bplus mode_NE (Bmult mode_NE v (Bopp w)) (Bmult mode_NE v w)) (Bmult mode_NE v' (Bopp w'))) (Bmult mode_NE w' (Bopp v'))) = true /\
     B2R (Bplus mode_NE (Bminus mode_NE (Bplus mode_NE (Bmult mode_NE v (Bopp w)) (Bmult mode_NE v w)) (Bmult mode_NE v' (Bopp w'))) (Bmult mode_NE w' (Bopp v'))) = 0) /\
    (is_finite (Bminus mode_NE (Bplus mode_NE (Bplus mode_NE (Bmult mode_NE v (Bopp w)) (Bmult mode_NE v w)) (Bmult mode_NE v' (Bopp w'))) (Bmult mode_NE w' (Bopp v'))) = true /\
     B2R (Bminus mode_NE (Bplus mode_NE (Bplus mode_NE (Bmult mode_NE v (Bopp w)) (Bmult mode_NE v w)) (Bmult mode_NE v' (Bopp w'))) (Bmult mode_NE w' (Bopp v'))) = 0)).
  { intros v w v' w' F F'. destruct (mul_opp_r v w F) as [G E], (mul_opp_r v' w' F') as [G' E'].
    rewrite (Bmult_comm w' (Bopp v')), (Bmult_opp v' w'). now apply (cancel3 _ _ F F' _ _ G G' E E'). }
  pose proof (proj1 (C a x y z (P _ _ Fa Fx Ba Bx) (P _ _ Fy Fz By Bz))) as [F1 E1].
  pose proof (proj2 (C a y x z (P _ _ Fa Fy Ba By) (P _ _ Fx Fz Bx Bz))) as [F2 E2].
  pose proof (proj1 (C a z x y (P _ _ Fa Fz Ba Bz) (P _ _ Fx Fy Bx By))) as [F3 E3].
  split; [exact (conj F1 (conj F2 F3))|exact (f_equal3 (@B3 R) E1 E2 E3)].
Qed.
End Bits.

(** ** Distance of multivectors *)
Lemma mdist_rot : forall e (x y : Rotor3 R) (m : mv RO), of_rot (O := RO) y == m ->
  Rabs (scalar x - scalar y) <= e -> beach (fun a b => Rabs (a - b) <= e) (bivector x) (bivector y) -> mdist e (of_rot (O := RO) x) m.
Proof.
  intros e [x0 [x1 x2 x3]] [y0 [y1 y2 y3]] m E H0 (H1 & H2 & H3) c. rewrite <- E. cbn in H0, H1, H2, H3.
  assert (0 <= e) by (eapply Rle_trans; [apply Rabs_pos|exact H0]).
  destruct c as [[|] [|] [|]]; cbn; unfold madd; cbn; rewrite ?Rplus_0_r, ?Rplus_0_l, ?Rminus_0_r, ?Rabs_R0; assumption.
Qed.
Lemma mdist_vec_tri : forall e (x y : Vector3 R) (s t : Trivector3 R) (m : mv RO), madd (of_vec (O := RO) y) (of_tri (O := RO) t) == m ->
  veach (fun a b => Rabs (a - b) <= e) x y -> Rabs (t1 s - t1 t) <= e -> mdist e (madd (of_vec (O := RO) x) (of_tri (O := RO) s)) m.
Proof.
  intros e [x1 x2 x3] [y1 y2 y3] [s] [t] m E (H1 & H2 & H3) H0 c. rewrite <- E. cbn in H0, H1, H2, H3.
  assert (0 <= e) by (eapply Rle_trans; [apply Rabs_pos|exact H0]).
  destruct c as [[|] [|] [|]]; cbn; unfold madd; cbn; rewrite ?Rplus_0_r, ?Rplus_0_l, ?Rminus_0_r, ?Rabs_R0; assumption.
Qed.
Lemma mdist_vec : forall e (x y : Vector3 R) (m : mv RO), of_vec (O := RO) y == m ->
  veach (fun a b => Rabs (a - b) <= e) x y -> mdist e (of_vec (O := RO) x) m.
Proof.
  intros e [x1 x2 x3] [y1 y2 y3] m E (H1 & H2 & H3) c. rewrite <- E. cbn in H1, H2, H3.
  assert (0 <= e) by (eapply Rle_trans; [apply Rabs_pos|exact H1]).
  destruct c as [[|] [|] [|]]; cbn; rewrite ?Rminus_0_r, ?Rabs_R0; assumption.
Qed.
Lemma mdist_biv : forall e (x y : Bivector3 R) (m : mv RO), of_biv (O := RO) y == m ->
  beach (fun a b => Rabs (a - b) <= e) x y -> mdist e (of_biv (O := RO) x) m.
Proof.
  intros e [x1 x2 x3] [y1 y2 y3] m E (H1 & H2 & H3) c. rewrite <- E. cbn in H1, H2, H3.
  assert (0 <= e) by (eapply Rle_trans; [apply Rabs_pos|exact H1]).
  destruct c as [[|] [|] [|]]; cbn; rewrite ?Rminus_0_r, ?Rabs_R0; assumption.
Qed.
Lemma mdist_tri : forall e (x y : Trivector3 R) (m : mv RO), of_tri (O := RO) y == m -> Rabs (t1 x - t1 y) <= e -> mdist e (of_tri (O := RO) x) m.
Proof.
  intros e [x] [y] m E H1 c. rewrite <- E. cbn in H1.
  assert (0 <= e) by (eapply Rle_trans; [apply Rabs_pos|exact H1]).
  destruct c as [[|] [|] [|]]; cbn; rewrite ?Rminus_0_r, ?Rabs_R0; assumption.
Qed.
Lemma mdist_scalar : forall e x y (m : mv RO), of_scalar (O := RO) y == m -> Rabs (x - y) <= e -> mdist e (of_scalar (O := RO) x) m.
Proof.
  intros e x y m E H1 c. rewrite <- E.
  assert (0 <= e) by (eapply Rle_trans; [apply Rabs_pos|exact H1]).
  destruct c as [[|] [|] [|]]; cbn; rewrite ?Rminus_0_r, ?Rabs_R0; assumption.
Qed.
