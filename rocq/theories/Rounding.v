(** * Rounding errors of +, -, * expressions in any binary format. *)
From Coq Require Import ZArith Reals Lia Lra Psatz.
From Flocq Require Import Core.Core BinarySingleNaN Relative Plus_error.
From Verif Require Import Scalar GA Format RoundSpec.
Local Open Scope R_scope.

Section Rounding.
Variable f : Fmt.
Local Notation rnd := (round radix2 (SpecFloat.fexp (prec f) (emax f)) (round_mode mode_NE)).

Local Notation u := (ur f).
Local Notation tiny := (tiny f).
Local Notation huge := (huge f).

Lemma ur_pos : 0 < u. Proof. apply bpow_gt_0. Qed.
Lemma tiny_pos : 0 < tiny. Proof. apply bpow_gt_0. Qed.
Lemma huge_pos : 0 < huge. Proof. apply bpow_gt_0. Qed.
Lemma ur_half : u <= / 2.
Proof.
  change (/ 2) with (bpow radix2 (-1)). apply bpow_le. pose proof (prec_pos f) as H. unfold Prec_gt_0 in H. lia.
Qed.
Lemma half_ulp : / 2 * bpow radix2 (- prec f + 1) = u.
Proof. unfold ur. rewrite bpow_plus. change (bpow radix2 1) with 2. lra. Qed.
Lemma half_eta : / 2 * bpow radix2 (3 - emax f - prec f) = u * tiny.
Proof.
  change (/ 2) with (bpow radix2 (-1)). unfold ur, RoundSpec.tiny. rewrite <- !bpow_plus. f_equal. lia.
Qed.

Lemma rnd_plus : forall x y : fl f, exists d, Rabs d <= u /\ rnd (B2R x + B2R y) = (B2R x + B2R y) * (1 + d).
Proof.
  intros x y.
  destruct (FLT_plus_error_N_ex radix2 (3 - emax f - prec f) (prec f) (fun x => negb (Z.even x)) (B2R x) (B2R y)
    (generic_format_B2R _ _ x) (generic_format_B2R _ _ y)) as (d & Hd & E).
  exists d. split; [|exact E].
  eapply Rle_trans; [exact Hd|]. eapply Rle_trans; [apply u_rod1pu_ro_le_u_ro|].
  unfold u_ro. rewrite half_ulp. apply Rle_refl.
Qed.
Lemma rnd_any : forall x, exists d e, Rabs d <= u /\ Rabs e <= u * tiny /\ rnd x = x * (1 + d) + e.
Proof.
  intros x. destruct (error_N_FLT radix2 (3 - emax f - prec f) (prec f) (prec_pos f) (fun x => negb (Z.even x)) x) as (d & e & Hd & He & _ & E).
  exists d, e. rewrite half_ulp in Hd. rewrite half_eta in He. split; [exact Hd|]. split; [exact He|exact E].
Qed.
Lemma rnd_normal : forall x, tiny <= Rabs x -> exists d, Rabs d <= u /\ rnd x = x * (1 + d).
Proof.
  intros x H.
  destruct (relative_error_N_FLT_ex radix2 (3 - emax f - prec f) (prec f) (prec_pos f) (fun x => negb (Z.even x)) x) as (d & Hd & E).
  - replace (3 - emax f - prec f + prec f - 1)%Z with (2 - emax f)%Z by ring. exact H.
  - exists d. rewrite half_ulp in Hd. split; [exact Hd|exact E].
Qed.

(** Single operations, when the result stays below 2^emax. *)
Lemma add_ok : forall x y : fl f, is_finite x = true -> is_finite y = true ->
  Rabs (B2R x + B2R y) * (1 + u) < huge ->
  is_finite (Bplus mode_NE x y) = true /\
  exists d, Rabs d <= u /\ B2R (Bplus mode_NE x y) = (B2R x + B2R y) * (1 + d).
Proof.
  intros x y Fx Fy H. pose proof (Bplus_correct _ _ _ _ mode_NE x y Fx Fy) as C.
  destruct (rnd_plus x y) as (d & Hd & E). rewrite E in C.
  rewrite Rlt_bool_true in C.
  - destruct C as (C & F & _). split; [exact F|]. exists d. auto.
  - eapply Rle_lt_trans; [|exact H]. rewrite Rabs_mult. apply Rmult_le_compat_l; [apply Rabs_pos|].
    apply Rabs_le. apply Rabs_le_inv in Hd. pose proof ur_half. lra.
Qed.
Lemma sub_ok : forall x y : fl f, is_finite x = true -> is_finite y = true ->
  Rabs (B2R x - B2R y) * (1 + u) < huge ->
  is_finite (Bminus mode_NE x y) = true /\
  exists d, Rabs d <= u /\ B2R (Bminus mode_NE x y) = (B2R x - B2R y) * (1 + d).
Proof.
  intros x y Fx Fy H. pose proof (Bminus_correct _ _ _ _ mode_NE x y Fx Fy) as C.
  destruct (rnd_plus x (Bopp y)) as (d & Hd & E). rewrite B2R_Bopp in E.
  change (B2R x + - B2R y) with (B2R x - B2R y) in E. rewrite E in C.
  rewrite Rlt_bool_true in C.
  - destruct C as (C & F & _). split; [exact F|]. exists d. auto.
  - eapply Rle_lt_trans; [|exact H]. rewrite Rabs_mult. apply Rmult_le_compat_l; [apply Rabs_pos|].
    apply Rabs_le. apply Rabs_le_inv in Hd. pose proof ur_half. lra.
Qed.
Lemma mul_ok : forall x y : fl f, is_finite x = true -> is_finite y = true ->
  Rabs (B2R x * B2R y) * (1 + u) + u * tiny < huge ->
  is_finite (Bmult mode_NE x y) = true /\
  exists d e, Rabs d <= u /\ Rabs e <= u * tiny /\ B2R (Bmult mode_NE x y) = B2R x * B2R y * (1 + d) + e.
Proof.
  intros x y Fx Fy H. pose proof (Bmult_correct _ _ _ _ mode_NE x y) as C.
  destruct (rnd_any (B2R x * B2R y)) as (d & e & Hd & He & E). rewrite E in C.
  rewrite Rlt_bool_true in C.
  - destruct C as (C & F & _). rewrite Fx, Fy in F. split; [exact F|]. exists d, e. auto.
  - eapply Rle_lt_trans; [|exact H]. eapply Rle_trans; [apply Rabs_triang|]. apply Rplus_le_compat; [|exact He].
    rewrite Rabs_mult. apply Rmult_le_compat_l; [apply Rabs_pos|].
    apply Rabs_le. apply Rabs_le_inv in Hd. pose proof ur_half. lra.
Qed.
Lemma div_ok : forall x y : fl f, is_finite x = true -> B2R y <> 0 ->
  Rabs (B2R x / B2R y) * (1 + u) + u * tiny < huge ->
  is_finite (Bdiv mode_NE x y) = true /\
  exists d e, Rabs d <= u /\ Rabs e <= u * tiny /\ B2R (Bdiv mode_NE x y) = B2R x / B2R y * (1 + d) + e.
Proof.
  intros x y Fx Ny H. pose proof (Bdiv_correct _ _ _ _ mode_NE x y Ny) as C.
  destruct (rnd_any (B2R x / B2R y)) as (d & e & Hd & He & E). rewrite E in C.
  rewrite Rlt_bool_true in C.
  - destruct C as (C & F & _). rewrite Fx in F. split; [exact F|]. exists d, e. auto.
  - eapply Rle_lt_trans; [|exact H]. eapply Rle_trans; [apply Rabs_triang|]. apply Rplus_le_compat; [|exact He].
    rewrite Rabs_mult. apply Rmult_le_compat_l; [apply Rabs_pos|].
    apply Rabs_le. apply Rabs_le_inv in Hd. pose proof ur_half. lra.
Qed.

(** ** Expressions *)
Inductive expr := Val (x : fl f) | Neg (a : expr) | Add (a b : expr) | Sub (a b : expr) | Mul (a b : expr).

(** Evaluation in the format and in the reals. *)
Fixpoint run (a : expr) : fl f :=
  match a with
  | Val x => x
  | Neg a => @oneg (BO f) (run a)
  | Add a b => @oadd (BO f) (run a) (run b)
  | Sub a b => @osub (BO f) (run a) (run b)
  | Mul a b => @omul (BO f) (run a) (run b)
  end.
Fixpoint ex (a : expr) : R :=
  match a with
  | Val x => B2R x
  | Neg a => - ex a
  | Add a b => ex a + ex b
  | Sub a b => ex a - ex b
  | Mul a b => ex a * ex b
  end.
(** The same with absolute values, every product increased by the smallest normal number. *)
Fixpoint mag (a : expr) : R :=
  match a with
  | Val x => Rabs (B2R x)
  | Neg a => mag a
  | Add a b | Sub a b => mag a + mag b
  | Mul a b => mag a * mag b + tiny
  end.
(** How often a factor is rounded at most. *)
Fixpoint ops (a : expr) : nat :=
  match a with
  | Val x => 0
  | Neg a => ops a
  | Add a b | Sub a b => S (Nat.max (ops a) (ops b))
  | Mul a b => S (ops a + ops b)
  end.
(** All leaves finite, nothing can overflow. *)
Fixpoint safe (a : expr) : Prop :=
  match a with
  | Val x => is_finite x = true
  | Neg a => safe a
  | Add a b | Sub a b => safe a /\ safe b /\ (1 + u) ^ S (Nat.max (ops a) (ops b)) * (mag a + mag b) < huge
  | Mul a b => safe a /\ safe b /\ (1 + u) ^ S (ops a + ops b) * (mag a * mag b + tiny) < huge
  end.

Lemma mag_pos : forall a, 0 <= mag a.
Proof.
  pose proof tiny_pos.
  induction a; cbn [mag]; try lra; [apply Rabs_pos|]. pose proof (Rmult_le_pos _ _ IHa1 IHa2). lra.
Qed.
Lemma ex_mag : forall a, Rabs (ex a) <= mag a.
Proof.
  pose proof tiny_pos.
  induction a; cbn [mag ex]; [lra|rewrite Rabs_Ropp; exact IHa| | |].
  - eapply Rle_trans; [apply Rabs_triang|lra].
  - unfold Rminus. eapply Rle_trans; [apply Rabs_triang|]. rewrite Rabs_Ropp. lra.
  - rewrite Rabs_mult. pose proof (Rabs_pos (ex a1)). pose proof (Rabs_pos (ex a2)).
    pose proof (Rmult_le_compat _ _ _ _ H0 H1 IHa1 IHa2). lra.
Qed.
Lemma pow1 : forall n, 1 <= (1 + u) ^ n.
Proof. intros. apply pow_R1_Rle. pose proof ur_pos. lra. Qed.
Lemma pow_mono : forall m n, (m <= n)%nat -> (1 + u) ^ m <= (1 + u) ^ n.
Proof. intros. apply Rle_pow; [|assumption]. pose proof ur_pos. lra. Qed.

(** The rounded value: the exact one up to a factor between (1+u)^-n and (1+u)^n of the
    magnitudes. *)
Theorem run_error : forall a, safe a ->
  is_finite (run a) = true /\ Rabs (B2R (run a) - ex a) <= ((1 + u) ^ ops a - 1) * mag a.
Proof.
  pose proof ur_pos as Pu. pose proof tiny_pos as Pt.
  assert (V : forall a, Rabs (B2R (run a) - ex a) <= ((1 + u) ^ ops a - 1) * mag a -> Rabs (B2R (run a)) <= (1 + u) ^ ops a * mag a).
  { intros a H. replace (B2R (run a)) with (B2R (run a) - ex a + ex a) by ring.
    eapply Rle_trans; [apply Rabs_triang|]. pose proof (ex_mag a). lra. }
  assert (A : forall a b x y, Rabs (x - ex a) <= ((1 + u) ^ ops a - 1) * mag a -> Rabs (y - ex b) <= ((1 + u) ^ ops b - 1) * mag b ->
    let n := Nat.max (ops a) (ops b) in
    Rabs (x + y - (ex a + ex b)) <= ((1 + u) ^ n - 1) * (mag a + mag b) /\
    Rabs (x - y - (ex a - ex b)) <= ((1 + u) ^ n - 1) * (mag a + mag b)).
  { intros a b x y Ha Hb n. pose proof (mag_pos a). pose proof (mag_pos b).
    pose proof (pow_mono (ops a) n ltac:(lia)). pose proof (pow_mono (ops b) n ltac:(lia)).
    assert (((1 + u) ^ ops a - 1) * mag a <= ((1 + u) ^ n - 1) * mag a) by (apply Rmult_le_compat_r; lra).
    assert (((1 + u) ^ ops b - 1) * mag b <= ((1 + u) ^ n - 1) * mag b) by (apply Rmult_le_compat_r; lra).
    split.
    - replace (x + y - (ex a + ex b)) with ((x - ex a) + (y - ex b)) by ring.
      eapply Rle_trans; [apply Rabs_triang|]. lra.
    - replace (x - y - (ex a - ex b)) with ((x - ex a) + - (y - ex b)) by ring.
      eapply Rle_trans; [apply Rabs_triang|]. rewrite Rabs_Ropp. lra. }
  assert (S1 : forall n x t M d, 0 <= M -> Rabs t <= M -> Rabs (x - t) <= ((1 + u) ^ n - 1) * M -> Rabs d <= u ->
    Rabs x <= (1 + u) ^ n * M /\ Rabs (x * (1 + d) - t) <= ((1 + u) ^ S n - 1) * M).
  { intros n x t M d PM Ht Hx Hd.
    assert (B : Rabs x <= (1 + u) ^ n * M).
    { replace x with (x - t + t) by ring. eapply Rle_trans; [apply Rabs_triang|]. lra. }
    split; [exact B|].
    replace (x * (1 + d) - t) with ((x - t) + d * x) by ring.
    eapply Rle_trans; [apply Rabs_triang|]. rewrite Rabs_mult.
    assert (Rabs d * Rabs x <= u * ((1 + u) ^ n * M)) by (apply Rmult_le_compat; auto using Rabs_pos).
    replace (((1 + u) ^ S n - 1) * M) with (((1 + u) ^ n - 1) * M + u * ((1 + u) ^ n * M)) by (cbn [pow]; ring).
    lra. }
  induction a as [x|a IH|a IHa b IHb|a IHa b IHb|a IHa b IHb]; cbn [safe run ex mag ops].
  - intros F. split; [exact F|]. cbn [pow]. replace (B2R x - B2R x) with 0 by ring. rewrite Rabs_R0. lra.
  - intros S. destruct (IH S) as [F H]. cbn [oneg BO]. rewrite is_finite_Bopp, B2R_Bopp. split; [exact F|].
    replace (- B2R (run a) - - ex a) with (- (B2R (run a) - ex a)) by ring. now rewrite Rabs_Ropp.
  - intros (Sa & Sb & L). destruct (IHa Sa) as [Fa Ha], (IHb Sb) as [Fb Hb].
    destruct (A a b _ _ Ha Hb) as [H _]. cbv zeta in H. set (n := Nat.max (ops a) (ops b)) in *.
    pose proof (mag_pos a) as Pa. pose proof (mag_pos b) as Pb.
    assert (T : Rabs (ex a + ex b) <= mag a + mag b).
    { eapply Rle_trans; [apply Rabs_triang|]. pose proof (ex_mag a). pose proof (ex_mag b). lra. }
    destruct (S1 n (B2R (run a) + B2R (run b)) (ex a + ex b) (mag a + mag b) 0) as [B _]; [lra|exact T|exact H|rewrite Rabs_R0; lra|].
    destruct (add_ok (run a) (run b) Fa Fb) as (F & d & Hd & E).
    { eapply Rle_lt_trans; [|exact L]. cbn [pow]. replace ((1 + u) * (1 + u) ^ n * (mag a + mag b)) with ((1 + u) ^ n * (mag a + mag b) * (1 + u)) by ring.
      apply Rmult_le_compat_r; lra. }
    cbn [oadd BO]. split; [exact F|]. rewrite E.
    apply (S1 n _ (ex a + ex b) (mag a + mag b) d); try assumption. lra.
  - intros (Sa & Sb & L). destruct (IHa Sa) as [Fa Ha], (IHb Sb) as [Fb Hb].
    destruct (A a b _ _ Ha Hb) as [_ H]. cbv zeta in H. set (n := Nat.max (ops a) (ops b)) in *.
    pose proof (mag_pos a) as Pa. pose proof (mag_pos b) as Pb.
    assert (T : Rabs (ex a - ex b) <= mag a + mag b).
    { unfold Rminus. eapply Rle_trans; [apply Rabs_triang|]. rewrite Rabs_Ropp. pose proof (ex_mag a). pose proof (ex_mag b). lra. }
    destruct (S1 n (B2R (run a) - B2R (run b)) (ex a - ex b) (mag a + mag b) 0) as [B _]; [lra|exact T|exact H|rewrite Rabs_R0; lra|].
    destruct (sub_ok (run a) (run b) Fa Fb) as (F & d & Hd & E).
    { eapply Rle_lt_trans; [|exact L]. cbn [pow]. replace ((1 + u) * (1 + u) ^ n * (mag a + mag b)) with ((1 + u) ^ n * (mag a + mag b) * (1 + u)) by ring.
      apply Rmult_le_compat_r; lra. }
    cbn [osub BO]. split; [exact F|]. rewrite E.
    apply (S1 n _ (ex a - ex b) (mag a + mag b) d); try assumption. lra.
  - intros (Sa & Sb & L). destruct (IHa Sa) as [Fa Ha], (IHb Sb) as [Fb Hb].
    pose proof (V a Ha) as Va. pose proof (V b Hb) as Vb.
    pose proof (mag_pos a) as Pa. pose proof (mag_pos b) as Pb. pose proof (Rmult_le_pos _ _ Pa Pb) as Pab.
    set (n := (ops a + ops b)%nat) in *.
    assert (T : Rabs (ex a * ex b) <= mag a * mag b).
    { rewrite Rabs_mult. apply Rmult_le_compat; auto using Rabs_pos, ex_mag. }
    assert (H : Rabs (B2R (run a) * B2R (run b) - ex a * ex b) <= ((1 + u) ^ n - 1) * (mag a * mag b)).
    { replace (B2R (run a) * B2R (run b) - ex a * ex b) with ((B2R (run a) - ex a) * B2R (run b) + ex a * (B2R (run b) - ex b)) by ring.
      eapply Rle_trans; [apply Rabs_triang|]. rewrite !Rabs_mult.
      assert (Rabs (B2R (run a) - ex a) * Rabs (B2R (run b)) <= ((1 + u) ^ ops a - 1) * mag a * ((1 + u) ^ ops b * mag b))
        by (apply Rmult_le_compat; auto using Rabs_pos).
      assert (Rabs (ex a) * Rabs (B2R (run b) - ex b) <= mag a * (((1 + u) ^ ops b - 1) * mag b))
        by (apply Rmult_le_compat; auto using Rabs_pos, ex_mag).
      unfold n. rewrite pow_add.
      replace (((1 + u) ^ ops a * (1 + u) ^ ops b - 1) * (mag a * mag b)) with
        (((1 + u) ^ ops a - 1) * mag a * ((1 + u) ^ ops b * mag b) + mag a * (((1 + u) ^ ops b - 1) * mag b)) by ring.
      lra. }
    destruct (S1 n (B2R (run a) * B2R (run b)) (ex a * ex b) (mag a * mag b) 0) as [B _]; [lra|exact T|exact H|rewrite Rabs_R0; lra|].
    pose proof (pow1 n) as P1.
    destruct (mul_ok (run a) (run b) Fa Fb) as (F & d & e & Hd & He & E).
    { eapply Rle_lt_trans; [|exact L]. cbn [pow].
      replace ((1 + u) * (1 + u) ^ n * (mag a * mag b + tiny)) with ((1 + u) ^ n * (mag a * mag b) * (1 + u) + (1 + u) * (1 + u) ^ n * tiny) by ring.
      apply Rplus_le_compat; [apply Rmult_le_compat_r; lra|]. apply Rmult_le_compat_r; [lra|].
      apply Rle_trans with ((1 + u) * 1); [lra|]. apply Rmult_le_compat_l; lra. }
    cbn [omul BO]. split; [exact F|]. rewrite E.
    destruct (S1 n (B2R (run a) * B2R (run b)) (ex a * ex b) (mag a * mag b) d) as [_ G]; try assumption.
    replace (B2R (run a) * B2R (run b) * (1 + d) + e - ex a * ex b) with ((B2R (run a) * B2R (run b) * (1 + d) - ex a * ex b) + e) by ring.
    eapply Rle_trans; [apply Rabs_triang|].
    assert (u * tiny <= ((1 + u) ^ S n - 1) * tiny).
    { apply Rmult_le_compat_r; [lra|]. cbn [pow]. assert ((1 + u) * 1 <= (1 + u) * (1 + u) ^ n) by (apply Rmult_le_compat_l; lra). lra. }
    lra.
Qed.
End Rounding.
