(** * Intersection of segments in f32. *)
From Coq Require Import ZArith Reals List Bool Lia Lra Psatz Arith.
From Flocq Require Import Core.Core IEEE754.BinarySingleNaN.
From Verif Require Import Scalar Utils PlaneSpec F32 Laws PolyF32 GeoSpec Format RoundSpec Rounding NearCalc GeoRound GeoOn GeoPoly.
Import ListNotations.
Local Open Scope R_scope.

(** ** Real numbers *)
Lemma quot_err : forall N D n d al be, D <> 0 -> Rabs (n - N) <= al -> Rabs (d - D) <= be -> be <= Rabs D / 20 ->
  Rabs (N / D) <= 1 \/ Rabs (n / d) <= 1001 / 1000 -> d <> 0 /\ Rabs (n / d - N / D) <= 106 / 100 * (al + be) / Rabs D.
Proof.
  intros N D n d al be ND Hn Hd Hb G. assert (PD : 0 < Rabs D) by now apply Rabs_pos_lt.
  assert (Dd : 19 / 20 * Rabs D <= Rabs d).
  { pose proof (Rabs_triang_inv D d). rewrite Rabs_minus_sym in Hd. lra. }
  assert (Nd : d <> 0) by (intros ->; rewrite Rabs_R0 in Dd; lra). split; [exact Nd|].
  assert (Pal : 0 <= al) by (pose proof (Rabs_pos (n - N)); lra). assert (Pbe : 0 <= be) by (pose proof (Rabs_pos (d - D)); lra).
  destruct G as [G|G].
  - replace (n / d - N / D) with (((n - N) - N / D * (d - D)) / d) by (field; split; assumption).
    unfold Rdiv at 1. rewrite Rabs_mult, Rabs_inv.
    assert (T : Rabs (n - N - N / D * (d - D)) <= al + be).
    { unfold Rminus at 1. eapply Rle_trans; [apply Rabs_triang|]. rewrite Rabs_Ropp, Rabs_mult.
      assert (Rabs (N / D) * Rabs (d - D) <= 1 * be) by (apply Rmult_le_compat; try apply Rabs_pos; assumption). lra. }
    assert (I : / Rabs d <= 106 / 100 / Rabs D).
    { apply Rmult_le_reg_r with (Rabs d); [lra|]. rewrite Rinv_l by lra. apply Rmult_le_reg_r with (Rabs D); [exact PD|].
      replace (106 / 100 / Rabs D * Rabs d * Rabs D) with (106 / 100 * Rabs d) by (field; lra). lra. }
    replace (106 / 100 * (al + be) / Rabs D) with ((al + be) * (106 / 100 / Rabs D)) by (field; lra).
    apply Rmult_le_compat; try apply Rabs_pos; try assumption. apply Rlt_le, Rinv_0_lt_compat. lra.
  - replace (n / d - N / D) with (((n - N) - n / d * (d - D)) / D) by (field; split; assumption).
    unfold Rdiv at 1. rewrite Rabs_mult, Rabs_inv.
    assert (T : Rabs (n - N - n / d * (d - D)) <= 106 / 100 * (al + be)).
    { unfold Rminus at 1. eapply Rle_trans; [apply Rabs_triang|]. rewrite Rabs_Ropp, Rabs_mult.
      assert (Rabs (n / d) * Rabs (d - D) <= 1001 / 1000 * be) by (apply Rmult_le_compat; try apply Rabs_pos; assumption). lra. }
    apply Rmult_le_compat_r; [|exact T]. apply Rlt_le, Rinv_0_lt_compat. exact PD.
Qed.
(** |x1 y1| + |x2 y2| against the lengths (Cauchy-Schwarz). *)
Lemma cauchy : forall x1 x2 y1 y2 a b, 0 <= a -> 0 <= b -> x1 * x1 + x2 * x2 = a * a -> y1 * y1 + y2 * y2 = b * b ->
  Rabs x1 * Rabs y1 + Rabs x2 * Rabs y2 <= a * b.
Proof.
  intros x1 x2 y1 y2 a b Pa Pb Ha Hb. rewrite <- !Rabs_mult.
  assert (S : forall z, Rabs z * Rabs z = z * z) by (intros z; rewrite <- Rabs_mult; apply Rabs_pos_eq; apply Rle_0_sqr).
  apply sq_le; [now apply Rmult_le_pos|].
  rewrite !Rabs_mult. set (p := Rabs x1) in *. set (q := Rabs x2) in *. set (r := Rabs y1) in *. set (s := Rabs y2) in *.
  assert (p * p + q * q = a * a) by (unfold p, q; rewrite !S; exact Ha). assert (r * r + s * s = b * b) by (unfold r, s; rewrite !S; exact Hb).
  replace (a * b * (a * b)) with ((a * a) * (b * b)) by ring. rewrite <- H, <- H0.
  assert (0 <= (p * s - q * r) * (p * s - q * r)) by apply Rle_0_sqr. lra.
Qed.

Section Seg.
Variable lm : Libm.
Local Notation f := (single lm).
Local Notation F := (FO lm).

Definition size61 (M : R) : Prop := 0 <= M <= bpow radix2 61.
Lemma combo_room : forall M1 N1 M2 N2, size61 M1 -> size61 N1 -> size61 M2 -> size61 N2 ->
  (1 + ur f) ^ 4 * (M1 * N1 + tiny f + (M2 * N2 + tiny f)) < huge f.
Proof.
  intros M1 N1 M2 N2 A B C D. rewrite huge_eq, u_eq, tiny_eq.
  assert (PB : forall A B, size61 A -> size61 B -> 0 <= A * B <= bpow radix2 122).
  { intros x y [X1 X2] [Y1 Y2]. split; [now apply Rmult_le_pos|]. change 122%Z with (61 + 61)%Z. rewrite bpow_plus. apply Rmult_le_compat; lra. }
  pose proof (PB _ _ A B). pose proof (PB _ _ C D).
  assert (bpow radix2 (-126) <= bpow radix2 122) by (apply bpow_le; lia). pose proof (bpow_gt_0 radix2 (-126)).
  assert (E : bpow radix2 128 = 64 * bpow radix2 122) by (change 128%Z with (6 + 122)%Z; rewrite bpow_plus; reflexivity). rewrite E.
  assert ((1 + u32) ^ 4 <= 2) by (unfold u32; lra).
  apply Rle_lt_trans with (2 * (4 * bpow radix2 122)); [|lra]. apply Rmult_le_compat; try lra. apply pow_le. unfold u32; lra.
Qed.
Lemma size62 : forall M, size61 M -> 0 <= M <= bpow radix2 62.
Proof. intros M [H1 H2]. split; [exact H1|]. eapply Rle_trans; [exact H2|apply bpow_le; lia]. Qed.
Lemma combo_add : forall x1 y1 x2 y2 r1 s1 r2 s2 M1 N1 M2 N2, nr f 1 M1 x1 r1 -> nr f 1 N1 y1 s1 -> nr f 1 M2 x2 r2 -> nr f 1 N2 y2 s2 ->
  size61 M1 -> size61 N1 -> size61 M2 -> size61 N2 ->
  nr f 4 (M1 * N1 + M2 * N2 + 2 * tiny f) (Bplus mode_NE (Bmult mode_NE x1 y1) (Bmult mode_NE x2 y2)) (r1 * s1 + r2 * s2).
Proof.
  intros x1 y1 x2 y2 r1 s1 r2 s2 M1 N1 M2 N2 A B C D SA SB SC SD.
  replace (M1 * N1 + M2 * N2 + 2 * tiny f) with (M1 * N1 + tiny f + (M2 * N2 + tiny f)) by ring.
  apply nr_add; [apply (box_prod lm 1 1)|apply (box_prod lm 1 1)|now apply combo_room]; auto using size62.
Qed.
Lemma combo_sub : forall x1 y1 x2 y2 r1 s1 r2 s2 M1 N1 M2 N2, nr f 1 M1 x1 r1 -> nr f 1 N1 y1 s1 -> nr f 1 M2 x2 r2 -> nr f 1 N2 y2 s2 ->
  size61 M1 -> size61 N1 -> size61 M2 -> size61 N2 ->
  nr f 4 (M1 * N1 + M2 * N2 + 2 * tiny f) (Bminus mode_NE (Bmult mode_NE x1 y1) (Bmult mode_NE x2 y2)) (r1 * s1 - r2 * s2).
Proof.
  intros x1 y1 x2 y2 r1 s1 r2 s2 M1 N1 M2 N2 A B C D SA SB SC SD.
  replace (M1 * N1 + M2 * N2 + 2 * tiny f) with (M1 * N1 + tiny f + (M2 * N2 + tiny f)) by ring.
  apply nr_sub; [apply (box_prod lm 1 1)|apply (box_prod lm 1 1)|now apply combo_room]; auto using size62.
Qed.

(** ** A point x + t (y - x) *)
Lemma lerp_near : forall x y t : f32, is_finite x = true -> is_finite y = true -> Rabs (B2R x) <= bpow radix2 60 -> Rabs (B2R y) <= bpow radix2 60 ->
  is_finite t = true -> 0 <= B2R t <= 1 ->
  within (lerp_err (B2R x) (B2R y)) (Bplus mode_NE x (Bmult mode_NE t (Bminus mode_NE y x))) (B2R x + B2R t * (B2R y - B2R x)).
Proof.
  intros x y t Fx Fy Bx By Ft Ht. destruct (box_diff lm y x Fy Fx By Bx) as [D U].
  assert (T : nr f 0 1 t (B2R t)).
  { split; [rewrite Rabs_pos_eq; lra|]. split; [exact Ft|]. cbn [pow]. match goal with |- Rabs ?z <= _ => replace z with 0 end; [rewrite Rabs_R0; lra|].
    change (0 = B2R t - B2R t). ring. }
  set (d := Rabs (B2R y - B2R x)) in *.
  assert (Sd : size61 d) by (split; [apply Rabs_pos|exact U]).
  assert (P : nr f 2 (1 * d + tiny f) (Bmult mode_NE t (Bminus mode_NE y x)) (B2R t * (B2R y - B2R x))).
  { apply (box_prod lm 0 1); auto using size62. split; [lra|]. change 1 with (bpow radix2 0). apply bpow_le. lia. }
  assert (X : nr f 2 (Rabs (B2R x)) x (B2R x)) by (apply (nr_mono f 0 2 (Rabs (B2R x))); [lia|lra|now apply nr_val]).
  pose proof (nr_add f 2 _ _ _ _ _ _ X P) as S. rewrite u_eq, huge_eq, tiny_eq in S. destruct S as (_ & S1 & S2).
  { assert (bpow radix2 (-126) <= bpow radix2 61) by (apply bpow_le; lia). assert (bpow radix2 60 <= bpow radix2 61) by (apply bpow_le; lia).
    pose proof (bpow_gt_0 radix2 61). pose proof (bpow_gt_0 radix2 (-126)). destruct Sd as [Sd1 Sd2]. pose proof (Rabs_pos (B2R x)). change (Rabs (B2R x) <= bpow radix2 60) in Bx.
    apply Rle_lt_trans with (2 * (3 * bpow radix2 61)).
    - apply Rmult_le_compat; [apply pow_le; unfold u32; lra| |unfold u32; lra|].
      + match goal with |- 0 <= ?z => change (0 <= Rabs (B2R x) + (1 * d + bpow radix2 (-126))) end. lra.
      + match goal with |- ?z <= _ => change (Rabs (B2R x) + (1 * d + bpow radix2 (-126)) <= 3 * bpow radix2 61) end. lra.
    - change 128%Z with (67 + 61)%Z. rewrite bpow_plus. assert (8 <= bpow radix2 67) by (change 8 with (bpow radix2 3); apply bpow_le; lia). nra. }
  split; [exact S1|]. rewrite u_eq in S2. unfold lerp_err. fold d.
  match type of S2 with Rabs ?z <= _ => change (Rabs z <= 31 / 10 * u32 * (Rabs (B2R x) + d + bpow radix2 (-126))) end.
  eapply Rle_trans; [exact S2|]. pose proof (bpow_gt_0 radix2 (-126)). destruct Sd as [Sd1 _]. pose proof (Rabs_pos (B2R x)).
  match goal with |- _ * ?z <= _ => change z with (Rabs (B2R x) + (1 * d + bpow radix2 (-126))) end.
  replace (Rabs (B2R x) + (1 * d + bpow radix2 (-126))) with (Rabs (B2R x) + d + bpow radix2 (-126)) by ring.
  apply Rmult_le_compat_r; [lra|]. unfold u32. lra.
Qed.

Lemma unit_finite : forall t : f32, Bleb (f32_Z 0) t = true -> Bleb t (f32_Z 1) = true -> is_finite t = true /\ 0 <= B2R t <= 1.
Proof.
  intros t H1 H2. assert (Ft : is_finite t = true) by (destruct t as [s|[|]| |s m e H]; try reflexivity; first [discriminate H1|discriminate H2]).
  split; [exact Ft|]. rewrite Bleb_correct in H1, H2 by (try exact Ft; reflexivity).
  destruct (f32_Z_exact 1 ltac:(lia)) as [_ E1]. rewrite E1 in H2. destruct (f32_Z_exact 0 ltac:(lia)) as [_ E0]. rewrite E0 in H1.
  destruct (Rle_bool_spec 0 (B2R t)); [|discriminate]. destruct (Rle_bool_spec (B2R t) 1); [|discriminate]. lra.
Qed.

(** ** The reported point is on a b up to rounding *)
Definition seg_param (a b c d : Vec2 F) : F :=
  (((vx d - vx c) * (vy a - vy c) - (vy d - vy c) * (vx a - vx c)) / (- (vx d - vx c) * (vy b - vy a) + (vx b - vx a) * (vy d - vy c)))%ops.
Lemma seg_on : forall a b c d p : Vec2 F, inbox a -> inbox b -> calculate_line_segment_intersection a b c d = Some p ->
  let t := seg_param a b c d in is_finite t = true /\ 0 <= B2R t <= 1 /\
  within (lerp_err (B2R (vx a)) (B2R (vx b))) (vx p : f32) (vx (along (real_point a) (real_point b) (B2R t))) /\
  within (lerp_err (B2R (vy a)) (B2R (vy b))) (vy p : f32) (vy (along (real_point a) (real_point b) (B2R t))).
Proof.
  intros a b c d p ([Fax Fay] & Bax & Bay) ([Fbx Fby] & Bbx & Bby) H t. unfold calculate_line_segment_intersection in H.
  fold (seg_param a b c d) in H. fold t in H. destruct (_ && ole t c1)%bool eqn:E in H; [|discriminate].
  apply andb_prop in E. destruct E as [E E4]. apply andb_prop in E. destruct E as [E E3].
  destruct (unit_finite t E3 E4) as [Ft Ht]. split; [exact Ft|]. split; [exact Ht|].
  injection H as <-. cbn [vx vy along real_point]. split; apply lerp_near; assumption.
Qed.

(** ** Accuracy of the parameters *)
Lemma finite_div : forall x y : f32, B2R y <> 0 -> is_finite (Bdiv mode_NE x y) = true ->
  exists d e, Rabs d <= u32 /\ Rabs e <= bpow radix2 (-150) /\ B2R (Bdiv mode_NE x y) = B2R x / B2R y * (1 + d) + e.
Proof.
  intros x y Ny Fq. pose proof (Bdiv_correct 24 128 _ _ mode_NE x y Ny) as C. destruct (Rlt_bool _ _) in C.
  - destruct C as (C & _). rewrite C. destruct (rnd_any f (B2R x / B2R y)) as (d & e & Hd & He & E). exists d, e.
    split; [exact Hd|]. split; [|exact E]. replace (bpow radix2 (-150)) with (ur f * tiny f); [exact He|]. unfold ur, tiny. cbn [prec emax single]. rewrite <- bpow_plus. reflexivity.
  - exfalso. revert C Fq. generalize (Bdiv mode_NE x y). intros z C Fz. destruct (xorb _ _) in C; destruct z; discriminate.
Qed.
Lemma par_close : forall (n den : f32) N D K L0 L1 r, 0 < L0 -> 0 <= L1 -> 0 <= r -> D <> 0 ->
  K = (L0 * L1 + bpow radix2 (-100)) / Rabs D -> 100 * u32 * K <= 1 -> Rabs D <= L0 * L1 ->
  within (41 / 10 * u32 * (L1 * r + bpow radix2 (-125))) n N -> within (41 / 10 * u32 * (L0 * L1 + bpow radix2 (-125))) den D ->
  let E := 6 * u32 * K * (r / L0 + 1) in
  (Rabs (N / D) <= 1 -> E <= 1 -> is_finite (Bdiv mode_NE n den) = true /\ Rabs (B2R (Bdiv mode_NE n den) - N / D) <= E) /\
  (is_finite (Bdiv mode_NE n den) = true -> Rabs (B2R (Bdiv mode_NE n den)) <= 1 -> Rabs (B2R (Bdiv mode_NE n den) - N / D) <= E).
Proof.
  intros n den N D K L0 L1 r P0 P1 Pr ND EK HK DL [Fn Hn] [Fd Hd] E.
  assert (PD : 0 < Rabs D) by now apply Rabs_pos_lt.
  assert (PL : 0 <= L1 * r) by now apply Rmult_le_pos.
  assert (G1 : 0 < bpow radix2 (-125)) by apply bpow_gt_0.
  assert (G2 : 2 * bpow radix2 (-125) <= bpow radix2 (-100)) by (change 2 with (bpow radix2 1); rewrite <- bpow_plus; apply bpow_le; lia).
  assert (KD : K * Rabs D = L0 * L1 + bpow radix2 (-100)) by (rewrite EK; field; lra).
  assert (K1 : 1 <= K). { apply Rmult_le_reg_r with (Rabs D); [exact PD|]. rewrite KD. lra. }
  set (al := 41 / 10 * u32 * (L1 * r + bpow radix2 (-125))) in *. set (be := 41 / 10 * u32 * (L0 * L1 + bpow radix2 (-125))) in *.
  assert (Hbe : be <= Rabs D / 20).
  { unfold be. assert (100 * u32 * (K * Rabs D) <= 1 * Rabs D) by (replace (100 * u32 * (K * Rabs D)) with (100 * u32 * K * Rabs D) by ring; apply Rmult_le_compat_r; lra).
    rewrite KD in H. unfold u32 in *. lra. }
  assert (Pr0 : 0 <= r / L0) by (apply Rmult_le_pos; [exact Pr|apply Rlt_le, Rinv_0_lt_compat, P0]).
  set (w := K * (r / L0 + 1)).
  assert (Pw : 1 <= w) by (unfold w; nra).
  assert (Q : 106 / 100 * (al + be) / Rabs D <= 435 / 100 * u32 * w).
  { apply Rmult_le_reg_r with (Rabs D); [exact PD|]. replace (106 / 100 * (al + be) / Rabs D * Rabs D) with (106 / 100 * (al + be)) by (field; lra).
    assert (WD : L1 * r + L0 * L1 + bpow radix2 (-100) <= w * Rabs D).
    { unfold w. replace (K * (r / L0 + 1) * Rabs D) with ((K * Rabs D) * (r / L0 + 1)) by ring. rewrite KD.
      replace ((L0 * L1 + bpow radix2 (-100)) * (r / L0 + 1)) with (L1 * r + L0 * L1 + bpow radix2 (-100) + bpow radix2 (-100) * (r / L0)) by (field; lra).
      assert (0 <= bpow radix2 (-100) * (r / L0)) by (apply Rmult_le_pos; lra). lra. }
    unfold al, be. replace (435 / 100 * u32 * w * Rabs D) with (435 / 100 * u32 * (w * Rabs D)) by ring.
    unfold u32. lra. }
  assert (EE : E = 6 * u32 * w) by (unfold E, w; ring). rewrite EE. clearbody E w. clear EE.
  assert (E150 : 0 < bpow radix2 (-150) <= u32 / 100).
  { split; [apply bpow_gt_0|]. apply Rle_trans with (bpow radix2 (-31)); [apply bpow_le; lia|]. unfold u32. change (bpow radix2 (-31)) with (/ IZR 2147483648). lra. }
  assert (CL : forall q t, Rabs (q - N / D) <= 435 / 100 * u32 * w -> Rabs q <= 11 / 10 + 435 / 100 * u32 * w -> (exists d e, Rabs d <= u32 /\ Rabs e <= bpow radix2 (-150) /\ t = q * (1 + d) + e) ->
    Rabs (t - N / D) <= 6 * u32 * w).
  { intros q t Hq1 Hq2 (d & e & Hd1 & He1 & ->). replace (q * (1 + d) + e - N / D) with ((q - N / D) + d * q + e) by ring.
    eapply Rle_trans; [apply Rabs_triang|]. eapply Rle_trans; [apply Rplus_le_compat_r, Rabs_triang|]. rewrite Rabs_mult.
    assert (Rabs d * Rabs q <= u32 * (11 / 10 + 435 / 100 * u32 * w)) by (apply Rmult_le_compat; try apply Rabs_pos; assumption).
    unfold u32 in *. lra. }
  split.
  - intros HN HE. destruct (quot_err N D (B2R n) (B2R den) al be ND Hn Hd Hbe (or_introl HN)) as [Nd Hq].
    assert (Hq1 : Rabs (B2R n / B2R den - N / D) <= 435 / 100 * u32 * w) by lra.
    assert (Hq2 : Rabs (B2R n / B2R den) <= 1 + 435 / 100 * u32 * w).
    { replace (B2R n / B2R den) with (N / D + (B2R n / B2R den - N / D)) by ring. eapply Rle_trans; [apply Rabs_triang|]. lra. }
    assert (FF : is_finite (Bdiv mode_NE n den) = true).
    { refine (proj1 (div_ok f n den Fn Nd _)). rewrite u_eq, huge_eq, tiny_eq.
      match goal with |- ?z * _ + _ < _ => change z with (Rabs (B2R n / B2R den)) end.
      assert (bpow radix2 (-126) <= 1) by (change 1 with (bpow radix2 0); apply bpow_le; lia). pose proof (Rabs_pos (B2R n / B2R den)).
      apply Rlt_le_trans with (bpow radix2 3); [change (bpow radix2 3) with 8; unfold u32 in *; lra|apply bpow_le; lia]. }
    split; [exact FF|]. apply (CL (B2R n / B2R den)); [exact Hq1|lra|]. now apply finite_div.
  - intros FF HT.
    assert (Nd : B2R den <> 0).
    { intros Z. rewrite Z in Hd. replace (0 - D) with (- D) in Hd by ring. rewrite Rabs_Ropp in Hd. lra. }
    destruct (finite_div n den Nd FF) as (d & e & Hd1 & He1 & ET).
    assert (B : Rabs (B2R n / B2R den) <= 1001 / 1000).
    { assert (Z : B2R n / B2R den = (B2R (Bdiv mode_NE n den) - e) / (1 + d)).
      { rewrite ET. field. split; [exact Nd|]. apply Rabs_le_inv in Hd1. unfold u32 in *. lra. }
      rewrite Z. unfold Rdiv. rewrite Rabs_mult, Rabs_inv. apply Rabs_le_inv in Hd1.
      assert (I : / Rabs (1 + d) <= 10001 / 10000).
      { rewrite Rabs_pos_eq by (unfold u32 in *; lra). apply Rmult_le_reg_r with (1 + d); [unfold u32 in *; lra|]. rewrite Rinv_l by (unfold u32 in *; lra). unfold u32 in *. lra. }
      assert (J : Rabs (B2R (Bdiv mode_NE n den) - e) <= 10001 / 10000).
      { unfold Rminus. eapply Rle_trans; [apply Rabs_triang|]. rewrite Rabs_Ropp. unfold u32 in *. lra. }
      apply Rle_trans with (10001 / 10000 * (10001 / 10000)); [|lra]. apply Rmult_le_compat; try apply Rabs_pos; try assumption.
      apply Rlt_le, Rinv_0_lt_compat. rewrite Rabs_pos_eq; unfold u32 in *; lra. }
    destruct (quot_err N D (B2R n) (B2R den) al be ND Hn Hd Hbe (or_intror B)) as [_ Hq].
    apply (CL (B2R n / B2R den)); [lra| |].
    + assert (0 <= 435 / 100 * u32 * w) by (unfold u32; lra). lra.
    + exists d, e. repeat split; assumption.
Qed.

Lemma near_within : forall M N x r, nr f 4 (M + 2 * tiny f) x r -> M <= N -> within (41 / 10 * u32 * (N + bpow radix2 (-125))) (x : f32) r.
Proof.
  intros M N x r (H1 & H2 & H3) H. rewrite (two_tiny lm) in *. rewrite u_eq in H3. split; [exact H2|].
  match type of H3 with Rabs ?z <= _ => change (Rabs z <= 41 / 10 * u32 * (N + bpow radix2 (-125))) end.
  assert (0 <= M + bpow radix2 (-125)) by (pose proof (Rabs_pos r); lra).
  apply Rle_trans with (41 / 10 * u32 * (M + bpow radix2 (-125))); [|unfold u32; lra].
  eapply Rle_trans; [exact H3|]. apply Rmult_le_compat_r; [assumption|unfold u32; lra].
Qed.
Definition seg_den (a b c d : Vec2 F) : F := (- (vx d - vx c) * (vy b - vy a) + (vx b - vx a) * (vy d - vy c))%ops.
Definition seg_nt (a b c d : Vec2 F) : F := ((vx d - vx c) * (vy a - vy c) - (vy d - vy c) * (vx a - vx c))%ops.
Definition seg_ns (a b c d : Vec2 F) : F := (- (vy b - vy a) * (vx a - vx c) + (vx b - vx a) * (vy a - vy c))%ops.

Lemma seg_parts : forall a b c d : Vec2 f32, inbox a -> inbox b -> inbox c -> inbox d ->
  let A := real_point a in let B := real_point b in let C := real_point c in let D := real_point d in
  within (41 / 10 * u32 * (dist A B * dist C D + bpow radix2 (-125))) (seg_den a b c d : f32) (cross A B C D) /\
  within (41 / 10 * u32 * (dist C D * dist A C + bpow radix2 (-125))) (seg_nt a b c d : f32) (cross C D C A) /\
  within (41 / 10 * u32 * (dist A B * dist A C + bpow radix2 (-125))) (seg_ns a b c d : f32) (cross A B C A).
Proof.
  intros a b c d ([Fax Fay] & Bax & Bay) ([Fbx Fby] & Bbx & Bby) ([Fcx Fcy] & Bcx & Bcy) ([Fdx Fdy] & Bdx & Bdy) A B C D.
  destruct (box_diff lm _ _ Fbx Fax Bbx Bax) as [D1 U1]. destruct (box_diff lm _ _ Fby Fay Bby Bay) as [D2 U2].
  destruct (box_diff lm _ _ Fdx Fcx Bdx Bcx) as [D3 U3]. destruct (box_diff lm _ _ Fdy Fcy Bdy Bcy) as [D4 U4].
  destruct (box_diff lm _ _ Fax Fcx Bax Bcx) as [D5 U5]. destruct (box_diff lm _ _ Fay Fcy Bay Bcy) as [D6 U6].
  assert (SZ : forall z, Rabs z <= bpow radix2 61 -> size61 (Rabs z)) by (intros z Hz; split; [apply Rabs_pos|exact Hz]).
  apply SZ in U1, U2, U3, U4, U5, U6.
  assert (L0 : (B2R (vx b) - B2R (vx a)) * (B2R (vx b) - B2R (vx a)) + (B2R (vy b) - B2R (vy a)) * (B2R (vy b) - B2R (vy a)) = dist A B * dist A B) by (symmetry; apply dist_sq).
  assert (L1 : (B2R (vx d) - B2R (vx c)) * (B2R (vx d) - B2R (vx c)) + (B2R (vy d) - B2R (vy c)) * (B2R (vy d) - B2R (vy c)) = dist C D * dist C D) by (symmetry; apply dist_sq).
  assert (L2 : (B2R (vx a) - B2R (vx c)) * (B2R (vx a) - B2R (vx c)) + (B2R (vy a) - B2R (vy c)) * (B2R (vy a) - B2R (vy c)) = dist A C * dist A C) by (rewrite dist_comm; symmetry; apply dist_sq).
  pose proof (dist_nonneg A B) as P0. pose proof (dist_nonneg C D) as P1. pose proof (dist_nonneg A C) as P2.
  assert (SW : forall x y z, x + y = z -> y + x = z) by (intros; lra).
  split; [|split].
  - pose proof (combo_add _ _ _ _ _ _ _ _ _ _ _ _ (nr_opp f _ _ _ _ D3) D2 D1 D4 U3 U2 U1 U4) as G.
    replace (cross A B C D) with (- (B2R (vx d) - B2R (vx c)) * (B2R (vy b) - B2R (vy a)) + (B2R (vx b) - B2R (vx a)) * (B2R (vy d) - B2R (vy c))) by (unfold cross, A, B, C, D, real_point; cbn [vx vy]; ring).
    apply (near_within _ _ _ _ G). rewrite Rplus_comm, (Rmult_comm (Rabs (B2R (vx d) - _))). apply (cauchy _ _ _ _ _ _ P0 P1 L0 (SW _ _ _ L1)).
  - pose proof (combo_sub _ _ _ _ _ _ _ _ _ _ _ _ D3 D6 D4 D5 U3 U6 U4 U5) as G.
    replace (cross C D C A) with ((B2R (vx d) - B2R (vx c)) * (B2R (vy a) - B2R (vy c)) - (B2R (vy d) - B2R (vy c)) * (B2R (vx a) - B2R (vx c))) by (unfold cross, A, B, C, D, real_point; cbn [vx vy]; ring).
    apply (near_within _ _ _ _ G). apply (cauchy _ _ _ _ _ _ P1 P2 L1 (SW _ _ _ L2)).
  - pose proof (combo_add _ _ _ _ _ _ _ _ _ _ _ _ (nr_opp f _ _ _ _ D2) D5 D1 D6 U2 U5 U1 U6) as G.
    replace (cross A B C A) with (- (B2R (vy b) - B2R (vy a)) * (B2R (vx a) - B2R (vx c)) + (B2R (vx b) - B2R (vx a)) * (B2R (vy a) - B2R (vy c))) by (unfold cross, A, B, C, D, real_point; cbn [vx vy]; ring).
    apply (near_within _ _ _ _ G). apply (cauchy _ _ _ _ _ _ P0 P2 (SW _ _ _ L0) L2).
Qed.
Lemma cramer : forall A B C D t s, cross A B C D <> 0 -> along A B t = along C D s ->
  t = cross C D C A / cross A B C D /\ s = cross A B C A / cross A B C D.
Proof.
  intros [ax ay] [bx by'] [cx cy] [dx dy] t s ND E. unfold along in E. cbn [vx vy] in E. injection E as Ex Ey.
  assert (E1 : t * cross (P2 ax ay) (P2 bx by') (P2 cx cy) (P2 dx dy) = cross (P2 cx cy) (P2 dx dy) (P2 cx cy) (P2 ax ay)).
  { unfold cross. cbn [vx vy]. assert (X : t * (bx - ax) = cx + s * (dx - cx) - ax) by lra. assert (Y : t * (by' - ay) = cy + s * (dy - cy) - ay) by lra.
    replace (t * ((bx - ax) * (dy - cy) - (by' - ay) * (dx - cx))) with ((t * (bx - ax)) * (dy - cy) - (t * (by' - ay)) * (dx - cx)) by ring. rewrite X, Y. ring. }
  assert (E2 : s * cross (P2 ax ay) (P2 bx by') (P2 cx cy) (P2 dx dy) = cross (P2 ax ay) (P2 bx by') (P2 cx cy) (P2 ax ay)).
  { unfold cross. cbn [vx vy]. assert (X : s * (dx - cx) = ax + t * (bx - ax) - cx) by lra. assert (Y : s * (dy - cy) = ay + t * (by' - ay) - cy) by lra.
    replace (s * ((bx - ax) * (dy - cy) - (by' - ay) * (dx - cx))) with ((bx - ax) * (s * (dy - cy)) - (by' - ay) * (s * (dx - cx))) by ring. rewrite X, Y. ring. }
  rewrite <- E1, <- E2. split; field; exact ND.
Qed.
Lemma cross_le : forall A B C D, Rabs (cross A B C D) <= dist A B * dist C D.
Proof.
  intros A B C D. unfold cross, Rminus at 1. eapply Rle_trans; [apply Rabs_triang|]. rewrite Rabs_Ropp, !Rabs_mult.
  pose proof (dist_sq A B) as S1. pose proof (dist_sq C D) as S2.
  apply (cauchy _ _ _ _ _ _ (dist_nonneg A B) (dist_nonneg C D)); [symmetry; exact S1|]. lra.
Qed.
Lemma cond_sym : forall A B C D, cond A B C D = cond C D A B.
Proof.
  intros. unfold cond. rewrite (Rmult_comm (dist C D)). replace (cross C D A B) with (- cross A B C D) by (unfold cross; ring). now rewrite Rabs_Ropp.
Qed.

Lemma seg_eq : forall a b c d : Vec2 F, calculate_line_segment_intersection a b c d =
  (let s := seg_ns a b c d / seg_den a b c d in let t := seg_nt a b c d / seg_den a b c d in
   if (s >=? c0) && (s <=? c1) && (t >=? c0) && (t <=? c1) then Some (P2 (vx a + t * (vx b - vx a)) (vy a + t * (vy b - vy a))) else None)%ops.
Proof. reflexivity. Qed.
Lemma seg_accurate : forall a b c d : Vec2 f32, inbox a -> inbox b -> inbox c -> inbox d ->
  let A := real_point a in let B := real_point b in let C := real_point c in let D := real_point d in
  cross A B C D <> 0 -> 100 * u32 * cond A B C D <= 1 ->
  forall t s, along A B t = along C D s ->
  let et := par_err A B C D in let es := par_err C D A B in
  (et <= t <= 1 - et -> es <= s <= 1 - es -> exists p, calculate_line_segment_intersection (O := F) a b c d = Some p) /\
  (forall p, calculate_line_segment_intersection (O := F) a b c d = Some p ->
     - et <= t <= 1 + et /\ - es <= s <= 1 + es /\
     within (lerp_err (vx A) (vx B) + et * Rabs (vx B - vx A)) (vx p : f32) (vx (along A B t)) /\
     within (lerp_err (vy A) (vy B) + et * Rabs (vy B - vy A)) (vy p : f32) (vy (along A B t))).
Proof.
  intros a b c d Ha Hb Hc Hd A B C D ND HK t s Est et es.
  destruct (cramer A B C D t s ND Est) as [Et Es].
  destruct (seg_parts a b c d Ha Hb Hc Hd) as (Wd & Wt & Ws). fold A B C D in Wd, Wt, Ws.
  pose proof (cross_le A B C D) as CL. assert (PD : 0 < Rabs (cross A B C D)) by now apply Rabs_pos_lt.
  pose proof (dist_nonneg A B) as N0. pose proof (dist_nonneg C D) as N1. pose proof (dist_nonneg A C) as N2.
  assert (P0 : 0 < dist A B) by nra. assert (P1 : 0 < dist C D) by nra.
  destruct (par_close (seg_nt a b c d) (seg_den a b c d) _ _ (cond A B C D) (dist A B) (dist C D) (dist A C) P0 N1 N2 ND eq_refl HK CL Wt Wd) as [T1 T2].
  destruct (par_close (seg_ns a b c d) (seg_den a b c d) (cross A B C A) (cross A B C D) (cond C D A B) (dist C D) (dist A B) (dist C A) P1 N0 (dist_nonneg C A) ND) as [S1 S2].
  { rewrite (Rmult_comm (dist C D)). rewrite <- cond_sym. reflexivity. }
  { now rewrite <- cond_sym. }
  { now rewrite Rmult_comm. }
  { rewrite (dist_comm C A). exact Ws. }
  { rewrite (Rmult_comm (dist C D)). exact Wd. }
  fold (par_err A B C D) in T1, T2. fold (par_err C D A B) in S1, S2. fold et in T1, T2. fold es in S1, S2. rewrite <- Et in T1, T2. rewrite <- Es in S1, S2.
  set (ft := Bdiv mode_NE (seg_nt a b c d : f32) (seg_den a b c d)) in *. set (fs := Bdiv mode_NE (seg_ns a b c d : f32) (seg_den a b c d)) in *.
  rewrite (seg_eq a b c d).
  cbv zeta. change (@odiv F (seg_ns a b c d) (seg_den a b c d)) with fs. change (@odiv F (seg_nt a b c d) (seg_den a b c d)) with ft.
  change (@ole F) with (@Bleb 24 128). change (@c0 F) with (f32_Z 0). change (@c1 F) with (f32_Z 1).
  split.
  - intros Ht Hs.
    assert (UN : forall (z : f32) y e, is_finite z = true -> Rabs (B2R z - y) <= e -> e <= y <= 1 - e -> Bleb (f32_Z 0) z = true /\ Bleb z (f32_Z 1) = true).
    { intros z y e Fz Hz Hy. apply Rabs_le_inv in Hz. rewrite !Bleb_correct by (try exact Fz; reflexivity).
      destruct (f32_Z_exact 1 ltac:(lia)) as [_ E1]. rewrite E1. destruct (f32_Z_exact 0 ltac:(lia)) as [_ E0]. rewrite E0.
      split; apply Rle_bool_true; lra. }
    assert (Pt : 0 <= et). { unfold et, par_err. assert (0 <= cond A B C D). { unfold cond. apply Rmult_le_pos; [pose proof (bpow_ge_0 radix2 (-100)); nra|apply Rlt_le, Rinv_0_lt_compat, PD]. }
      assert (0 <= dist A C / dist A B) by (apply Rmult_le_pos; [exact N2|apply Rlt_le, Rinv_0_lt_compat, P0]). apply Rmult_le_pos; [unfold u32; lra|lra]. }
    assert (Ps : 0 <= es). { unfold es, par_err. assert (0 <= cond C D A B). { rewrite <- cond_sym. unfold cond. apply Rmult_le_pos; [pose proof (bpow_ge_0 radix2 (-100)); nra|apply Rlt_le, Rinv_0_lt_compat, PD]. }
      assert (0 <= dist C A / dist C D) by (apply Rmult_le_pos; [apply dist_nonneg|apply Rlt_le, Rinv_0_lt_compat, P1]). apply Rmult_le_pos; [unfold u32; lra|lra]. }
    destruct T1 as [Ft Dt]; [rewrite Rabs_pos_eq; lra|lra|]. destruct S1 as [Fs Ds]; [rewrite Rabs_pos_eq; lra|lra|].
    destruct (UN ft t et Ft Dt Ht) as [-> ->]. destruct (UN fs s es Fs Ds Hs) as [-> ->]. eexists. reflexivity.
  - intros p H. destruct (_ && Bleb ft (f32_Z 1))%bool eqn:E in H; [|discriminate].
    apply andb_prop in E. destruct E as [E E4]. apply andb_prop in E. destruct E as [E E3]. apply andb_prop in E. destruct E as [E1 E2].
    destruct (unit_finite ft E3 E4) as [Ft Ht]. destruct (unit_finite fs E1 E2) as [Fs Hs].
    pose proof (T2 Ft ltac:(rewrite Rabs_pos_eq; lra)) as Dt. pose proof (S2 Fs ltac:(rewrite Rabs_pos_eq; lra)) as Ds.
    pose proof (Rabs_le_inv _ _ Dt) as Dt'. pose proof (Rabs_le_inv _ _ Ds) as Ds'. split; [lra|]. split; [lra|].
    injection H as <-. destruct Ha as ([Fax Fay] & Bax & Bay), Hb as ([Fbx Fby] & Bbx & Bby). cbn [vx vy].
    assert (ML : forall x y (z : f32), within (lerp_err x y) z (x + B2R ft * (y - x)) -> within (lerp_err x y + et * Rabs (y - x)) z (x + t * (y - x))).
    { intros x y z [Fz Hz]. split; [exact Fz|]. replace (B2R z - (x + t * (y - x))) with ((B2R z - (x + B2R ft * (y - x))) + (B2R ft - t) * (y - x)) by ring.
      eapply Rle_trans; [apply Rabs_triang|]. apply Rplus_le_compat; [exact Hz|]. rewrite Rabs_mult. apply Rmult_le_compat_r; [apply Rabs_pos|exact Dt]. }
    split; [exact (ML _ _ _ (lerp_near (vx a) (vx b) ft Fax Fbx Bax Bbx Ft Ht))|exact (ML _ _ _ (lerp_near (vy a) (vy b) ft Fay Fby Bay Bby Ft Ht))].
Qed.
End Seg.
