(** * Segment intersection in f32 on integer grids. *)
From Coq Require Import ZArith Reals List Bool Lia Lra Psatz Arith.
From Flocq Require Import Core.Core IEEE754.BinarySingleNaN.
From Flocq Require Import Relative.
From Verif Require Import Scalar Utils PlaneSpec F32 Laws UtilsReal UtilsF32 PolyF32 PolyNewF32 GridUtils.
Import ListNotations.
Local Open Scope R_scope.

(** ** One rounding *)
Lemma rnd_err : forall x M, bpow radix2 (-125) <= M -> Rabs x <= M ->
  Rabs (rnd32 x - x) <= bpow radix2 (-24) * M.
Proof.
  intros x M HM Hx.
  destruct (error_N_FLT radix2 (-149) 24 ltac:(lia) (fun z => negb (Z.even z)) x) as (d & h & Hd & Hh & Z & E).
  change (round radix2 (FLT_exp (-149) 24) (Znearest (fun z => negb (Z.even z))) x) with (rnd32 x) in E.
  replace (rnd32 x - x) with (x * d + h) by (rewrite E; ring).
  apply Rmult_integral in Z. destruct Z as [-> | ->].
  - rewrite Rmult_0_r, Rplus_0_l. eapply Rle_trans; [exact Hh|].
    apply Rle_trans with (bpow radix2 (-24) * bpow radix2 (-125)).
    + rewrite <- bpow_plus. replace (/2) with (bpow radix2 (-1)) by reflexivity. rewrite <- bpow_plus. apply bpow_le. lia.
    + apply Rmult_le_compat_l; [apply bpow_ge_0|exact HM].
  - rewrite Rplus_0_r, Rabs_mult, Rmult_comm. apply Rmult_le_compat; try apply Rabs_pos; [|exact Hx].
    eapply Rle_trans; [exact Hd|]. replace (/2) with (bpow radix2 (-1)) by reflexivity. rewrite <- bpow_plus. apply bpow_le. lia.
Qed.

(** ** Quotients of integers *)
Section Quot.
Variables (N D : Z).
Hypotheses (BN : (Z.abs N <= 16777216)%Z) (BD : (Z.abs D <= 16777216)%Z) (D0 : D <> 0%Z).
Let q := IZR N / IZR D.

Lemma quot_mul : q * IZR D = IZR N.
Proof. unfold q. field. now apply not_0_IZR. Qed.

Lemma quot_bound : Rabs q <= IZR 16777216 * bpow radix2 0.
Proof.
  unfold q, Rdiv. rewrite Rabs_mult, Rabs_inv, <- !abs_IZR. cbn [bpow]. rewrite Rmult_1_r.
  assert (1 <= IZR (Z.abs D)) by (apply IZR_le; lia).
  assert (0 <= IZR (Z.abs N) <= IZR 16777216) by (split; apply IZR_le; lia).
  apply Rmult_le_reg_r with (IZR (Z.abs D)); [lra|]. rewrite Rmult_assoc, Rinv_l by lra. nra.
Qed.

Lemma quot_neg : q < 0 -> q <= IZR (-1) * bpow radix2 (-24).
Proof.
  intros H. pose proof quot_mul as E. change (bpow radix2 (-24)) with (/ IZR 16777216).
  assert (P : 0 < IZR 16777216) by (apply IZR_lt; lia).
  apply Rmult_le_reg_r with (IZR 16777216); [exact P|]. rewrite Rmult_assoc, Rinv_l by lra.
  destruct (Z.lt_trichotomy D 0) as [L|[L|L]]; [|contradiction|].
  - assert (L' : IZR D < 0) by (now apply IZR_lt). assert (- IZR 16777216 <= IZR D) by (rewrite <- opp_IZR; apply IZR_le; lia).
    assert (0 < IZR N) by nra. assert (1 <= IZR N) by (apply IZR_le; apply lt_IZR in H1; lia). nra.
  - assert (L' : 0 < IZR D) by (now apply IZR_lt). assert (IZR D <= IZR 16777216) by (apply IZR_le; lia).
    assert (H1 : IZR N < 0) by nra. assert (IZR N <= -1) by (apply IZR_le; apply lt_IZR in H1; lia). nra.
Qed.

Lemma quot_gt1 : 1 < q -> bpow radix2 (-24) < q - 1.
Proof.
  intros H. pose proof quot_mul as E. change (bpow radix2 (-24)) with (/ IZR 16777216).
  assert (P : 0 < IZR 16777216) by (apply IZR_lt; lia).
  apply Rmult_lt_reg_r with (IZR 16777216); [exact P|]. rewrite Rinv_l by lra.
  assert (NL : - IZR 16777216 <= IZR N <= IZR 16777216) by (rewrite <- opp_IZR; split; apply IZR_le; lia).
  destruct (Z.lt_trichotomy D 0) as [L|[L|L]]; [|contradiction|].
  - assert (L' : IZR D < 0) by (now apply IZR_lt). assert (H1 : IZR N < IZR D) by nra.
    assert (H2 : IZR N <= IZR D - 1) by (rewrite <- minus_IZR; apply IZR_le; apply lt_IZR in H1; lia).
    assert (H3 : 1 <= (q - 1) * (- IZR D)) by nra. assert (- IZR D <= IZR 16777216 - 1) by lra. nra.
  - assert (L' : 0 < IZR D) by (now apply IZR_lt). assert (H1 : IZR D < IZR N) by nra.
    assert (H2 : IZR D <= IZR N - 1) by (rewrite <- minus_IZR; apply IZR_le; apply lt_IZR in H1; lia).
    assert (H3 : 1 <= (q - 1) * IZR D) by nra. assert (IZR D <= IZR 16777216 - 1) by lra. nra.
Qed.

(** Rounding does not move a quotient across 0 or 1. *)
Lemma quot_range : (0 <= rnd32 q <-> 0 <= q) /\ (rnd32 q <= 1 <-> q <= 1).
Proof.
  assert (Z0 : IZR 0 * bpow radix2 0 = 0) by (simpl; ring).
  assert (Z1 : IZR 1 * bpow radix2 0 = 1) by (simpl; ring).
  split; split; intros H.
  - destruct (Rlt_le_dec q 0) as [L|]; [exfalso|assumption].
    pose proof (rnd_le_grid q (-1) (-24) ltac:(lia) ltac:(lia) (quot_neg L)) as X.
    assert (0 < bpow radix2 (-24)) by apply bpow_gt_0. lra.
  - rewrite <- Z0. apply rnd_ge_grid; [lia|lia|lra].
  - destruct (Rle_lt_dec q 1) as [|L]; [assumption|exfalso].
    destruct (Rle_lt_dec 2 q) as [G|G].
    + pose proof (rnd_ge_grid q 2 0 ltac:(lia) ltac:(lia)) as X. cbn [bpow] in X. lra.
    + pose proof (error_le_half_ulp radix2 fexp32 (fun z => negb (Z.even z)) q) as X.
      change (round radix2 fexp32 (Znearest (fun z => negb (Z.even z))) q) with (rnd32 q) in X.
      assert (M : mag radix2 q = 1%Z :> Z).
      { apply mag_unique. rewrite Rabs_right by lra. simpl. lra. }
      rewrite ulp_neq_0 in X by lra. unfold cexp in X. rewrite M in X.
      change (fexp32 1) with (-23)%Z in X. replace (/2) with (bpow radix2 (-1)) in X by reflexivity.
      rewrite <- bpow_plus in X. change (-1 + -23)%Z with (-24)%Z in X.
      pose proof (quot_gt1 L). pose proof (Rle_abs (- (rnd32 q - q))) as Y. rewrite Rabs_Ropp in Y. lra.
  - rewrite <- Z1. apply rnd_le_grid; [lia|lia|lra].
Qed.

Lemma div_ints : forall f (n d : f32), rel f n N -> rel f d D ->
  is_finite (Bdiv mode_NE n d) = true /\ B2R (Bdiv mode_NE n d) = rnd32 q.
Proof.
  intros f n d [Fn En] [Fd Ed].
  assert (B : 0 < bpow radix2 f) by apply bpow_gt_0. assert (DR : IZR D <> 0) by (now apply not_0_IZR).
  assert (d0 : B2R d <> 0) by (rewrite Ed; apply Rmult_integral_contrapositive_currified; lra).
  pose proof (Bdiv_correct 24 128 _ _ mode_NE n d d0) as C.
  replace (B2R n / B2R d) with q in C by (rewrite En, Ed; unfold q; field; split; lra).
  pose proof quot_bound as QB.
  assert (L : Rabs (rnd32 q) < bpow radix2 128).
  { apply Rle_lt_trans with (IZR 16777216 * bpow radix2 0).
    - apply abs_round_le_generic; [apply fexp32_valid|apply rnd32_valid| |exact QB].
      rewrite <- (proj1 (representable 16777216 0 ltac:(lia) ltac:(lia))).
      apply generic_format_round; [apply fexp32_valid|apply rnd32_valid].
    - pose proof (proj2 (representable 16777216 0 ltac:(lia) ltac:(lia))) as X. rewrite Rabs_right in X; [exact X|].
      simpl. lra. }
  rewrite Rlt_bool_true in C by exact L. destruct C as (C1 & C2 & _). split; [now rewrite C2|exact C1].
Qed.

Lemma div_ge0 : forall f (n d : f32), rel f n N -> rel f d D -> Bleb (f32_Z 0) (Bdiv mode_NE n d) = Rleb 0 q.
Proof.
  intros f n d Rn Rd. destruct (div_ints f n d Rn Rd) as [F E].
  rewrite (proj1 (proj2 (cmp_exact (f32_Z 0) _ eq_refl F))), E. apply eq_true_iff_eq. rewrite !Rleb_true.
  exact (proj1 quot_range).
Qed.
Lemma div_le1 : forall f (n d : f32), rel f n N -> rel f d D -> Bleb (Bdiv mode_NE n d) (f32_Z 1) = Rleb q 1.
Proof.
  intros f n d Rn Rd. destruct (div_ints f n d Rn Rd) as [F E].
  rewrite (proj1 (proj2 (cmp_exact _ (f32_Z 1) F eq_refl))), E. apply eq_true_iff_eq. rewrite !Rleb_true.
  replace (B2R (f32_Z 1)) with 1 by (vm_compute; lra). exact (proj2 quot_range).
Qed.
End Quot.

(** ** The three determinants *)
Definition zden (a b c d : Z * Z) : Z := (- (fst d - fst c) * (snd b - snd a) + (fst b - fst a) * (snd d - snd c))%Z.
Definition zsn (a b c d : Z * Z) : Z := (- (snd b - snd a) * (fst a - fst c) + (fst b - fst a) * (snd a - snd c))%Z.
Definition ztn (a b c d : Z * Z) : Z := ((fst d - fst c) * (snd a - snd c) - (snd d - snd c) * (fst a - fst c))%Z.

Lemma opp_rel : forall e x k, rel e x k -> rel e (Bopp x) (- k).
Proof. intros e x k [F E]. split; [now rewrite is_finite_Bopp|]. rewrite B2R_Bopp, E, opp_IZR. ring. Qed.

Lemma prod_bound : forall K x y, (Z.abs x <= 2 * K)%Z -> (Z.abs y <= 2 * K)%Z -> (Z.abs (x * y) <= 4 * (K * K))%Z.
Proof.
  intros K x y Hx Hy. rewrite Z.abs_mul. replace (4 * (K * K))%Z with ((2 * K) * (2 * K))%Z by ring.
  apply Z.mul_le_mono_nonneg; lia.
Qed.

(** The exact result as a formula. *)
Lemma seg_xo : forall a b c d,
  let den := - (vx d - vx c) * (vy b - vy a) + (vx b - vx a) * (vy d - vy c) in
  let s := (- (vy b - vy a) * (vx a - vx c) + (vx b - vx a) * (vy a - vy c)) / den in
  let t := ((vx d - vx c) * (vy a - vy c) - (vy d - vy c) * (vx a - vx c)) / den in
  den <> 0 ->
  calculate_line_segment_intersection (O := XO) (xp a) (xp b) (xp c) (xp d) =
  if Rleb 0 s && Rleb s 1 && Rleb 0 t && Rleb t 1 then Some (xp (along a b t)) else None.
Proof.
  intros [ax ay] [bx by_] [cx cy] [dx dy] den s t NZ. subst s t. cbn [vx vy] in den. subst den.
  unfold calculate_line_segment_intersection, along, xp; simpl in *.
  destruct (Req_EM_T _ 0) as [Z|_]; [contradiction|]. simpl. reflexivity.
Qed.

Section Seg.
Context (lm : Libm) (e K : Z).
Hypotheses (He : (-74 <= e <= 51)%Z) (K1 : (1 <= K)%Z) (HK : (8 * (K * K) <= 16777216)%Z).
Variables (a b c d : Vec2 f32) (ka kb kc kd : Z * Z).
Hypotheses (Wa : within K ka) (Wb : within K kb) (Wc : within K kc) (Wd : within K kd).
Hypotheses (Ha : at_grid e a ka) (Hb : at_grid e b kb) (Hc : at_grid e c kc) (Hd : at_grid e d kd).

Let K2 : (2 * K <= 16777216)%Z.
Proof. nia. Qed.

Let He2 : (-149 <= e + e <= 103)%Z.
Proof. lia. Qed.

Lemma add_bound : forall x y, (Z.abs x <= 4 * (K * K))%Z -> (Z.abs y <= 4 * (K * K))%Z -> (Z.abs (x + y) <= 16777216)%Z.
Proof. intros x y Hx Hy. pose proof (Z.abs_triangle x y). lia. Qed.
Lemma sub_bound : forall x y, (Z.abs x <= 4 * (K * K))%Z -> (Z.abs y <= 4 * (K * K))%Z -> (Z.abs (x - y) <= 16777216)%Z.
Proof. intros x y Hx Hy. pose proof (Z.abs_triangle x (- y)). rewrite Z.abs_opp in H. unfold Z.sub. lia. Qed.

Lemma sub_rel : forall x y k l, rel e x k -> rel e y l -> (Z.abs k <= K)%Z -> (Z.abs l <= K)%Z ->
  rel e (Bminus mode_NE x y) (k - l) /\ (Z.abs (k - l) <= 2 * K)%Z.
Proof. intros x y k l Hx Hy Bk Bl. split; [|lia]. apply sub_exact; [exact Hx|exact Hy|lia|lia]. Qed.

Lemma mul_rel : forall x y k l, rel e x k /\ (Z.abs k <= 2 * K)%Z -> rel e y l /\ (Z.abs l <= 2 * K)%Z ->
  rel (e + e) (Bmult mode_NE x y) (k * l) /\ (Z.abs (k * l) <= 4 * (K * K))%Z.
Proof.
  intros x y k l [Hx Bk] [Hy Bl]. pose proof (prod_bound K k l Bk Bl). split; [|assumption].
  apply mul_exact; [exact Hx|exact Hy|lia|lia].
Qed.

Definition fden : f32 := Bplus mode_NE (Bmult mode_NE (Bopp (Bminus mode_NE (vx d) (vx c))) (Bminus mode_NE (vy b) (vy a)))
  (Bmult mode_NE (Bminus mode_NE (vx b) (vx a)) (Bminus mode_NE (vy d) (vy c))).
Definition fsn : f32 := Bplus mode_NE (Bmult mode_NE (Bopp (Bminus mode_NE (vy b) (vy a))) (Bminus mode_NE (vx a) (vx c)))
  (Bmult mode_NE (Bminus mode_NE (vx b) (vx a)) (Bminus mode_NE (vy a) (vy c))).
Definition ftn : f32 := Bminus mode_NE (Bmult mode_NE (Bminus mode_NE (vx d) (vx c)) (Bminus mode_NE (vy a) (vy c)))
  (Bmult mode_NE (Bminus mode_NE (vy d) (vy c)) (Bminus mode_NE (vx a) (vx c))).

Lemma dets : (rel (e + e) fden (zden ka kb kc kd) /\ (Z.abs (zden ka kb kc kd) <= 16777216)%Z) /\
  (rel (e + e) fsn (zsn ka kb kc kd) /\ (Z.abs (zsn ka kb kc kd) <= 16777216)%Z) /\
  (rel (e + e) ftn (ztn ka kb kc kd) /\ (Z.abs (ztn ka kb kc kd) <= 16777216)%Z).
Proof.
  destruct Wa as [Wa1 Wa2], Wb as [Wb1 Wb2], Wc as [Wc1 Wc2], Wd as [Wd1 Wd2].
  destruct Ha as [Ha1 Ha2], Hb as [Hb1 Hb2], Hc as [Hc1 Hc2], Hd as [Hd1 Hd2].
  pose proof (sub_rel _ _ _ _ Hb1 Ha1 Wb1 Wa1) as X0. pose proof (sub_rel _ _ _ _ Hb2 Ha2 Wb2 Wa2) as Y0.
  pose proof (sub_rel _ _ _ _ Hd1 Hc1 Wd1 Wc1) as X1. pose proof (sub_rel _ _ _ _ Hd2 Hc2 Wd2 Wc2) as Y1.
  pose proof (sub_rel _ _ _ _ Ha1 Hc1 Wa1 Wc1) as XA. pose proof (sub_rel _ _ _ _ Ha2 Hc2 Wa2 Wc2) as YA.
  assert (NX1 : rel e (Bopp (Bminus mode_NE (vx d) (vx c))) (- (fst kd - fst kc)) /\ (Z.abs (- (fst kd - fst kc)) <= 2 * K)%Z)
    by (split; [apply opp_rel, X1|rewrite Z.abs_opp; apply X1]).
  assert (NY0 : rel e (Bopp (Bminus mode_NE (vy b) (vy a))) (- (snd kb - snd ka)) /\ (Z.abs (- (snd kb - snd ka)) <= 2 * K)%Z)
    by (split; [apply opp_rel, Y0|rewrite Z.abs_opp; apply Y0]).
  destruct (mul_rel _ _ _ _ NX1 Y0) as [M1 B1]. destruct (mul_rel _ _ _ _ X0 Y1) as [M2 B2].
  destruct (mul_rel _ _ _ _ NY0 XA) as [M3 B3]. destruct (mul_rel _ _ _ _ X0 YA) as [M4 B4].
  destruct (mul_rel _ _ _ _ X1 YA) as [M5 B5]. destruct (mul_rel _ _ _ _ Y1 XA) as [M6 B6].
  split; [|split]; (split; [|unfold zden, zsn, ztn]).
  - apply add_exact; [exact M1|exact M2|now apply add_bound|exact He2].
  - now apply add_bound.
  - apply add_exact; [exact M3|exact M4|now apply add_bound|exact He2].
  - now apply add_bound.
  - apply sub_exact; [exact M5|exact M6|now apply sub_bound|exact He2].
  - now apply sub_bound.
Qed.

Definition fx (t : f32) : Vec2 f32 :=
  P2 (Bplus mode_NE (vx a) (Bmult mode_NE t (Bminus mode_NE (vx b) (vx a))))
     (Bplus mode_NE (vy a) (Bmult mode_NE t (Bminus mode_NE (vy b) (vy a)))).

Lemma seg_unfold : calculate_line_segment_intersection (O := FO lm) a b c d =
  if Bleb (f32_Z 0) (Bdiv mode_NE fsn fden) && Bleb (Bdiv mode_NE fsn fden) (f32_Z 1) &&
     Bleb (f32_Z 0) (Bdiv mode_NE ftn fden) && Bleb (Bdiv mode_NE ftn fden) (f32_Z 1)
  then Some (fx (Bdiv mode_NE ftn fden)) else None.
Proof. reflexivity. Qed.

Lemma cross_zden : cross (toR a) (toR b) (toR c) (toR d) = IZR (zden ka kb kc kd) * bpow radix2 (e + e).
Proof.
  rewrite (toR_at _ _ _ Ha), (toR_at _ _ _ Hb), (toR_at _ _ _ Hc), (toR_at _ _ _ Hd).
  unfold cross, zden; cbn [vx vy]. rewrite plus_IZR, !mult_IZR, opp_IZR, !minus_IZR, bpow_plus. ring.
Qed.

Let s := IZR (zsn ka kb kc kd) / IZR (zden ka kb kc kd).
Let t := IZR (ztn ka kb kc kd) / IZR (zden ka kb kc kd).

Lemma seg_float : zden ka kb kc kd <> 0%Z ->
  calculate_line_segment_intersection (O := FO lm) a b c d =
  if Rleb 0 s && Rleb s 1 && Rleb 0 t && Rleb t 1 then Some (fx (Bdiv mode_NE ftn fden)) else None.
Proof.
  intros NZ. destruct dets as [[RD BD] [[RS BS] [RT BT]]]. rewrite seg_unfold.
  rewrite (div_ge0 _ _ BS BD NZ _ _ _ RS RD), (div_le1 _ _ BS BD NZ _ _ _ RS RD).
  now rewrite (div_ge0 _ _ BT BD NZ _ _ _ RT RD), (div_le1 _ _ BT BD NZ _ _ _ RT RD).
Qed.

Lemma seg_exact : zden ka kb kc kd <> 0%Z ->
  calculate_line_segment_intersection (O := XO) (xp (toR a)) (xp (toR b)) (xp (toR c)) (xp (toR d)) =
  if Rleb 0 s && Rleb s 1 && Rleb 0 t && Rleb t 1 then Some (xp (along (toR a) (toR b) t)) else None.
Proof.
  intros NZ. assert (B : bpow radix2 e <> 0) by (apply Rgt_not_eq, bpow_gt_0).
  assert (NR : IZR (zden ka kb kc kd) <> 0) by (now apply not_0_IZR).
  set (u := bpow radix2 e) in *.
  assert (ED : - (vx (toR d) - vx (toR c)) * (vy (toR b) - vy (toR a)) + (vx (toR b) - vx (toR a)) * (vy (toR d) - vy (toR c))
    = IZR (zden ka kb kc kd) * (u * u)).
  { rewrite (toR_at _ _ _ Ha), (toR_at _ _ _ Hb), (toR_at _ _ _ Hc), (toR_at _ _ _ Hd).
    unfold zden; cbn [vx vy]. fold u. rewrite plus_IZR, !mult_IZR, opp_IZR, !minus_IZR. ring. }
  assert (ES : - (vy (toR b) - vy (toR a)) * (vx (toR a) - vx (toR c)) + (vx (toR b) - vx (toR a)) * (vy (toR a) - vy (toR c))
    = IZR (zsn ka kb kc kd) * (u * u)).
  { rewrite (toR_at _ _ _ Ha), (toR_at _ _ _ Hb), (toR_at _ _ _ Hc).
    unfold zsn; cbn [vx vy]. fold u. rewrite plus_IZR, !mult_IZR, opp_IZR, !minus_IZR. ring. }
  assert (ET : (vx (toR d) - vx (toR c)) * (vy (toR a) - vy (toR c)) - (vy (toR d) - vy (toR c)) * (vx (toR a) - vx (toR c))
    = IZR (ztn ka kb kc kd) * (u * u)).
  { rewrite (toR_at _ _ _ Ha), (toR_at _ _ _ Hc), (toR_at _ _ _ Hd).
    unfold ztn; cbn [vx vy]. fold u. rewrite minus_IZR, !mult_IZR, !minus_IZR. ring. }
  assert (Q : forall n, n * (u * u) / (IZR (zden ka kb kc kd) * (u * u)) = n / IZR (zden ka kb kc kd))
    by (intros; field; split; assumption).
  rewrite seg_xo.
  - rewrite ED, ES, ET, !Q. reflexivity.
  - rewrite ED. repeat apply Rmult_integral_contrapositive_currified; assumption.
Qed.
(** One coordinate of the computed point. *)
Lemma coord_err : forall (x y tf : f32) k l q, rel e x k -> rel e y l -> (Z.abs k <= K)%Z -> (Z.abs l <= 2 * K)%Z ->
  is_finite tf = true -> B2R tf = rnd32 q -> 0 <= q <= 1 -> Rabs (IZR k + q * IZR l) <= IZR K ->
  let r := Bplus mode_NE x (Bmult mode_NE tf y) in
  is_finite r = true /\
  Rabs (B2R r - (IZR k + q * IZR l) * bpow radix2 e) <= 6 * IZR K * bpow radix2 (e - 24).
Proof.
  intros x y tf k l q [Fx Ex] [Fy Ey] Bk Bl Ft Et Hq Hin r.
  set (u := bpow radix2 e) in *. set (h := bpow radix2 (-24)).
  assert (U : 0 < u) by apply bpow_gt_0.
  assert (H0 : 0 < h) by apply bpow_gt_0. assert (H1 : h <= 1) by (unfold h; simpl; lra).
  assert (UE : bpow radix2 (-74) <= u <= bpow radix2 51) by (split; apply bpow_le; lia).
  assert (KR : 1 <= IZR K) by (now apply IZR_le).
  assert (KU : IZR K <= 2048) by (apply IZR_le; nia).
  assert (L74 : bpow radix2 (-125) <= bpow radix2 (-74)) by (apply bpow_le; lia).
  assert (P51 : bpow radix2 51 * bpow radix2 12 = bpow radix2 63) by (now rewrite <- bpow_plus).
  assert (B63 : 4 * bpow radix2 63 < bpow radix2 128).
  { replace 4 with (bpow radix2 2) by reflexivity. rewrite <- bpow_plus. apply bpow_lt. lia. }
  assert (P12 : bpow radix2 12 = 4096) by (simpl; lra).
  assert (KM : 2 * IZR K * u <= bpow radix2 63) by (rewrite <- P51, P12; nra).
  assert (LR : Rabs (IZR l) <= 2 * IZR K) by (rewrite <- abs_IZR, <- mult_IZR; now apply IZR_le).
  (* t *)
  assert (T1 : Rabs (rnd32 q - q) <= h).
  { replace h with (h * 1) by ring. apply rnd_err; [replace 1 with (bpow radix2 0) by reflexivity; apply bpow_le; lia|].
    rewrite Rabs_right; lra. }
  assert (T2 : 0 <= rnd32 q <= 1).
  { split.
    - pose proof (rnd_ge_grid q 0 0 ltac:(lia) ltac:(lia)) as X. cbn [bpow] in X. lra.
    - pose proof (rnd_le_grid q 1 0 ltac:(lia) ltac:(lia)) as X. cbn [bpow] in X. lra. }
  set (qf := rnd32 q) in *.
  assert (V0 : 0 < 2 * IZR K * u) by nra.
  assert (VM : bpow radix2 (-125) <= 2 * IZR K * u) by nra.
  assert (HU : 0 <= h * (2 * IZR K * u) <= / 16 * (2 * IZR K * u)).
  { split; [apply Rmult_le_pos; lra|]. apply Rmult_le_compat_r; [lra|]. unfold h; simpl; lra. }
  (* product *)
  pose proof (Bmult_correct 24 128 _ _ mode_NE tf y) as C.
  rewrite Et, Ey in C. fold u in C.
  set (z := qf * (IZR l * u)) in *.
  assert (Z1 : Rabs z <= 2 * IZR K * u).
  { unfold z. rewrite !Rabs_mult, (Rabs_right u), (Rabs_right qf) by lra.
    pose proof (Rabs_pos (IZR l)). assert (Rabs (IZR l) * u <= 2 * IZR K * u) by nra.
    assert (0 <= Rabs (IZR l) * u) by nra. nra. }
  assert (Z2 : Rabs (rnd32 z - z) <= h * (2 * IZR K * u)) by (apply rnd_err; [exact VM|exact Z1]).
  assert (Z3 : Rabs (rnd32 z) <= 4 * IZR K * u).
  { replace (rnd32 z) with ((rnd32 z - z) + z) by ring. eapply Rle_trans; [apply Rabs_triang|]. lra. }
  rewrite Rlt_bool_true in C by (eapply Rle_lt_trans; [exact Z3|]; lra).
  destruct C as (C1 & C2 & _). rewrite Ft, Fy in C2. change (is_finite (Bmult mode_NE tf y) = true) in C2.
  change (B2R (Bmult mode_NE tf y) = rnd32 z) in C1.
  (* sum *)
  pose proof (Bplus_correct 24 128 _ _ mode_NE x (Bmult mode_NE tf y) Fx C2) as S.
  rewrite C1, Ex in S. fold u in S.
  set (w := IZR k * u + rnd32 z) in *.
  assert (W0 : Rabs (w - (IZR k + q * IZR l) * u) <= h * (4 * IZR K * u)).
  { replace (w - (IZR k + q * IZR l) * u) with ((rnd32 z - z) + (qf - q) * (IZR l * u)) by (unfold w, z; ring).
    eapply Rle_trans; [apply Rabs_triang|].
    assert (Rabs ((qf - q) * (IZR l * u)) <= h * (2 * IZR K * u)); [|lra].
    rewrite Rabs_mult. apply Rmult_le_compat; try apply Rabs_pos; [exact T1|].
    rewrite Rabs_mult, (Rabs_right u) by lra. apply Rmult_le_compat_r; lra. }
  assert (W1 : Rabs w <= 2 * IZR K * u).
  { replace w with ((w - (IZR k + q * IZR l) * u) + (IZR k + q * IZR l) * u) by ring.
    eapply Rle_trans; [apply Rabs_triang|].
    assert (Rabs ((IZR k + q * IZR l) * u) <= IZR K * u) by (rewrite Rabs_mult, (Rabs_right u) by lra; apply Rmult_le_compat_r; lra).
    lra. }
  assert (W2 : Rabs (rnd32 w - w) <= h * (2 * IZR K * u)) by (apply rnd_err; [exact VM|exact W1]).
  rewrite Rlt_bool_true in S.
  2:{ change (Rabs (rnd32 w) < bpow radix2 128). replace (rnd32 w) with ((rnd32 w - w) + w) by ring.
      eapply Rle_lt_trans; [apply Rabs_triang|]. apply Rle_lt_trans with (4 * IZR K * u); lra. }
  destruct S as (S1 & S2 & _). split; [exact S2|].
  change (B2R r = rnd32 w) in S1. rewrite S1.
  replace (bpow radix2 (e - 24)) with (h * u) by (unfold h, u; rewrite <- bpow_plus; f_equal; lia).
  replace (rnd32 w - (IZR k + q * IZR l) * u) with ((rnd32 w - w) + (w - (IZR k + q * IZR l) * u)) by ring.
  eapply Rle_trans; [apply Rabs_triang|]. lra.
Qed.

(** The decision is exact; the point is near the exact one. *)
Theorem seg_grid :
  match calculate_line_segment_intersection (O := FO lm) a b c d with
  | None => calculate_line_segment_intersection (O := XO) (xp (toR a)) (xp (toR b)) (xp (toR c)) (xp (toR d)) = None
  | Some q => exists p,
      calculate_line_segment_intersection (O := XO) (xp (toR a)) (xp (toR b)) (xp (toR c)) (xp (toR d)) = Some (xp p) /\
      is_finite (vx q) = true /\ is_finite (vy q) = true /\
      Rabs (B2R (vx q) - vx p) <= 6 * IZR K * bpow radix2 (e - 24) /\
      Rabs (B2R (vy q) - vy p) <= 6 * IZR K * bpow radix2 (e - 24)
  end.
Proof.
  destruct (Z.eq_dec (zden ka kb kc kd) 0) as [Z|NZ].
  - rewrite segment_intersection_zero_denominator.
    + destruct (calculate_line_segment_intersection (O := XO) _ _ _ _) eqn:E; [|reflexivity].
      apply segment_intersection_spec in E. destruct E as (p & _ & N & _). exfalso. apply N. rewrite cross_zden, Z. ring.
    + destruct dets as [[[F E] _] _].
      change (Beqb fden (f32_Z 0) = true). rewrite (proj2 (proj2 (cmp_exact fden (f32_Z 0) F eq_refl))).
      rewrite E, Z. change (B2R (f32_Z 0)) with 0. apply Reqb_true. ring.
  - rewrite (seg_float NZ), (seg_exact NZ).
    destruct (Rleb 0 s) eqn:S0; [|reflexivity]. destruct (Rleb s 1) eqn:S1; [|reflexivity].
    destruct (Rleb 0 t) eqn:T0; [|reflexivity]. destruct (Rleb t 1) eqn:T1; [|reflexivity].
    cbn [andb]. apply Rleb_true in T0. apply Rleb_true in T1.
    exists (along (toR a) (toR b) t). split; [reflexivity|].
    destruct dets as [[RD BD] [_ [RT BT]]].
    destruct (div_ints _ _ BT NZ _ _ _ RT RD) as [FT ET].
    destruct Wa as [Wa1 Wa2], Wb as [Wb1 Wb2]. destruct Ha as [Ha1 Ha2], Hb as [Hb1 Hb2].
    destruct (sub_rel _ _ _ _ Hb1 Ha1 Wb1 Wa1) as [X0 BX]. destruct (sub_rel _ _ _ _ Hb2 Ha2 Wb2 Wa2) as [Y0 BY].
    assert (CV : forall k l, (Z.abs k <= K)%Z -> (Z.abs l <= K)%Z -> Rabs (IZR k + t * IZR (l - k)) <= IZR K).
    { intros k l Hk Hl. apply IZR_le in Hk. apply IZR_le in Hl. rewrite abs_IZR in Hk, Hl. rewrite minus_IZR.
      apply Rabs_le. apply Rabs_le_inv in Hk. apply Rabs_le_inv in Hl. split; nra. }
    destruct (coord_err _ _ _ _ _ t Ha1 X0 Wa1 BX FT ET (conj T0 T1) (CV _ _ Wa1 Wb1)) as [F1 E1].
    destruct (coord_err _ _ _ _ _ t Ha2 Y0 Wa2 BY FT ET (conj T0 T1) (CV _ _ Wa2 Wb2)) as [F2 E2].
    split; [exact F1|]. split; [exact F2|].
    rewrite (toR_at _ _ _ (conj Ha1 Ha2)), (toR_at _ _ _ (conj Hb1 Hb2)). unfold along; cbn [vx vy].
    split.
    + match goal with |- Rabs (_ - ?v) <= _ => replace v with ((IZR (fst ka) + t * IZR (fst kb - fst ka)) * bpow radix2 e) by (rewrite minus_IZR; ring) end.
      exact E1.
    + match goal with |- Rabs (_ - ?v) <= _ => replace v with ((IZR (snd ka) + t * IZR (snd kb - snd ka)) * bpow radix2 e) by (rewrite minus_IZR; ring) end.
      exact E2.
Qed.
End Seg.
