(** * The perpendicular bisector in f32. *)
From Coq Require Import ZArith Reals List Bool Lia Lra Psatz Arith.
From Flocq Require Import Core.Core IEEE754.BinarySingleNaN.
From Verif Require Import Scalar Utils PlaneSpec F32 Laws PolyF32 GeoSpec Format RoundSpec Rounding NearCalc GeoRound GeoOn GeoPoly GeoSeg GeoCons GeoInc.
Local Open Scope R_scope.

Lemma bisector_eq : forall (O : Ops) (a b : Vec2 O) (off : O),
  let mx := omul (oadd (vx a) (vx b)) chalf in let my := omul (oadd (vy a) (vy b)) chalf in
  let sp := odiv (oneg c1) (odiv (osub (vy b) (vy a)) (osub (vx b) (vx a))) in
  calculate_perpendicular_bisector a b off =
  (P2 mx my, P2 (oadd mx off) (oadd (omul (oadd mx off) sp) (osub my (omul sp mx)))).
Proof. reflexivity. Qed.

Section Bis.
Variable lm : Libm.
Local Notation f := (single lm).
Local Notation F := (FO lm).

(** Quotients of values with a relative error. *)
Lemma div_within : forall (x y : f32) X Y e1 e2, within (e1 * Rabs X) x X -> within (e2 * Rabs Y) y Y -> 0 <= e1 <= 10 * u32 -> 0 <= e2 <= 10 * u32 -> Y <> 0 ->
  bpow radix2 (-100) <= Rabs (X / Y) <= bpow radix2 120 -> within ((e1 + e2 + 101 / 100 * u32) * Rabs (X / Y)) (Bdiv mode_NE x y) (X / Y).
Proof.
  intros x y X Y e1 e2 [Fx Ex] [Fy Ey] H1 H2 NY [L U]. set (w := X / Y) in *. assert (EX : X = w * Y) by (unfold w; field; exact NY).
  assert (PY : 0 < Rabs Y) by now apply Rabs_pos_lt. assert (Ny : B2R y <> 0 /\ (1 - 10 * u32) * Rabs Y <= Rabs (B2R y)).
  { assert (G : (1 - 10 * u32) * Rabs Y <= Rabs (B2R y)).
    { pose proof (Rabs_triang_inv Y (B2R y)) as G. rewrite (Rabs_minus_sym Y) in G. assert (e2 * Rabs Y <= 10 * u32 * Rabs Y) by (apply Rmult_le_compat_r; lra). lra. }
    split; [|exact G]. intros Z. rewrite Z, Rabs_R0 in G. assert (0 < (1 - 10 * u32) * Rabs Y) by (apply Rmult_lt_0_compat; [unfold u32; lra|exact PY]). lra. }
  destruct Ny as [Ny By]. assert (PB : 0 < Rabs (B2R y)) by now apply Rabs_pos_lt. assert (Pw : 0 < Rabs w) by (pose proof (bpow_gt_0 radix2 (-100)); lra).
  assert (Q : Rabs (B2R x / B2R y - w) <= (e1 + e2 + / 1000 * u32) * Rabs w).
  { replace (B2R x / B2R y - w) with (((B2R x - X) - w * (B2R y - Y)) * / B2R y) by (rewrite EX; field; exact Ny).
    rewrite Rabs_mult, Rabs_inv. apply Rmult_le_reg_r with (Rabs (B2R y)); [exact PB|]. rewrite Rmult_assoc, Rinv_l, Rmult_1_r by lra.
    unfold Rminus at 1. eapply Rle_trans; [apply Rabs_triang|]. rewrite Rabs_Ropp, Rabs_mult.
    assert (A1 : Rabs (B2R x - X) <= e1 * (Rabs w * Rabs Y)) by (rewrite <- Rabs_mult, <- EX; exact Ex).
    assert (A2 : Rabs w * Rabs (B2R y - Y) <= Rabs w * (e2 * Rabs Y)) by (apply Rmult_le_compat_l; lra).
    apply Rle_trans with ((e1 + e2 + / 1000 * u32) * Rabs w * ((1 - 10 * u32) * Rabs Y)); [|apply Rmult_le_compat_l; [apply Rmult_le_pos; [unfold u32 in *; lra|lra]|exact By]].
    assert (0 <= Rabs w * Rabs Y) by (apply Rmult_le_pos; lra).
    apply Rle_trans with ((e1 + e2) * (Rabs w * Rabs Y)); [lra|]. replace ((e1 + e2 + / 1000 * u32) * Rabs w * ((1 - 10 * u32) * Rabs Y)) with ((e1 + e2 + / 1000 * u32) * (1 - 10 * u32) * (Rabs w * Rabs Y)) by ring.
    apply Rmult_le_compat_r; [assumption|]. unfold u32 in *. lra. }
  assert (BQ : Rabs (B2R x / B2R y) <= (1 + 21 * u32) * Rabs w).
  { replace (B2R x / B2R y) with (w + (B2R x / B2R y - w)) by ring. eapply Rle_trans; [apply Rabs_triang|].
    assert ((e1 + e2 + / 1000 * u32) * Rabs w <= 21 * u32 * Rabs w) by (apply Rmult_le_compat_r; [lra|unfold u32 in *; lra]). lra. }
  assert (T : bpow radix2 (-126) <= / 1000 * Rabs w).
  { apply Rle_trans with (/ 1000 * bpow radix2 (-100)); [|lra]. change (-126)%Z with (-26 + -100)%Z. rewrite bpow_plus. apply Rmult_le_compat_r; [apply bpow_ge_0|]. change (bpow radix2 (-26)) with (/ IZR 67108864). lra. }
  destruct (div_ok f x y Fx Ny) as (Fq & d & e & Hd & He & Eq).
  { rewrite u_eq, huge_eq, tiny_eq. apply Rle_lt_trans with (2 * Rabs w).
    - apply Rle_trans with ((1 + 21 * u32) * Rabs w * (1 + u32) + u32 * (/ 1000 * Rabs w)); [apply Rplus_le_compat; [apply Rmult_le_compat_r; [unfold u32; lra|exact BQ]|apply Rmult_le_compat_l; [unfold u32; lra|exact T]]|unfold u32; lra].
    - apply Rle_lt_trans with (bpow radix2 121); [change 121%Z with (1 + 120)%Z; rewrite bpow_plus; change (bpow radix2 1) with 2; lra|apply bpow_lt; lia]. }
  split; [exact Fq|]. rewrite u_eq in *. rewrite tiny_eq in He. set (z := B2R x / B2R y) in *.
  match goal with |- Rabs (?v - _) <= _ => replace v with (z * (1 + d) + e) by (symmetry; exact Eq) end.
  replace (z * (1 + d) + e - w) with ((z - w) + z * d + e) by ring.
  assert (Zd : Rabs (z * d) <= (1 + 21 * u32) * Rabs w * u32) by (rewrite Rabs_mult; apply Rmult_le_compat; auto using Rabs_pos).
  assert (He' : Rabs e <= u32 * (/ 1000 * Rabs w)) by (eapply Rle_trans; [exact He|apply Rmult_le_compat_l; [unfold u32; lra|exact T]]).
  eapply Rle_trans; [apply Rabs_triang|]. eapply Rle_trans; [apply Rplus_le_compat; [apply Rabs_triang|exact He']|]. unfold u32 in *. lra.
Qed.

Theorem bisector_error : forall (a b : Vec2 F) (off : F), pbound (bpow radix2 30) a -> pbound (bpow radix2 30) b ->
  is_finite (off : f32) = true -> Rabs (B2R (off : f32)) <= bpow radix2 30 ->
  let A := real_point a in let B := real_point b in let D := B2R (off : f32) in
  bpow radix2 (-30) <= Rabs (vx B - vx A) -> bpow radix2 (-30) <= Rabs (vy B - vy A) ->
  let mx := (vx A + vx B) / 2 in let my := (vy A + vy B) / 2 in let S := - (vx B - vx A) / (vy B - vy A) in
  let s := snd (calculate_perpendicular_bisector a b off) in
  within (201 / 100 * u32 * (Rabs mx + Rabs D) + bpow radix2 (-140)) (vx s : f32) (mx + D) /\
  within (901 / 100 * u32 * (Rabs my + Rabs S * (2 * Rabs mx + Rabs D)) + bpow radix2 (-80)) (vy s : f32) (my + D * S).
Proof.
  intros a b off ([Fax Fay] & Bax & Bay) ([Fbx Fby] & Bbx & Bby) Fo Bo A B D Hx Hy mx my S. rewrite bisector_eq. cbn [snd vx vy].
  assert (P30 : bpow radix2 30 = 1073741824) by reflexivity. rewrite P30 in *.
  assert (H30 : bpow radix2 (-30) = / 1073741824) by reflexivity. rewrite H30 in *.
  assert (t126 : 0 < bpow radix2 (-126) <= / 1000000) by (split; [apply bpow_gt_0|apply Rle_trans with (bpow radix2 (-20)); [apply bpow_le; lia|change (bpow radix2 (-20)) with (/ IZR 1048576); lra]]).
  set (t := bpow radix2 (-126)) in *.
  assert (SUMB : forall x y, Rabs x <= 1073741824 -> Rabs y <= 1073741824 -> Rabs (x + y) <= 2147483648 /\ Rabs (y - x) <= 2147483648) by (intros x y G1 G2; apply Rabs_le_inv in G1; apply Rabs_le_inv in G2; split; apply Rabs_le; lra).
  assert (H128 : 1000 * 2147483648 < bpow radix2 128) by (apply Rlt_trans with (bpow radix2 50); [change (bpow radix2 50) with (IZR 1125899906842624); lra|apply bpow_lt; lia]).
  assert (MID : forall x y : f32, is_finite x = true -> is_finite y = true -> Rabs (B2R x) <= 1073741824 -> Rabs (B2R y) <= 1073741824 ->
    nr f 1 (Rabs ((B2R x + B2R y) / 2) + t) (Bmult mode_NE (Bplus mode_NE x y) (chalf : F)) ((B2R x + B2R y) / 2)).
  { intros x y G1 G2 G3 G4. destruct (SUMB _ _ G3 G4) as [G5 _]. destruct (half_sum lm x y G1 G2) as [[Fm Em] _]; [unfold u32; lra|].
    split; [lra|]. split; [exact Fm|]. rewrite u_eq. eapply Rle_trans; [exact Em|]. cbn [pow]. rewrite Rmult_1_r.
    replace (Rabs ((B2R x + B2R y) / 2)) with (Rabs (B2R x + B2R y) / 2) by (unfold Rdiv; rewrite Rabs_mult, (Rabs_pos_eq (/ 2)) by lra; reflexivity). unfold t. change (-150)%Z with (-24 + -126)%Z. rewrite bpow_plus. change (bpow radix2 (-24)) with u32. lra. }
  pose proof (MID _ _ Fax Fbx Bax Bbx) as MX. pose proof (MID _ _ Fay Fby Bay Bby) as MY. clear MID.
  assert (DIF : forall x y : f32, is_finite x = true -> is_finite y = true -> Rabs (B2R x) <= 1073741824 -> Rabs (B2R y) <= 1073741824 -> within (u32 * Rabs (B2R y - B2R x)) (Bminus mode_NE y x) (B2R y - B2R x)).
  { intros x y G1 G2 G3 G4. destruct (SUMB _ _ G3 G4) as [_ G5]. destruct (nr_diff f y x G2 G1) as (_ & Fd & Ed); [rewrite u_eq, huge_eq; match goal with |- _ * Rabs ?v < _ => change v with (B2R y - B2R x) end; unfold u32; lra|].
    split; [exact Fd|]. rewrite u_eq in Ed. cbn [pow] in Ed. rewrite Rmult_1_r in Ed. replace (1 + u32 - 1) with u32 in Ed by ring. exact Ed. }
  pose proof (DIF _ _ Fax Fbx Bax Bbx) as DX. pose proof (DIF _ _ Fay Fby Bay Bby) as DY. clear DIF.
  destruct (SUMB _ _ Bax Bbx) as [SX VX]. destruct (SUMB _ _ Bay Bby) as [SY VY].
  change (B2R (vx b) - B2R (vx a)) with (vx B - vx A) in *. change (B2R (vy b) - B2R (vy a)) with (vy B - vy A) in *.
  change (B2R (vx a) + B2R (vx b)) with (vx A + vx B) in *. change (B2R (vy a) + B2R (vy b)) with (vy A + vy B) in *. fold mx in MX. fold my in MY.
  set (dx := vx B - vx A) in *. set (dy := vy B - vy A) in *.
  assert (Ndx : dx <> 0) by (intros Z; rewrite Z, Rabs_R0 in Hx; lra). assert (Ndy : dy <> 0) by (intros Z; rewrite Z, Rabs_R0 in Hy; lra).
  assert (QB : forall x y, y <> 0 -> / 1073741824 <= Rabs x -> / 1073741824 <= Rabs y -> Rabs x <= 2147483648 -> Rabs y <= 2147483648 -> / 2147483648 * / 1073741824 <= Rabs (x / y) <= 2147483648 * 1073741824).
  { intros x y G1 G2 G3 G4 G5. unfold Rdiv. rewrite Rabs_mult, Rabs_inv. assert (0 < Rabs y) by lra.
    assert (I1 : / 2147483648 <= / Rabs y) by (apply Rinv_le; lra). assert (I2 : / Rabs y <= 1073741824) by (rewrite <- (Rinv_inv 1073741824); apply Rinv_le; lra).
    split; [rewrite Rmult_comm|]; apply Rmult_le_compat; lra. }
  pose proof (QB dy dx Ndx Hy Hx VY VX) as B1. pose proof (QB dx dy Ndy Hx Hy VX VY) as B2. clear QB.
  assert (LO : bpow radix2 (-100) <= / 2147483648 * / 1073741824) by (apply Rle_trans with (bpow radix2 (-61)); [apply bpow_le; lia|change (bpow radix2 (-61)) with (/ IZR 2305843009213693952); lra]).
  assert (HI : 2147483648 * 1073741824 <= bpow radix2 120) by (apply Rle_trans with (bpow radix2 61); [change (bpow radix2 61) with (IZR 2305843009213693952); lra|apply bpow_le; lia]).
  pose proof (div_within _ _ dy dx u32 u32 DY DX) as SL. specialize (SL ltac:(unfold u32; lra) ltac:(unfold u32; lra) Ndx ltac:(lra)).
  assert (M1 : within (0 * Rabs (-1)) (Bopp (c1 : F)) (-1)).
  { assert (V1 : B2R (c1 : F) = 1) by (vm_compute; lra). split; [now rewrite is_finite_Bopp|]. rewrite B2R_Bopp. match goal with |- Rabs (- ?v - _) <= _ => replace v with 1 by (symmetry; exact V1) end. replace (- (1) - -1) with 0 by ring. rewrite Rabs_R0. lra. }
  assert (NS : dy / dx <> 0) by (intros Z; rewrite Z, Rabs_R0 in B1; lra).
  assert (ES : -1 / (dy / dx) = S) by (unfold S; field; tauto). assert (AS : Rabs S = Rabs (dx / dy)) by (unfold S; replace (- dx / dy) with (- (dx / dy)) by (field; exact Ndy); apply Rabs_Ropp).
  pose proof (div_within _ _ (-1) (dy / dx) 0 (u32 + u32 + 101 / 100 * u32) M1 SL) as SP. rewrite ES, AS in SP. specialize (SP ltac:(unfold u32; lra) ltac:(unfold u32; lra) NS ltac:(lra)).
  rewrite <- AS in SP, B2. destruct SP as [FS EP].
  match type of EP with Rabs (B2R ?v - _) <= _ => set (sp := v) in * end.
  assert (NSP : nr f 5 (Rabs S) sp S).
  { split; [lra|]. split; [exact FS|]. rewrite u_eq. eapply Rle_trans; [exact EP|]. apply Rmult_le_compat_r; [apply Rabs_pos|]. unfold u32. cbn [pow]. lra. }
  match type of MX with nr _ _ _ ?v _ => set (xm := v) in * end. match type of MY with nr _ _ _ ?v _ => set (ym := v) in * end.
  assert (BM : Rabs mx <= 1073741824 /\ Rabs my <= 1073741824) by (unfold mx, my, Rdiv; rewrite !Rabs_mult, (Rabs_pos_eq (/ 2)) by lra; lra). destruct BM as [BMX BMY].
  pose proof (Rabs_pos mx). pose proof (Rabs_pos my). pose proof (Rabs_pos D). pose proof (Rabs_pos S).
  assert (H126 : 100 * (2147483648 * 1073741824 * 4294967296) <= bpow radix2 126) by (apply Rle_trans with (bpow radix2 100); [change (bpow radix2 100) with (IZR 1267650600228229401496703205376); lra|apply bpow_le; lia]).
  assert (PS : forall z, 0 <= z <= 4294967296 -> 0 <= Rabs S * z <= 2147483648 * 1073741824 * 4294967296) by (intros z Hz; split; [apply Rmult_le_pos; lra|apply Rmult_le_compat; lra]).
  pose proof (PS (Rabs mx + t) ltac:(lra)) as P1. change (Rabs D <= 1073741824) in Bo. pose proof (PS (Rabs mx + t + Rabs D) ltac:(lra)) as P2.
  assert (N1 : nr f 7 (Rabs S * (Rabs mx + t) + t) (Bmult mode_NE sp xm) (S * mx)).
  { pose proof (nr_mul f 5 1 _ _ _ _ _ _ NSP MX) as G. rewrite u_eq, huge_eq, tiny_eq in G. apply G. apply (room 7); [lia|]. fold t. lra. }
  assert (N2 : nr f 8 (Rabs my + t + (Rabs S * (Rabs mx + t) + t)) (Bminus mode_NE ym (Bmult mode_NE sp xm)) (my - S * mx)).
  { apply (nr_sub f 7); [apply (nr_mono f 1 7 (Rabs my + t)); [lia|lra|exact MY]|exact N1|]. rewrite u_eq, huge_eq. apply (room 8); [lia|]. lra. }
  assert (N3 : nr f 2 (Rabs mx + t + Rabs D) (Bplus mode_NE xm (off : f32)) (mx + D)).
  { apply (nr_add f 1); [exact MX|apply (nr_mono f 0 1 (Rabs D)); [lia|lra|exact (nr_val f (off : f32) Fo)]|]. rewrite u_eq, huge_eq. apply (room 2); [lia|]. lra. }
  assert (N4 : nr f 8 (Rabs S * (Rabs mx + t + Rabs D) + t) (Bmult mode_NE (Bplus mode_NE xm (off : f32)) sp) ((mx + D) * S)).
  { pose proof (nr_mul f 2 5 _ _ _ _ _ _ N3 NSP) as G. rewrite u_eq, huge_eq, tiny_eq in G. fold t in G. rewrite (Rmult_comm (Rabs mx + t + Rabs D)) in G. apply G. apply (room 8); [lia|]. lra. }
  pose proof (nr_add f 8 _ _ _ _ _ _ N4 N2) as N5. rewrite u_eq, huge_eq in N5. specialize (N5 ltac:(apply (room 9); [lia|lra])).
  replace ((mx + D) * S + (my - S * mx)) with (my + D * S) in N5 by ring.
  split.
  - destruct N3 as (_ & G1 & G2). split; [exact G1|]. rewrite u_eq in G2. match goal with |- Rabs (?v - _) <= _ => change v with (B2R (Bplus mode_NE xm (off : f32))) end. eapply Rle_trans; [exact G2|].
    assert (T2 : 3 * u32 * t <= bpow radix2 (-140)) by (unfold t; apply Rle_trans with (bpow radix2 (-148)); [change (-148)%Z with (2 + (-24 + -126))%Z; rewrite !bpow_plus; change (bpow radix2 2) with 4; change (bpow radix2 (-24)) with u32; fold t; assert (0 <= u32 * t) by (apply Rmult_le_pos; [unfold u32; lra|lra]); lra|apply bpow_le; lia]).
    cbn [pow]. assert (((1 + u32) * ((1 + u32) * 1) - 1) * (Rabs mx + t + Rabs D) <= 201 / 100 * u32 * (Rabs mx + t + Rabs D)) by (apply Rmult_le_compat_r; [lra|unfold u32; lra]). assert (0 <= u32 * t) by (apply Rmult_le_pos; [unfold u32; lra|lra]). lra.
  - destruct N5 as (_ & G1 & G2). split; [exact G1|]. rewrite u_eq in G2. match goal with |- Rabs (?v - _) <= _ => change v with (B2R (Bplus mode_NE (Bmult mode_NE (Bplus mode_NE xm (off : f32)) sp) (Bminus mode_NE ym (Bmult mode_NE sp xm)))) end. eapply Rle_trans; [exact G2|].
    pose proof (gam_lin 9 ltac:(lia)) as G. replace (INR 9) with 9 in G by (cbn; ring).
    set (Q := Rabs my + Rabs S * (2 * Rabs mx + Rabs D)). assert (PQ : 0 <= Q) by (unfold Q; pose proof (PS (2 * Rabs mx) ltac:(lra)); assert (0 <= Rabs S * Rabs D) by (apply Rmult_le_pos; lra); lra).
    replace (Rabs S * (Rabs mx + t + Rabs D) + t + (Rabs my + t + (Rabs S * (Rabs mx + t) + t))) with (Q + t * (3 + 2 * Rabs S)) by (unfold Q; ring).
    assert (T3 : t * (3 + 2 * Rabs S) <= bpow radix2 (-60)).
    { apply Rle_trans with (bpow radix2 (-126) * bpow radix2 63); [|rewrite <- bpow_plus; apply bpow_le; lia]. apply Rmult_le_compat_l; [apply bpow_ge_0|]. change (bpow radix2 63) with (IZR 9223372036854775808). lra. }
    assert (0 <= t * (3 + 2 * Rabs S)) by (apply Rmult_le_pos; lra).
    apply Rle_trans with (901 / 100 * u32 * (Q + bpow radix2 (-60))).
    + pose proof (bpow_gt_0 radix2 (-60)). apply Rmult_le_compat; lra.
    + assert (901 / 100 * u32 * bpow radix2 (-60) <= bpow radix2 (-80)); [|lra]. change u32 with (bpow radix2 (-24)). rewrite Rmult_assoc, <- bpow_plus. change (-80)%Z with (4 + (-24 + -60))%Z. rewrite (bpow_plus radix2 4). change (bpow radix2 4) with 16. pose proof (bpow_gt_0 radix2 (-24 + -60)). lra.
Qed.

(** A point at equal distance from A and B is determined by its x. *)
Lemma equidistant_unique : forall (A B q : Vec2 R), vy A <> vy B -> dist A q = dist q B ->
  vy q = (vy A + vy B) / 2 + (vx q - (vx A + vx B) / 2) * (- (vx B - vx A) / (vy B - vy A)).
Proof.
  intros A B q N H. assert (E : dist A q * dist A q = dist q B * dist q B) by now rewrite H. rewrite !dist_sq in E.
  apply Rmult_eq_reg_r with (vy B - vy A); [|lra]. field_simplify; [|lra]. lra.
Qed.
End Bis.
