(** * Regular polygons in f32. *)
From Coq Require Import ZArith Reals List Bool Lia Lra Psatz Arith.
From Flocq Require Import Core.Core IEEE754.BinarySingleNaN.
From Verif Require Import Scalar Utils Polygon PlaneSpec PolySpec F32 Laws PolyF32 GridGraph GeoSpec Format RoundSpec RegSpec Rounding NearCalc GeoRound.
Import ListNotations.
Local Open Scope R_scope.

Lemma PI_bounds : 314159265 / 100000000 <= PI <= 314159266 / 100000000.
Proof.
  pose proof (PI_2_3_7_ineq 4) as H. cbn [Nat.mul Nat.add sum_f_R0] in H. unfold tg_alt, PI_2_3_7_tg, Ratan_seq in H. cbn [Nat.mul Nat.add pow INR] in H.
  split; lra.
Qed.
Lemma sin_le_abs : forall x, Rabs (sin x) <= Rabs x.
Proof.
  intros x. destruct (Rtotal_order x 0) as [H|[->|H]].
  - pose proof (sin_lt_x (- x) ltac:(lra)) as G. rewrite sin_neg in G. rewrite (Rabs_left x) by lra. pose proof (SIN_bound x). pose proof (PI_bounds).
    unfold Rabs. destruct (Rcase_abs (sin x)); [lra|]. destruct (Rle_or_lt (- x) 1) as [L|L]; [|lra].
    pose proof (sin_ge_0 (- x) ltac:(lra) ltac:(lra)) as P. rewrite sin_neg in P. lra.
  - rewrite sin_0. lra.
  - pose proof (sin_lt_x x H) as G. rewrite (Rabs_pos_eq x) by lra. pose proof (SIN_bound x). pose proof (PI_bounds).
    unfold Rabs. destruct (Rcase_abs (sin x)); [|lra]. destruct (Rle_or_lt x 1) as [L|L]; [|lra].
    pose proof (sin_ge_0 x ltac:(lra) ltac:(lra)). lra.
Qed.
Lemma lip : forall a x y, Rabs a <= 1 -> Rabs (2 * a * sin ((x - y) / 2)) <= Rabs (x - y).
Proof.
  intros a x y A. rewrite !Rabs_mult, (Rabs_pos_eq 2) by lra. pose proof (sin_le_abs ((x - y) / 2)) as G.
  unfold Rdiv in G at 2. rewrite Rabs_mult, (Rabs_pos_eq (/ 2)) in G by lra. pose proof (Rabs_pos (sin ((x - y) / 2))). pose proof (Rabs_pos a).
  assert (Rabs a * Rabs (sin ((x - y) / 2)) <= 1 * (Rabs (x - y) * / 2)) by (apply Rmult_le_compat; assumption). lra.
Qed.
Lemma sin_lip : forall x y, Rabs (sin x - sin y) <= Rabs (x - y).
Proof. intros x y. rewrite form4. apply lip. pose proof (COS_bound ((x + y) / 2)). apply Rabs_le. lra. Qed.
Lemma cos_lip : forall x y, Rabs (cos x - cos y) <= Rabs (x - y).
Proof.
  intros x y. rewrite form2. replace (-2 * sin ((x - y) / 2) * sin ((x + y) / 2)) with (- (2 * sin ((x + y) / 2) * sin ((x - y) / 2))) by ring. rewrite Rabs_Ropp.
  apply lip. pose proof (SIN_bound ((x + y) / 2)). apply Rabs_le. lra.
Qed.

Lemma vertex_eq : forall (O : Ops) n (r : O) (c : Vec2 O) i, let ang := omul (omul c2 cpi) (odiv (ofnat i) (ofnat n)) in
  regular_vertex n r c i = P2 (oadd (vx c) (omul r (ocos ang))) (oadd (vy c) (omul r (osin ang))).
Proof. reflexivity. Qed.

Section Reg.
Variable lm : Libm.
Local Notation f := (single lm).
Local Notation F := (FO lm).

Lemma two_pi : is_finite (Bmult mode_NE (c2 : F) (cpi : F)) = true /\ B2R (Bmult mode_NE (c2 : F) (cpi : F)) = 13176795 / 2097152.
Proof.
  split; [vm_compute; reflexivity|]. match goal with |- B2R ?s = _ => assert (ES : B2SF s = SpecFloat.S754_finite false 13176795 (-21)) by (vm_compute; reflexivity); rewrite <- (SF2R_B2SF _ _ s), ES end.
  cbn [SF2R]. unfold F2R. cbn [Defs.Fnum Defs.Fexp cond_Zopp]. change (bpow radix2 (-21)) with (/ IZR 2097152). lra.
Qed.

Lemma tiny_small : 0 < tiny f <= / 1000000000.
Proof.
  rewrite tiny_eq. split; [apply bpow_gt_0|]. apply Rle_trans with (bpow radix2 (-30)); [apply bpow_le; lia|]. change (bpow radix2 (-30)) with (/ IZR 1073741824). lra.
Qed.
Lemma huge_big : 1000 < huge f.
Proof. rewrite huge_eq. apply Rlt_trans with (bpow radix2 10); [change (bpow radix2 10) with 1024; lra|apply bpow_lt; lia]. Qed.

(** The angle of corner i. *)
Lemma angle_near : forall n i, (i < n)%nat -> (Z.of_nat n <= 16777216)%Z -> let ang := Bmult mode_NE (Bmult mode_NE (c2 : F) (cpi : F)) (Bdiv mode_NE (f32_Z (Z.of_nat i)) (f32_Z (Z.of_nat n))) in
  within (16 * u32) ang (2 * PI * INR i / INR n) /\ Rabs (B2R ang) <= 7.
Proof.
  intros n i Hi Hn ang. destruct (f32_Z_exact (Z.of_nat i) ltac:(lia)) as [Fi Ei]. destruct (f32_Z_exact (Z.of_nat n) ltac:(lia)) as [Fn En]. rewrite <- INR_IZR_INZ in Ei, En.
  assert (Pn : 0 < INR n) by (apply lt_0_INR; lia). assert (W : 0 <= INR i / INR n <= 1).
  { split; [apply Rmult_le_pos; [apply pos_INR|now apply Rlt_le, Rinv_0_lt_compat]|]. apply Rmult_le_reg_r with (INR n); [exact Pn|]. unfold Rdiv. rewrite Rmult_assoc, Rinv_l, Rmult_1_r, Rmult_1_l by lra. apply le_INR. lia. }
  pose proof tiny_small as T. pose proof huge_big as Hg. pose proof PI_bounds as PB. destruct two_pi as [F2 E2].
  set (w := INR i / INR n) in *. replace (2 * PI * INR i / INR n) with (2 * PI * w) by (unfold w; field; lra).
  assert (Q : B2R (f32_Z (Z.of_nat i)) / B2R (f32_Z (Z.of_nat n)) = w) by (rewrite Ei, En; reflexivity).
  destruct (div_ok f (f32_Z (Z.of_nat i)) (f32_Z (Z.of_nat n)) Fi) as (Fq & d & e & Hd & He & Eq).
  { change (B2R (f32_Z (Z.of_nat n)) <> 0). rewrite En. lra. }
  { match goal with |- Rabs ?v * _ + _ < _ => replace v with w by (symmetry; exact Q) end. rewrite u_eq, Rabs_pos_eq by lra. unfold u32. lra. }
  rewrite u_eq in Hd, He. match type of Eq with _ = ?v * _ + _ => replace v with w in Eq by (symmetry; exact Q) end.
  set (q := Bdiv mode_NE (f32_Z (Z.of_nat i)) (f32_Z (Z.of_nat n))) in *. assert (Eq' : B2R q = w * (1 + d) + e) by exact Eq. clear Eq.
  assert (Hwd : Rabs (w * d) <= u32) by (rewrite Rabs_mult, (Rabs_pos_eq w) by lra; apply Rle_trans with (1 * u32); [apply Rmult_le_compat; try apply Rabs_pos; lra|lra]).
  assert (Hut : u32 * tiny f <= u32 * / 1000000000) by (apply Rmult_le_compat_l; [unfold u32; lra|lra]).
  apply Rabs_le_inv in Hwd. apply Rabs_le_inv in He.
  set (eta := B2R q - w). assert (Heta : - (10001 / 10000 * u32) <= eta <= 10001 / 10000 * u32) by (unfold eta; rewrite Eq'; unfold u32 in *; lra).
  set (p := 13176795 / 2097152). assert (PQ : Rabs (p * B2R q) <= 63 / 10) by (replace (B2R q) with (w + eta) by (unfold eta; ring); apply Rabs_le; unfold p, u32 in *; lra).
  destruct (mul_ok f (Bmult mode_NE (c2 : F) (cpi : F)) q F2 Fq) as (Fa & d' & e' & Hd' & He' & Ea).
  { match goal with |- Rabs ?v * _ + _ < _ => replace v with (p * B2R q) by (symmetry; change (B2R (Bmult mode_NE (c2 : F) (cpi : F)) * B2R q = p * B2R q); now rewrite E2) end. rewrite u_eq. unfold u32 in *. lra. }
  rewrite u_eq in Hd', He'. assert (Ea' : B2R ang = p * B2R q * (1 + d') + e') by (etransitivity; [exact Ea|]; change (B2R (Bmult mode_NE (c2 : F) (cpi : F)) * B2R q * (1 + d') + e' = p * B2R q * (1 + d') + e'); now rewrite E2).
  assert (Hpd : Rabs (p * B2R q * d') <= 63 / 10 * u32) by (rewrite Rabs_mult; apply Rmult_le_compat; auto using Rabs_pos).
  apply Rabs_le_inv in Hpd. apply Rabs_le_inv in He'. apply Rabs_le_inv in PQ.
  split; [split; [exact Fa|]|].
  - match goal with |- Rabs (?v - _) <= _ => replace v with (p * B2R q * (1 + d') + e') by (symmetry; exact Ea') end.
    replace (B2R q) with (w + eta) in * by (unfold eta; ring).
    assert (PW : - (307 / 100 * u32) <= (p - 2 * PI) * w <= 307 / 100 * u32).
    { assert (- (307 / 100 * u32) <= p - 2 * PI <= 307 / 100 * u32) by (unfold p, u32; lra). apply Rabs_le_inv. rewrite Rabs_mult, (Rabs_pos_eq w) by lra.
      apply Rle_trans with (307 / 100 * u32 * 1); [apply Rmult_le_compat; try lra; try apply Rabs_pos; now apply Rabs_le|lra]. }
    replace (p * (w + eta) * (1 + d') + e' - 2 * PI * w) with ((p - 2 * PI) * w + p * eta + p * (w + eta) * d' + e') by ring.
    apply Rabs_le. unfold p, u32 in *. lra.
  - rewrite Ea'. apply Rabs_le. unfold u32 in *. lra.
Qed.

(** One coordinate. *)
Lemma coord_reg : forall (c r g : f32) G, is_finite c = true -> is_finite r = true -> Rabs (B2R c) <= bpow radix2 60 -> bpow radix2 (-80) <= B2R r <= bpow radix2 60 ->
  within (18 * u32) g G -> Rabs G <= 1 -> within (u32 * (201 / 10 * B2R r + Rabs (B2R c))) (Bplus mode_NE c (Bmult mode_NE r g)) (B2R c + B2R r * G).
Proof.
  intros c r g G Fc Fr Bc Br [Fg Eg] BG. pose proof (bpow_gt_0 radix2 (-80)) as P80.
  assert (T : tiny f <= / 1000000 * B2R r).
  { rewrite tiny_eq. apply Rle_trans with (/ 1000000 * bpow radix2 (-80)); [|apply Rmult_le_compat_l; lra]. change (-126)%Z with (-46 + -80)%Z. rewrite bpow_plus.
    apply Rmult_le_compat_r; [lra|]. change (bpow radix2 (-46)) with (/ IZR 70368744177664). lra. }
  assert (H60 : 100 * bpow radix2 60 < huge f).
  { rewrite huge_eq. apply Rlt_trans with (bpow radix2 7 * bpow radix2 60); [apply Rmult_lt_compat_r; [apply bpow_gt_0|change (bpow radix2 7) with 128; lra]|rewrite <- bpow_plus; apply bpow_lt; lia]. }
  pose proof (tiny_pos f) as Pt. apply Rabs_le_inv in Eg. apply Rabs_le_inv in BG.
  assert (Bg : Rabs (B2R g) <= 1 + 18 * u32) by (apply Rabs_le; lra).
  assert (RG : Rabs (B2R r * B2R g) <= B2R r * (1 + 18 * u32)) by (rewrite Rabs_mult, (Rabs_pos_eq (B2R r)) by lra; apply Rmult_le_compat_l; lra).
  destruct (mul_ok f r g Fr Fg) as (Fm & d & e & Hd & He & Em).
  { rewrite u_eq. match goal with |- Rabs ?v * _ + _ < _ => change v with (B2R r * B2R g) end.
    apply Rle_lt_trans with (B2R r * (1 + 18 * u32) * (1 + u32) + u32 * (/ 1000000 * B2R r)); [apply Rplus_le_compat; [apply Rmult_le_compat_r; [unfold u32; lra|exact RG]|apply Rmult_le_compat_l; [unfold u32; lra|exact T]]|].
    unfold u32. lra. }
  rewrite u_eq in Hd, He. set (m := Bmult mode_NE r g) in *. assert (Em' : B2R m = B2R r * B2R g * (1 + d) + e) by exact Em. clear Em.
  assert (A1 : Rabs (B2R r * B2R g * d) <= B2R r * (1 + 18 * u32) * u32) by (rewrite Rabs_mult; apply Rmult_le_compat; auto using Rabs_pos).
  assert (A2 : Rabs (B2R r * (B2R g - G)) <= B2R r * (18 * u32)) by (rewrite Rabs_mult, (Rabs_pos_eq (B2R r)) by lra; apply Rmult_le_compat_l; [lra|apply Rabs_le; lra]).
  assert (A3 : Rabs e <= u32 * (/ 1000000 * B2R r)) by (eapply Rle_trans; [exact He|apply Rmult_le_compat_l; [unfold u32; lra|exact T]]).
  apply Rabs_le_inv in A1. apply Rabs_le_inv in A2. apply Rabs_le_inv in A3.
  assert (A4 : - (1901 / 100 * u32 * B2R r) <= B2R m - B2R r * G <= 1901 / 100 * u32 * B2R r).
  { rewrite Em'. replace (B2R r * B2R g * (1 + d) + e - B2R r * G) with (B2R r * (B2R g - G) + B2R r * B2R g * d + e) by ring. unfold u32 in *. lra. }
  assert (BrG : - B2R r <= B2R r * G <= B2R r) by (assert (Rabs (B2R r * G) <= B2R r * 1) as K by (rewrite Rabs_mult, (Rabs_pos_eq (B2R r)) by lra; apply Rmult_le_compat_l; [lra|apply Rabs_le; lra]); apply Rabs_le_inv in K; lra).
  assert (S : Rabs (B2R c + B2R m) <= Rabs (B2R c) + B2R r * (1 + 20 * u32)) by (eapply Rle_trans; [apply Rabs_triang|]; apply Rplus_le_compat_l, Rabs_le; lra).
  destruct (add_ok f c m Fc Fm) as (Fs & d2 & Hd2 & Es).
  { rewrite u_eq. match goal with |- Rabs ?v * _ < _ => change v with (B2R c + B2R m) end. apply Rle_lt_trans with ((Rabs (B2R c) + B2R r * (1 + 20 * u32)) * (1 + u32)); [apply Rmult_le_compat_r; [unfold u32; lra|exact S]|]. unfold u32. lra. }
  rewrite u_eq in Hd2. split; [exact Fs|]. match goal with |- Rabs (?v - _) <= _ => replace v with ((B2R c + B2R m) * (1 + d2)) by (symmetry; exact Es) end.
  replace ((B2R c + B2R m) * (1 + d2) - (B2R c + B2R r * G)) with ((B2R m - B2R r * G) + (B2R c + B2R m) * d2) by ring.
  assert (A5 : Rabs ((B2R c + B2R m) * d2) <= (Rabs (B2R c) + B2R r * (1 + 20 * u32)) * u32) by (rewrite Rabs_mult; apply Rmult_le_compat; auto using Rabs_pos).
  eapply Rle_trans; [apply Rabs_triang|]. assert (Rabs (B2R m - B2R r * G) <= 1901 / 100 * u32 * B2R r) by now apply Rabs_le. unfold u32 in *. lra.
Qed.

Theorem regular_vertex_near : accurate_libm lm (2 * u32) -> forall n i (r : f32) (c : Vec2 f32), (i < n)%nat -> (Z.of_nat n <= 16777216)%Z ->
  is_finite r = true -> bpow radix2 (-80) <= B2R r <= bpow radix2 60 -> inbox c ->
  let v := regular_vertex (O := F) n r c i in let q := corner n (B2R r) (real_point c) i in
  within (u32 * (201 / 10 * B2R r + Rabs (B2R (vx c)))) (vx v : f32) (vx q) /\ within (u32 * (201 / 10 * B2R r + Rabs (B2R (vy c)))) (vy v : f32) (vy q).
Proof.
  intros A n i r c Hi Hn Fr Br ([Fx Fy] & Bx & By). rewrite vertex_eq. cbv zeta. cbn [vx vy].
  destruct (angle_near n i Hi Hn) as [[Fa Ea] Ba]. destruct (A _ Fa Ba) as [[Fs Es] [Fc Ec]].
  set (th := 2 * PI * INR i / INR n) in *. set (ang := Bmult mode_NE (Bmult mode_NE (c2 : F) (cpi : F)) (Bdiv mode_NE (f32_Z (Z.of_nat i)) (f32_Z (Z.of_nat n)))) in *.
  assert (C : within (18 * u32) (lm_cos lm ang) (cos th)).
  { split; [exact Fc|]. replace (B2R (lm_cos lm ang) - cos th) with ((B2R (lm_cos lm ang) - cos (B2R ang)) + (cos (B2R ang) - cos th)) by ring.
    eapply Rle_trans; [apply Rabs_triang|]. pose proof (cos_lip (B2R ang) th). lra. }
  assert (S : within (18 * u32) (lm_sin lm ang) (sin th)).
  { split; [exact Fs|]. replace (B2R (lm_sin lm ang) - sin th) with ((B2R (lm_sin lm ang) - sin (B2R ang)) + (sin (B2R ang) - sin th)) by ring.
    eapply Rle_trans; [apply Rabs_triang|]. pose proof (sin_lip (B2R ang) th). lra. }
  split.
  - apply (coord_reg (vx c) r _ _ Fx Fr Bx Br C). apply Rabs_le. pose proof (COS_bound th). lra.
  - apply (coord_reg (vy c) r _ _ Fy Fr By Br S). apply Rabs_le. pose proof (SIN_bound th). lra.
Qed.
End Reg.

(** A library with these accuracies exists: round to multiples of 2^-23. *)
Definition libm_grid : Libm :=
  mkLibm (fun x => f32_of (ZnearestE (sin (B2R x) * 8388608)) (-23)) (fun x => f32_of (ZnearestE (cos (B2R x) * 8388608)) (-23)) (fun x => x).
Lemma grid_near : forall v, -1 <= v <= 1 -> within (2 * u32) (f32_of (ZnearestE (v * 8388608)) (-23)) v.
Proof.
  intros v B. assert (K : (Z.abs (ZnearestE (v * 8388608)) <= 16777216)%Z).
  { pose proof (Znearest_half (fun x => negb (Z.even x)) (v * 8388608)) as H. apply Rabs_le_inv in H. apply Z.abs_le. split; apply le_IZR; simpl; lra. }
  destruct (f32_of_exact _ (-23) K ltac:(lia)) as [Fx Ex]. split; [exact Fx|]. rewrite Ex. pose proof (Znearest_half (fun x => negb (Z.even x)) (v * 8388608)) as H. apply Rabs_le_inv in H.
  change (bpow radix2 (-23)) with (/ IZR 8388608). apply Rabs_le. unfold u32. lra.
Qed.
Lemma libm_grid_accurate : accurate_libm libm_grid (2 * u32).
Proof.
  intros x _ _. cbn [lm_sin lm_cos libm_grid]. split; apply grid_near; [pose proof (SIN_bound (B2R x))|pose proof (COS_bound (B2R x))]; lra.
Qed.
