(** * Incenter and degeneracy test in f32. *)
From Coq Require Import ZArith Reals List Bool Lia Lra Psatz Arith.
From Flocq Require Import Core.Core IEEE754.BinarySingleNaN.
From Verif Require Import Scalar Utils PlaneSpec F32 Laws PolyF32 GeoSpec Format RoundSpec Rounding NearCalc GeoRound GeoOn GeoPoly GeoSeg GeoCons IncSpec.
Local Open Scope R_scope.
Local Notation cross := PlaneSpec.cross.

(** ** Real numbers: the point inside the triangle at equal distances from the sides *)
Lemma incenter_unique : forall A B C q r, ~ collinear3 A B C -> incircle A B C q r ->
  let a := dist B C in let b := dist A C in let c := dist A B in 0 < a -> 0 < b -> 0 < c ->
  q = P2 (wmean a b c (vx A) (vx B) (vx C)) (wmean a b c (vy A) (vy B) (vy C)) /\ r = Rabs (cross A B A C) / (a + b + c).
Proof.
  intros A B C q r Hn ((u & v & w & Pu & Pv & Pw & S & ->) & E0 & E1 & E2) a b c Pa Pb Pc. rewrite <- E1 in E2. rewrite <- E0 in E1. symmetry in E1, E2. rewrite <- E0. clear E0 r. unfold line_dist in *.
  assert (W : w = 1 - u - v) by lra. subst w.
  assert (X1 : cross A B A (P2 (u * vx A + v * vx B + (1 - u - v) * vx C) (u * vy A + v * vy B + (1 - u - v) * vy C)) = (1 - u - v) * cross A B A C) by (unfold cross; cbn [vx vy]; ring).
  assert (X2 : cross B C B (P2 (u * vx A + v * vx B + (1 - u - v) * vx C) (u * vy A + v * vy B + (1 - u - v) * vy C)) = u * cross A B A C) by (unfold cross; cbn [vx vy]; ring).
  assert (X3 : cross C A C (P2 (u * vx A + v * vx B + (1 - u - v) * vx C) (u * vy A + v * vy B + (1 - u - v) * vy C)) = v * cross A B A C) by (unfold cross; cbn [vx vy]; ring).
  rewrite X1, X2 in E1. rewrite X2, X3 in E2. rewrite X1. clear X1 X2 X3. rewrite (Rabs_mult (1 - u - v)), (Rabs_pos_eq (1 - u - v)) by lra. rewrite !Rabs_mult, (Rabs_pos_eq (1 - u - v)), (Rabs_pos_eq u) in E1 by lra.
  rewrite !Rabs_mult, (Rabs_pos_eq u), (Rabs_pos_eq v) in E2 by lra. unfold collinear3 in Hn. apply Rabs_pos_lt in Hn. set (D := Rabs (cross A B A C)) in *.
  rewrite (dist_comm C A) in E2. fold a b c in E1, E2.
  assert (Q1 : (1 - u - v) * a = u * c).
  { apply (f_equal (fun z => z * (a * c) / D)) in E1. replace ((1 - u - v) * D / c * (a * c) / D) with ((1 - u - v) * a) in E1 by (field; lra). replace (u * D / a * (a * c) / D) with (u * c) in E1 by (field; lra). exact E1. }
  assert (Q2 : u * b = v * a).
  { apply (f_equal (fun z => z * (a * b) / D)) in E2. replace (u * D / a * (a * b) / D) with (u * b) in E2 by (field; lra). replace (v * D / b * (a * b) / D) with (v * a) in E2 by (field; lra). exact E2. }
  assert (U : u = a / (a + b + c)).
  { apply Rmult_eq_reg_r with (a + b + c); [|lra]. replace (a / (a + b + c) * (a + b + c)) with a by (field; lra). lra. }
  assert (V : v = b / (a + b + c)).
  { apply Rmult_eq_reg_r with a; [|lra]. rewrite <- Q2, U. field. lra. }
  split; [|fold c; apply Rmult_eq_reg_r with c; [|lra]; replace ((1 - u - v) * D / c * c) with ((1 - u - v) * D) by (field; lra); rewrite U, V; field; lra].
  rewrite U, V. unfold wmean. f_equal; field; lra.
Qed.

(** The two parts of the result. *)
Lemma incenter_parts : forall (O : Ops) (a b c i : Vec2 O) (r : O), calculate_triangle_incenter a b c = Some (i, r) ->
  let sa := distance b c in let sb := distance a c in let sc := distance a b in
  let s := oadd (oadd sa sb) sc in let p := omul s chalf in
  i = P2 (omul (oadd (oadd (omul sa (vx a)) (omul sb (vx b))) (omul sc (vx c))) (odiv c1 s))
         (omul (oadd (oadd (omul sa (vy a)) (omul sb (vy b))) (omul sc (vy c))) (odiv c1 s)) /\
  r = odiv (osqrt (omul (omul (omul p (osub p sa)) (osub p sb)) (osub p sc))) p.
Proof.
  intros O a b c i r H. unfold calculate_triangle_incenter in H. destruct (is_degenerate_triangle a b c); [discriminate H|].
  injection H as <- <-. now split.
Qed.

Section Inc.
Variable lm : Libm.
Local Notation f := (single lm).
Local Notation F := (FO lm).

Lemma gam_lin : forall n, (n <= 16)%nat -> 1 <= (1 + u32) ^ n <= 1 + 100001 / 100000 * INR n * u32.
Proof. intros n H. do 17 (destruct n as [|n]; [cbn [pow INR]; unfold u32; lra|]). lia. Qed.
Lemma gam_lo : forall n, (n <= 16)%nat -> INR n * u32 <= (1 + u32) ^ n - 1.
Proof. intros n H. do 17 (destruct n as [|n]; [cbn [pow INR]; unfold u32; lra|]). lia. Qed.
Lemma room : forall n M, (n <= 16)%nat -> 0 <= M <= bpow radix2 126 -> (1 + u32) ^ n * M < bpow radix2 128.
Proof.
  intros n M Hn HM. pose proof (gam_lin n Hn) as G. assert (INR n <= 16) by (apply le_INR in Hn; replace (INR 16) with 16 in Hn by (cbn; ring); exact Hn).
  assert (INR n * u32 <= 1) by (unfold u32; lra). apply Rle_lt_trans with (3 * bpow radix2 126).
  - apply Rmult_le_compat; lra.
  - change 128%Z with (2 + 126)%Z. rewrite bpow_plus. change (bpow radix2 2) with 4. pose proof (bpow_gt_0 radix2 126). lra.
Qed.

(** ** Sides and perimeter *)
Lemma side_err : forall a b : Vec2 F, inbox a -> inbox b -> let d := dist (real_point a) (real_point b) in bpow radix2 (-40) <= d ->
  within (321 / 100 * u32 * d) (distance a b : f32) d.
Proof.
  intros a b Ha Hb d H. destruct (distance_box lm a b Ha Hb) as [Fd E]. split; [exact Fd|]. eapply Rle_trans; [exact E|]. fold d.
  assert (T : bpow radix2 (-73) <= / 100 * u32 * d).
  { apply Rle_trans with (bpow radix2 (-33) * bpow radix2 (-40)); [rewrite <- bpow_plus; apply bpow_le; lia|].
    apply Rmult_le_compat; try apply bpow_ge_0; [|exact H]. change (bpow radix2 (-33)) with (/ IZR 8589934592). unfold u32. lra. }
  lra.
Qed.
Lemma side_nr : forall a b : Vec2 F, inbox a -> inbox b -> let d := dist (real_point a) (real_point b) in bpow radix2 (-40) <= d ->
  nr f 4 d (distance a b : f32) d.
Proof.
  intros a b Ha Hb d H. destruct (side_err a b Ha Hb H) as [Fd E]. pose proof (bpow_gt_0 radix2 (-40)).
  split; [rewrite Rabs_pos_eq; [apply Rle_refl|]; unfold d in *; lra|]. split; [exact Fd|]. eapply Rle_trans; [exact E|]. rewrite u_eq. fold d.
  apply Rmult_le_compat_r; [unfold d in *; lra|]. unfold u32. cbn [pow]. lra.
Qed.
Lemma per_nr : forall (x y z : f32) a b c, nr f 4 a x a -> nr f 4 b y b -> nr f 4 c z c ->
  0 <= a <= bpow radix2 62 -> 0 <= b <= bpow radix2 62 -> 0 <= c <= bpow radix2 62 ->
  nr f 6 (a + b + c) (Bplus mode_NE (Bplus mode_NE x y) z) (a + b + c).
Proof.
  intros x y z a b c Hx Hy Hz Ba Bb Bc.
  assert (T : 4 * bpow radix2 62 <= bpow radix2 126) by (change 4 with (bpow radix2 2); rewrite <- bpow_plus; apply bpow_le; lia).
  apply (nr_add f).
  - apply (nr_add f); [exact Hx|exact Hy|]. rewrite u_eq, huge_eq. apply (room 5); [lia|lra].
  - apply (nr_mono f 4 5 c); [lia|lra|exact Hz].
  - rewrite u_eq, huge_eq. apply (room 6); [lia|lra].
Qed.
Lemma inv_nr : forall (p : f32) P, bpow radix2 (-39) <= P <= bpow radix2 64 -> nr f 6 P p P ->
  nr f 8 (/ P) (Bdiv mode_NE (c1 : F) p) (/ P).
Proof.
  intros p P HP (_ & Fp & Ep). rewrite u_eq in Ep. pose proof (bpow_gt_0 radix2 (-39)) as P39. assert (PP : 0 < P) by lra.
  assert (IP : 0 < / P) by now apply Rinv_0_lt_compat.
  assert (E1 : Rabs (B2R p - P) <= 601 / 100 * u32 * P).
  { eapply Rle_trans; [exact Ep|]. apply Rmult_le_compat_r; [lra|]. unfold u32. cbn [pow]. lra. }
  clear Ep. apply Rabs_le_inv in E1. assert (Pp : (1 - / 1000000) * P <= B2R p) by (unfold u32 in *; lra). assert (Qp : 0 < B2R p) by lra.
  set (k := / B2R p * P). assert (Pk : 0 < k) by (apply Rmult_lt_0_compat; [now apply Rinv_0_lt_compat|exact PP]).
  assert (Ek : k * B2R p = P) by (unfold k; field; lra).
  assert (K1 : Rabs (k - 1) <= 602 / 100 * u32).
  { apply Rabs_le. split.
    - apply Rmult_le_reg_r with (B2R p); [exact Qp|]. rewrite Rmult_minus_distr_r, Ek. unfold u32 in *. lra.
    - apply Rmult_le_reg_r with (B2R p); [exact Qp|]. rewrite Rmult_minus_distr_r, Ek. unfold u32 in *. lra. }
  assert (Ei : / B2R p = k * / P) by (unfold k; field; lra).
  assert (I64 : bpow radix2 (-64) <= / P) by (change (-64)%Z with (- (64))%Z; rewrite bpow_opp; apply Rinv_le_contravar; lra).
  assert (I39 : / P <= bpow radix2 39) by (change 39%Z with (- (-39))%Z; rewrite bpow_opp; apply Rinv_le_contravar; lra).
  assert (T150 : ur f * tiny f <= / 1000000 * u32 * / P).
  { rewrite u_eq, tiny_eq. replace (/ 1000000 * u32 * / P) with (u32 * (/ 1000000 * / P)) by ring. apply Rmult_le_compat_l; [unfold u32; lra|].
    apply Rle_trans with (bpow radix2 (-40) * bpow radix2 (-64)); [rewrite <- bpow_plus; apply bpow_le; lia|].
    apply Rmult_le_compat; try apply bpow_ge_0; [|exact I64]. change (bpow radix2 (-40)) with (/ IZR 1099511627776). lra. }
  assert (V1 : B2R (c1 : F) = 1) by (vm_compute; lra). assert (F1 : is_finite (c1 : F) = true) by reflexivity.
  pose proof (Rabs_le_inv _ _ K1) as K2.
  assert (BQ : Rabs (1 / B2R p) <= 2 * bpow radix2 39).
  { unfold Rdiv. rewrite Rmult_1_l, Ei, Rabs_pos_eq by (apply Rmult_le_pos; lra). apply Rmult_le_compat; [lra|lra|unfold u32 in *; lra|exact I39]. }
  split; [rewrite Rabs_pos_eq by lra; apply Rle_refl|].
  destruct (div_ok f (c1 : F) p F1 (Rgt_not_eq _ _ Qp)) as (Fq & d & e & Hd & He & Eq).
  { rewrite u_eq, huge_eq. match goal with |- Rabs ?z * _ + _ < _ => replace z with (1 / B2R p) by (symmetry; change (B2R (c1 : F) / B2R p = 1 / B2R p); now rewrite V1) end.
    rewrite u_eq in T150. assert (4 * bpow radix2 39 + bpow radix2 39 < bpow radix2 128).
    { apply Rlt_le_trans with (bpow radix2 3 * bpow radix2 39); [change (bpow radix2 3) with 8; pose proof (bpow_gt_0 radix2 39); lra|]. rewrite <- bpow_plus. apply bpow_le. lia. }
    pose proof (Rabs_pos (1 / B2R p)). assert (/ 1000000 * u32 * / P <= bpow radix2 39) by (unfold u32; lra). unfold u32 in *. lra. }
  split; [exact Fq|]. rewrite u_eq in *. 
  match goal with |- Rabs (?z - _) <= _ => replace z with (k * / P * (1 + d) + e) by (rewrite <- Ei; symmetry; etransitivity; [exact Eq|]; change (B2R (c1 : F) / B2R p * (1 + d) + e = / B2R p * (1 + d) + e); rewrite V1; unfold Rdiv; now rewrite Rmult_1_l) end.
  replace (k * / P * (1 + d) + e - / P) with (((k - 1) + k * d) * / P + e) by ring. eapply Rle_trans; [apply Rabs_triang|]. rewrite Rabs_mult, (Rabs_pos_eq (/ P)) by lra.
  assert (Rabs (k - 1 + k * d) <= 704 / 100 * u32).
  { eapply Rle_trans; [apply Rabs_triang|]. rewrite Rabs_mult, (Rabs_pos_eq k) by lra.
    assert (k * Rabs d <= (1 + 602 / 100 * u32) * u32) by (apply Rmult_le_compat; try apply Rabs_pos; lra). unfold u32 in *. lra. }
  apply Rle_trans with (705 / 100 * u32 * / P).
  - assert (Rabs (k - 1 + k * d) * / P <= 704 / 100 * u32 * / P) by (apply Rmult_le_compat_r; lra). assert (0 < u32 * / P) by (apply Rmult_lt_0_compat; [unfold u32; lra|exact IP]). lra.
  - apply Rmult_le_compat_r; [lra|]. unfold u32. cbn [pow]. lra.
Qed.

(** ** One coordinate of the incenter *)
Lemma coord_near : forall (sa sb sc x y z : f32) a b c, nr f 4 a sa a -> nr f 4 b sb b -> nr f 4 c sc c ->
  bpow radix2 (-40) <= a <= bpow radix2 62 -> bpow radix2 (-40) <= b <= bpow radix2 62 -> bpow radix2 (-40) <= c <= bpow radix2 62 ->
  is_finite x = true -> is_finite y = true -> is_finite z = true ->
  Rabs (B2R x) <= bpow radix2 60 -> Rabs (B2R y) <= bpow radix2 60 -> Rabs (B2R z) <= bpow radix2 60 ->
  within (17 * u32 * wmean a b c (Rabs (B2R x)) (Rabs (B2R y)) (Rabs (B2R z)) + bpow radix2 (-100))
    (Bmult mode_NE (Bplus mode_NE (Bplus mode_NE (Bmult mode_NE sa x) (Bmult mode_NE sb y)) (Bmult mode_NE sc z))
       (Bdiv mode_NE (c1 : F) (Bplus mode_NE (Bplus mode_NE sa sb) sc)))
    (wmean a b c (B2R x) (B2R y) (B2R z)).
Proof.
  intros sa sb sc x y z a b c Ha Hb Hc Ba Bb Bc Fx Fy Fz Bx By Bz. pose proof (bpow_gt_0 radix2 (-40)) as P40.
  set (P := a + b + c).
  assert (H62 : 3 * bpow radix2 62 <= bpow radix2 64) by (change 64%Z with (2 + 62)%Z; rewrite bpow_plus; change (bpow radix2 2) with 4; pose proof (bpow_gt_0 radix2 62); lra).
  assert (H39 : bpow radix2 (-39) = 2 * bpow radix2 (-40)) by (change (-39)%Z with (1 + -40)%Z; rewrite bpow_plus; reflexivity).
  assert (HP : bpow radix2 (-39) <= P <= bpow radix2 64) by (unfold P; lra). assert (PP : 0 < P) by lra.
  assert (IP : 0 < / P) by now apply Rinv_0_lt_compat.
  pose proof (per_nr sa sb sc a b c Ha Hb Hc ltac:(lra) ltac:(lra) ltac:(lra)) as Hp. fold P in Hp.
  pose proof (inv_nr _ P HP Hp) as Hi. clear Hp.
  assert (B62 : forall t, Rabs t <= bpow radix2 60 -> 0 <= Rabs t <= bpow radix2 62).
  { intros t Ht. split; [apply Rabs_pos|]. apply Rle_trans with (bpow radix2 60); [exact Ht|apply bpow_le; lia]. }
  pose proof (box_prod lm 4 0 _ _ _ _ _ _ ltac:(lia) ltac:(lia) Ha (nr_val f x Fx) ltac:(lra) (B62 _ Bx)) as M1.
  pose proof (box_prod lm 4 0 _ _ _ _ _ _ ltac:(lia) ltac:(lia) Hb (nr_val f y Fy) ltac:(lra) (B62 _ By)) as M2.
  pose proof (box_prod lm 4 0 _ _ _ _ _ _ ltac:(lia) ltac:(lia) Hc (nr_val f z Fz) ltac:(lra) (B62 _ Bz)) as M3.
  cbn [Nat.add] in M1, M2, M3. rewrite tiny_eq in M1, M2, M3. set (t := bpow radix2 (-126)) in *. assert (Pt : 0 < t) by apply bpow_gt_0.
  change (nr f 5 (a * Rabs (B2R x) + t) (Bmult mode_NE sa x) (a * B2R x)) in M1.
  change (nr f 5 (b * Rabs (B2R y) + t) (Bmult mode_NE sb y) (b * B2R y)) in M2.
  change (nr f 5 (c * Rabs (B2R z) + t) (Bmult mode_NE sc z) (c * B2R z)) in M3.
  assert (S60 : forall s v, 0 <= s -> Rabs v <= bpow radix2 60 -> 0 <= s * Rabs v <= s * bpow radix2 60).
  { intros s v Hs Hv. split; [apply Rmult_le_pos; [exact Hs|apply Rabs_pos]|now apply Rmult_le_compat_l]. }
  pose proof (S60 a _ ltac:(lra) Bx) as S1. pose proof (S60 b _ ltac:(lra) By) as S2. pose proof (S60 c _ ltac:(lra) Bz) as S3.
  set (ax := a * Rabs (B2R x)) in *. set (by' := b * Rabs (B2R y)) in *. set (cz := c * Rabs (B2R z)) in *.
  assert (SP : ax + by' + cz <= P * bpow radix2 60) by (unfold P; lra).
  assert (T1 : t <= 1) by (change 1 with (bpow radix2 0); apply bpow_le; lia).
  assert (M125 : P * bpow radix2 60 + 3 <= bpow radix2 126).
  { apply Rle_trans with (bpow radix2 124 + bpow radix2 124); [|change 126%Z with (2 + 124)%Z; rewrite bpow_plus; change (bpow radix2 2) with 4; pose proof (bpow_gt_0 radix2 124); lra].
    apply Rplus_le_compat; [change 124%Z with (64 + 60)%Z; rewrite bpow_plus; apply Rmult_le_compat_r; [apply bpow_ge_0|lra]|].
    apply Rle_trans with (bpow radix2 2); [change (bpow radix2 2) with 4; lra|apply bpow_le; lia]. }
  assert (N : nr f 7 (ax + t + (by' + t) + (cz + t)) (Bplus mode_NE (Bplus mode_NE (Bmult mode_NE sa x) (Bmult mode_NE sb y)) (Bmult mode_NE sc z)) (a * B2R x + b * B2R y + c * B2R z)).
  { apply (nr_add f).
    - apply (nr_add f); [exact M1|exact M2|]. rewrite u_eq, huge_eq. apply (room 6); [lia|lra].
    - apply (nr_mono f 5 6 (cz + t)); [lia|lra|exact M3].
    - rewrite u_eq, huge_eq. apply (room 7); [lia|lra]. }
  set (S := ax + t + (by' + t) + (cz + t)) in *. set (W := wmean a b c (Rabs (B2R x)) (Rabs (B2R y)) (Rabs (B2R z))).
  assert (ES : S * / P = W + 3 * t * / P) by (unfold S, W, wmean, ax, by', cz; fold P; field; lra).
  assert (I39 : / P <= bpow radix2 39) by (change 39%Z with (- (-39))%Z; rewrite bpow_opp; apply Rinv_le_contravar; lra).
  assert (TP : 0 <= 3 * t * / P <= bpow radix2 (-85)).
  { split; [apply Rmult_le_pos; lra|]. apply Rle_trans with (bpow radix2 2 * t * bpow radix2 39).
    - apply Rmult_le_compat; try lra. change (bpow radix2 2) with 4. lra.
    - unfold t. rewrite <- !bpow_plus. apply bpow_le. lia. }
  assert (W0 : 0 <= W <= bpow radix2 60).
  { replace W with ((ax + by' + cz) * / P) by reflexivity. split; [apply Rmult_le_pos; lra|].
    apply Rmult_le_reg_r with P; [exact PP|]. replace ((ax + by' + cz) * / P * P) with (ax + by' + cz) by (field; lra). lra. }
  assert (T85 : bpow radix2 (-85) <= 1) by (change 1 with (bpow radix2 0); apply bpow_le; lia).
  pose proof (nr_mul f _ _ _ _ _ _ _ _ N Hi) as R. rewrite u_eq, huge_eq, tiny_eq in R. fold t in R. cbn [Nat.add] in R.
  destruct R as (_ & FR & ER).
  { apply (room 16); [lia|]. rewrite ES. split; [lra|]. apply Rle_trans with (bpow radix2 60 + 2); [lra|]. apply Rle_trans with (bpow radix2 60 + bpow radix2 60).
    - apply Rplus_le_compat_l. change 2 with (bpow radix2 1). apply bpow_le. lia.
    - replace (bpow radix2 60 + bpow radix2 60) with (bpow radix2 1 * bpow radix2 60) by (change (bpow radix2 1) with 2; ring). rewrite <- bpow_plus. apply bpow_le. lia. }
  split; [exact FR|]. rewrite u_eq, ES in ER.
  replace (wmean a b c (B2R x) (B2R y) (B2R z)) with ((a * B2R x + b * B2R y + c * B2R z) * / P) by reflexivity.
  eapply Rle_trans; [exact ER|]. pose proof (gam_lin 16 ltac:(lia)) as G. replace (INR 16) with 16 in G by (cbn; ring).
  assert (T126 : t <= bpow radix2 (-85)) by (apply bpow_le; lia).
  apply Rle_trans with (17 * u32 * (W + bpow radix2 (-85) + bpow radix2 (-85))).
  - apply Rmult_le_compat; lra.
  - assert (17 * u32 * (2 * bpow radix2 (-85)) <= bpow radix2 (-100)); [|lra].
    apply Rle_trans with (bpow radix2 (-19) * (bpow radix2 1 * bpow radix2 (-85))).
    + apply Rmult_le_compat; [unfold u32; lra|pose proof (bpow_ge_0 radix2 (-85)); lra|unfold u32; change (bpow radix2 (-19)) with (/ IZR 524288); lra|]. change (bpow radix2 1) with 2. lra.
    + rewrite <- !bpow_plus. apply bpow_le. lia.
Qed.

Theorem incenter_error : forall (a b c : Vec2 F) i r, inbox a -> inbox b -> inbox c ->
  let A := real_point a in let B := real_point b in let C := real_point c in
  bpow radix2 (-40) <= dist B C -> bpow radix2 (-40) <= dist A C -> bpow radix2 (-40) <= dist A B ->
  calculate_triangle_incenter a b c = Some (i, r) ->
  let w := wmean (dist B C) (dist A C) (dist A B) in
  within (17 * u32 * w (Rabs (vx A)) (Rabs (vx B)) (Rabs (vx C)) + bpow radix2 (-100)) (vx i : f32) (w (vx A) (vx B) (vx C)) /\
  within (17 * u32 * w (Rabs (vy A)) (Rabs (vy B)) (Rabs (vy C)) + bpow radix2 (-100)) (vy i : f32) (w (vy A) (vy B) (vy C)).
Proof.
  intros a b c i r Ia Ib Ic A B C Ha Hb Hc H w. destruct (incenter_parts _ _ _ _ _ _ H) as (-> & _). clear H. cbn [vx vy].
  pose proof (side_nr b c Ib Ic Ha) as Na. pose proof (side_nr a c Ia Ic Hb) as Nb. pose proof (side_nr a b Ia Ib Hc) as Nc.
  pose proof (inbox_dist lm b c Ib Ic). pose proof (inbox_dist lm a c Ia Ic). pose proof (inbox_dist lm a b Ia Ib).
  destruct Ia as ([Fax Fay] & Bax & Bay), Ib as ([Fbx Fby] & Bbx & Bby), Ic as ([Fcx Fcy] & Bcx & Bcy).
  split; apply coord_near; auto.
Qed.

(** ** The degeneracy test *)
Lemma deg_side : forall (x y z : f32) a b c, within (321 / 100 * u32 * a) x a -> within (321 / 100 * u32 * b) y b -> within (321 / 100 * u32 * c) z c ->
  0 <= a <= bpow radix2 62 -> 0 <= b <= bpow radix2 62 -> 0 <= c <= bpow radix2 62 ->
  9 / 2 * u32 * (a + b + c) < a + b - c -> Bleb (Bplus mode_NE x y) z = false.
Proof.
  intros x y z a b c [Fx Ex] [Fy Ey] [Fz Ez] Ba Bb Bc H. apply Rabs_le_inv in Ex, Ey, Ez.
  assert (T : 4 * bpow radix2 62 < bpow radix2 128) by (change 4 with (bpow radix2 2); rewrite <- bpow_plus; apply bpow_lt; lia).
  destruct (add_ok f x y Fx Fy) as (Fs & d & Hd & Es).
  { rewrite u_eq, huge_eq. apply Rle_lt_trans with (4 * bpow radix2 62); [|exact T]. rewrite Rabs_pos_eq.
    - match goal with |- ?s * _ <= _ => change s with (B2R x + B2R y) end. unfold u32 in *. lra.
    - match goal with |- _ <= ?s => change s with (B2R x + B2R y) end. unfold u32 in *. lra. }
  rewrite u_eq in Hd. apply Rabs_le_inv in Hd.
  rewrite Bleb_correct by assumption. apply Rle_bool_false.
  match goal with |- _ < ?s => replace s with ((B2R x + B2R y) * (1 + d)) by (symmetry; exact Es) end.
  set (s := B2R x + B2R y) in *. assert (S1 : (1 - 321 / 100 * u32) * (a + b) <= s) by (unfold s; lra).
  apply Rlt_le_trans with (s * (1 - u32)).
  - assert ((1 - 321 / 100 * u32) * (a + b) * (1 - u32) <= s * (1 - u32)) by (apply Rmult_le_compat_r; [unfold u32; lra|exact S1]).
    unfold u32 in *. lra.
  - apply Rmult_le_compat_l; [unfold u32 in *; lra|lra].
Qed.
Theorem degenerate_error : forall a b c : Vec2 F, inbox a -> inbox b -> inbox c ->
  let sa := dist (real_point b) (real_point c) in let sb := dist (real_point a) (real_point c) in let sc := dist (real_point a) (real_point b) in
  bpow radix2 (-40) <= sa -> bpow radix2 (-40) <= sb -> bpow radix2 (-40) <= sc -> let m := 9 / 2 * u32 * (sa + sb + sc) in
  m < sa + sb - sc -> m < sa + sc - sb -> m < sb + sc - sa -> is_degenerate_triangle a b c = false.
Proof.
  intros a b c Ia Ib Ic sa sb sc Ha Hb Hc m H1 H2 H3. unfold is_degenerate_triangle.
  pose proof (side_err b c Ib Ic Ha) as Na. pose proof (side_err a c Ia Ic Hb) as Nb. pose proof (side_err a b Ia Ib Hc) as Nc.
  pose proof (inbox_dist lm b c Ib Ic) as Ba. pose proof (inbox_dist lm a c Ia Ic) as Bb. pose proof (inbox_dist lm a b Ia Ib) as Bc.
  fold sa in Na, Ba. fold sb in Nb, Bb. fold sc in Nc, Bc. pose proof (bpow_gt_0 radix2 (-40)).
  pose proof (deg_side _ _ _ _ _ _ Na Nb Nc ltac:(lra) ltac:(lra) ltac:(lra) H1) as D1.
  pose proof (deg_side _ _ _ _ _ _ Na Nc Nb ltac:(lra) ltac:(lra) ltac:(lra) ltac:(unfold m in *; lra)) as D2.
  pose proof (deg_side _ _ _ _ _ _ Nb Nc Na ltac:(lra) ltac:(lra) ltac:(lra) ltac:(unfold m in *; lra)) as D3.
  match goal with |- (if ?t then _ else _) = _ => assert (E : t = false) end; [|now rewrite E].
  apply orb_false_intro; [apply orb_false_intro|]; assumption.
Qed.
End Inc.
