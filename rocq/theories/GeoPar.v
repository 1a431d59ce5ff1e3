(** * The parallel test in f32. *)
From Coq Require Import ZArith Reals List Bool Lia Lra Psatz Arith.
From Flocq Require Import Core.Core IEEE754.BinarySingleNaN.
From Verif Require Import Scalar Utils PlaneSpec F32 Laws PolyF32 GeoSpec Format RoundSpec Rounding NearCalc GeoRound GeoOn GeoPoly GeoSeg GeoCons GeoInc.
Local Open Scope R_scope.
Local Notation cross := PlaneSpec.cross.

Lemma normalize_dot_eq : forall (O : Ops) (a b c d : Vec2 O), normalize_dot (p_sub b a) (p_sub d c) =
  oadd (omul (odiv (osub (vx b) (vx a)) (distance a b)) (odiv (osub (vx d) (vx c)) (distance c d)))
       (omul (odiv (osub (vy b) (vy a)) (distance a b)) (odiv (osub (vy d) (vy c)) (distance c d))).
Proof. reflexivity. Qed.

Lemma parallel_eq : forall (O : Ops) (a b c d : Vec2 O), parallel a b c d = olt (oabs (osub (oabs (normalize_dot (p_sub b a) (p_sub d c))) c1)) ceps.
Proof. intros. unfold parallel. now destruct (olt _ _). Qed.

Section Par.
Variable lm : Libm.
Local Notation f := (single lm).
Local Notation F := (FO lm).

(** A component of a normalised vector. *)
Lemma unit_nr : forall (x l : f32) X L, nr f 1 (Rabs X) x X -> within (321 / 100 * u32 * L) l L -> 0 < L -> Rabs X <= L ->
  nr f 6 (Rabs X / L + tiny f) (Bdiv mode_NE x l) (X / L).
Proof.
  intros x l X L (_ & Fx & Ex) [Fl El] PL HX. rewrite u_eq in Ex. cbn [pow] in Ex. rewrite Rmult_1_r in Ex. replace (1 + u32 - 1) with u32 in Ex by ring.
  pose proof (tiny_pos f) as Pt. apply Rabs_le_inv in El.
  assert (Pl : (1 - / 1000000) * L <= B2R l) by (unfold u32 in *; lra). assert (Ql : 0 < B2R l) by lra.
  set (w := X / L). assert (EX : X = w * L) by (unfold w; field; lra).
  assert (Aw : Rabs X / L = Rabs w) by (unfold w, Rdiv; rewrite Rabs_mult, (Rabs_pos_eq (/ L)); [reflexivity|now apply Rlt_le, Rinv_0_lt_compat]).
  assert (W1 : 0 <= Rabs w <= 1) by (split; [apply Rabs_pos|rewrite <- Aw; apply Rmult_le_reg_r with L; [exact PL|]; replace (Rabs X / L * L) with (Rabs X) by (field; lra); lra]).
  assert (Q : Rabs (B2R x / B2R l - w) <= 422 / 100 * u32 * Rabs w).
  { replace (B2R x / B2R l - w) with (((B2R x - X) - w * (B2R l - L)) * / B2R l) by (rewrite EX; field; lra).
    rewrite Rabs_mult, (Rabs_pos_eq (/ B2R l)) by (now apply Rlt_le, Rinv_0_lt_compat). apply Rmult_le_reg_r with (B2R l); [exact Ql|].
    rewrite Rmult_assoc, Rinv_l, Rmult_1_r by lra.
    assert (A1 : Rabs (B2R x - X) <= u32 * (Rabs w * L)) by (rewrite <- (Rabs_pos_eq L) at 1 by lra; rewrite <- Rabs_mult, <- EX; exact Ex).
    assert (A2 : Rabs (w * (B2R l - L)) <= Rabs w * (321 / 100 * u32 * L)) by (rewrite Rabs_mult; apply Rmult_le_compat_l; [lra|apply Rabs_le; lra]).
    unfold Rminus at 1. eapply Rle_trans; [apply Rabs_triang|]. rewrite Rabs_Ropp.
    apply Rle_trans with (422 / 100 * u32 * Rabs w * ((1 - / 1000000) * L)); [|apply Rmult_le_compat_l; [apply Rmult_le_pos; [unfold u32; lra|lra]|exact Pl]].
    assert (0 <= u32 * (Rabs w * L)) by (apply Rmult_le_pos; [unfold u32; lra|apply Rmult_le_pos; lra]). lra. }
  assert (BQ : Rabs (B2R x / B2R l) <= 2).
  { replace (B2R x / B2R l) with (w + (B2R x / B2R l - w)) by ring. eapply Rle_trans; [apply Rabs_triang|]. unfold u32 in *. lra. }
  rewrite Aw. split; [fold w; lra|].
  destruct (div_ok f x l Fx (Rgt_not_eq _ _ Ql)) as (Fq & d & e & Hd & He & Eq).
  { rewrite u_eq, huge_eq, tiny_eq. apply Rle_lt_trans with (2 * (1 + u32) + u32 * 1).
    - apply Rplus_le_compat; [apply Rmult_le_compat_r; [unfold u32; lra|exact BQ]|]. apply Rmult_le_compat_l; [unfold u32; lra|]. change 1 with (bpow radix2 0). apply bpow_le. lia.
    - apply Rlt_le_trans with (bpow radix2 2); [change (bpow radix2 2) with 4; unfold u32; lra|apply bpow_le; lia]. }
  split; [exact Fq|]. fold w. rewrite u_eq in *. set (y := B2R x / B2R l) in *.
  match goal with |- Rabs (?z - _) <= _ => replace z with (y * (1 + d) + e) by (symmetry; exact Eq) end.
  replace (y * (1 + d) + e - w) with ((y - w) + (w + (y - w)) * d + e) by ring.
  assert (Y : Rabs ((w + (y - w)) * d) <= (1 + 422 / 100 * u32) * Rabs w * u32).
  { rewrite Rabs_mult. apply Rmult_le_compat; try apply Rabs_pos; [|exact Hd]. eapply Rle_trans; [apply Rabs_triang|]. lra. }
  eapply Rle_trans; [apply Rabs_triang|]. eapply Rle_trans; [apply Rplus_le_compat; [apply Rabs_triang|exact He]|].
  apply Rle_trans with (523 / 100 * u32 * Rabs w + u32 * tiny f); [unfold u32 in *; lra|].
  assert (G : 6 * u32 <= (1 + u32) ^ 6 - 1) by (unfold u32; cbn [pow]; lra).
  apply Rle_trans with (6 * u32 * (Rabs w + tiny f)); [|apply Rmult_le_compat_r; lra]. unfold u32. lra.
Qed.

(** The absolute dot product of the two rounded unit vectors, against the cosine. *)
Lemma normalize_dot_near : forall a b c d : Vec2 F, inbox a -> inbox b -> inbox c -> inbox d ->
  let A := real_point a in let B := real_point b in let C := real_point c in let D := real_point d in
  bpow radix2 (-40) <= dist A B -> bpow radix2 (-40) <= dist C D ->
  within (1401 / 100 * u32) (normalize_dot (p_sub b a) (p_sub d c) : f32) (dot A B C D / (dist A B * dist C D)).
Proof.
  intros a b c d Ia Ib Ic Id A B C D H1 H2. pose proof (bpow_gt_0 radix2 (-40)) as P40.
  pose proof (side_err lm a b Ia Ib H1) as E1. pose proof (side_err lm c d Ic Id H2) as E2.
  rewrite normalize_dot_eq. revert E1 E2. generalize (distance a b : f32) (distance c d : f32). intros l1 l2 E1 E2.
  destruct Ia as ([Fax Fay] & Bax & Bay), Ib as ([Fbx Fby] & Bbx & Bby), Ic as ([Fcx Fcy] & Bcx & Bcy), Id as ([Fdx Fdy] & Bdx & Bdy).
  destruct (box_diff lm _ _ Fbx Fax Bbx Bax) as [D1 _]. destruct (box_diff lm _ _ Fby Fay Bby Bay) as [D2 _].
  destruct (box_diff lm _ _ Fdx Fcx Bdx Bcx) as [D3 _]. destruct (box_diff lm _ _ Fdy Fcy Bdy Bcy) as [D4 _].
  fold A B C D in E1, E2. set (L := dist A B) in *. set (M := dist C D) in *. assert (PL : 0 < L) by lra. assert (PM : 0 < M) by lra.
  pose proof (dist_sq A B) as S1. pose proof (dist_sq C D) as S2. fold L in S1. fold M in S2.
  change (vx B - vx A) with (B2R (vx b) - B2R (vx a)) in S1. change (vy B - vy A) with (B2R (vy b) - B2R (vy a)) in S1.
  change (vx D - vx C) with (B2R (vx d) - B2R (vx c)) in S2. change (vy D - vy C) with (B2R (vy d) - B2R (vy c)) in S2.
  set (X1 := B2R (vx b) - B2R (vx a)) in *. set (Y1 := B2R (vy b) - B2R (vy a)) in *. set (X2 := B2R (vx d) - B2R (vx c)) in *. set (Y2 := B2R (vy d) - B2R (vy c)) in *.
  assert (AB : forall x y z, z * z = x * x + y * y -> 0 < z -> Rabs x <= z) by (intros x y z G1 G2; apply sq_le; [lra|]; rewrite <- Rabs_mult, Rabs_pos_eq by apply Rle_0_sqr; pose proof (Rle_0_sqr y); unfold Rsqr in *; lra).
  assert (SW : forall x y z, z = x + y -> z = y + x) by (intros; lra).
  pose proof (unit_nr _ _ _ _ D1 E1 PL (AB _ _ _ S1 PL)) as N1. pose proof (unit_nr _ _ _ _ D2 E1 PL (AB _ _ _ (SW _ _ _ S1) PL)) as N2.
  pose proof (unit_nr _ _ _ _ D3 E2 PM (AB _ _ _ S2 PM)) as N3. pose proof (unit_nr _ _ _ _ D4 E2 PM (AB _ _ _ (SW _ _ _ S2) PM)) as N4.
  rewrite tiny_eq in N1, N2, N3, N4. set (t := bpow radix2 (-126)) in *. assert (Pt : 0 < t) by apply bpow_gt_0. assert (T : t <= / 1000000) by (apply Rle_trans with (bpow radix2 (-20)); [apply bpow_le; lia|change (bpow radix2 (-20)) with (/ IZR 1048576); lra]).
  assert (UN : forall x y z, z * z = x * x + y * y -> 0 < z -> Rabs x / z * (Rabs x / z) + Rabs y / z * (Rabs y / z) = 1).
  { intros x y z G1 G2. replace (Rabs x / z * (Rabs x / z) + Rabs y / z * (Rabs y / z)) with ((Rabs x * Rabs x + Rabs y * Rabs y) / (z * z)) by (field; lra).
    rewrite <- !Rabs_mult, !Rabs_pos_eq by apply Rle_0_sqr. rewrite G1. field. rewrite <- G1. apply Rgt_not_eq, Rmult_lt_0_compat; lra. }
  pose proof (UN _ _ _ S1 PL) as U1. pose proof (UN _ _ _ S2 PM) as U2.
  assert (PN : forall x z, 0 < z -> 0 <= Rabs x / z) by (intros x z G; apply Rmult_le_pos; [apply Rabs_pos|now apply Rlt_le, Rinv_0_lt_compat]).
  pose proof (PN X1 L PL) as Z1. pose proof (PN Y1 L PL) as Z2. pose proof (PN X2 M PM) as Z3. pose proof (PN Y2 M PM) as Z4.
  set (p1 := Rabs X1 / L) in *. set (q1 := Rabs Y1 / L) in *. set (p2 := Rabs X2 / M) in *. set (q2 := Rabs Y2 / M) in *.
  assert (LE : forall x y, 0 <= x -> x * x + y * y = 1 -> x <= 1) by (intros x y G1 G2; apply sq_le; [lra|]; pose proof (Rle_0_sqr y); unfold Rsqr in *; lra).
  assert (L1 : p1 <= 1 /\ q1 <= 1 /\ p2 <= 1 /\ q2 <= 1) by (repeat split; eapply LE; eauto; rewrite Rplus_comm; eauto). destruct L1 as (L1 & L2 & L3 & L4).
  assert (CS : p1 * p2 + q1 * q2 <= 1) by (pose proof (Rle_0_sqr (p1 - p2)); pose proof (Rle_0_sqr (q1 - q2)); unfold Rsqr in *; lra).
  assert (M1 : nr f 13 (p1 * p2 + 4 * t) (Bmult mode_NE (Bdiv mode_NE (Bminus mode_NE (vx b) (vx a)) l1) (Bdiv mode_NE (Bminus mode_NE (vx d) (vx c)) l2)) (X1 / L * (X2 / M))).
  { apply (nr_mono f 13 13 ((p1 + t) * (p2 + t) + tiny f)); [lia|rewrite tiny_eq; fold t; nra|]. apply (nr_mul f 6 6); [exact N1|exact N3|]. rewrite u_eq, huge_eq, tiny_eq. fold t.
    apply (room 13); [lia|]. assert (0 <= (p1 + t) * (p2 + t) <= 2 * 2 /\ 0 <= (q1 + t) * (q2 + t) <= 2 * 2) by (repeat split; try apply Rmult_le_pos; try apply Rmult_le_compat; lra). split; [lra|]. apply Rle_trans with (bpow radix2 3); [change (bpow radix2 3) with 8; lra|apply bpow_le; lia]. }
  assert (M2 : nr f 13 (q1 * q2 + 4 * t) (Bmult mode_NE (Bdiv mode_NE (Bminus mode_NE (vy b) (vy a)) l1) (Bdiv mode_NE (Bminus mode_NE (vy d) (vy c)) l2)) (Y1 / L * (Y2 / M))).
  { apply (nr_mono f 13 13 ((q1 + t) * (q2 + t) + tiny f)); [lia|rewrite tiny_eq; fold t; nra|]. apply (nr_mul f 6 6); [exact N2|exact N4|]. rewrite u_eq, huge_eq, tiny_eq. fold t.
    apply (room 13); [lia|]. assert (0 <= (p1 + t) * (p2 + t) <= 2 * 2 /\ 0 <= (q1 + t) * (q2 + t) <= 2 * 2) by (repeat split; try apply Rmult_le_pos; try apply Rmult_le_compat; lra). split; [lra|]. apply Rle_trans with (bpow radix2 3); [change (bpow radix2 3) with 8; lra|apply bpow_le; lia]. }
  assert (N0 : 0 <= p1 * p2 /\ 0 <= q1 * q2) by (split; apply Rmult_le_pos; assumption).
  pose proof (nr_add f 13 _ _ _ _ _ _ M1 M2) as S. rewrite u_eq, huge_eq in S. destruct S as (_ & FS & ES).
  { apply (room 14); [lia|]. split; [lra|]. apply Rle_trans with (bpow radix2 3); [change (bpow radix2 3) with 8; lra|apply bpow_le; lia]. }
  split; [exact FS|]. rewrite u_eq in ES.
  replace (dot A B C D / (L * M)) with (X1 / L * (X2 / M) + Y1 / L * (Y2 / M)) by (unfold dot; change (vx B - vx A) with X1; change (vy B - vy A) with Y1; change (vx D - vx C) with X2; change (vy D - vy C) with Y2; field; lra).
  eapply Rle_trans; [exact ES|].
  pose proof (gam_lin 14 ltac:(lia)) as G. replace (INR 14) with 14 in G by (cbn; ring).
  apply Rle_trans with (100001 / 100000 * 14 * u32 * (1 + / 100000)).
  - apply Rmult_le_compat; lra.
  - unfold u32. lra.
Qed.

Theorem parallel_sound_f32 : forall a b c d : Vec2 F, inbox a -> inbox b -> inbox c -> inbox d ->
  let A := real_point a in let B := real_point b in let C := real_point c in let D := real_point d in
  bpow radix2 (-40) <= dist A B -> bpow radix2 (-40) <= dist C D -> parallel a b c d = true ->
  (1 - 17 * u32) * (dist A B * dist C D) <= Rabs (dot A B C D) /\ Rabs (cross A B C D) <= 3 / 2000 * (dist A B * dist C D).
Proof.
  intros a b c d Ia Ib Ic Id A B C D H1 H2 H. pose proof (bpow_gt_0 radix2 (-40)) as P40.
  destruct (normalize_dot_near a b c d Ia Ib Ic Id H1 H2) as [FN EN]. rewrite parallel_eq in H.
  fold A B C D in EN. revert EN FN H. generalize (normalize_dot (p_sub b a) (p_sub d c)). intros n; change (car F) with f32 in n; intros EN FN H.
  set (K := dist A B * dist C D) in *. assert (PK : 0 < K) by (unfold K; apply Rmult_lt_0_compat; lra).
  assert (CK : cross A B C D * cross A B C D + dot A B C D * dot A B C D = K * K).
  { replace (K * K) with ((dist A B * dist A B) * (dist C D * dist C D)) by (unfold K; ring). rewrite !dist_sq. unfold cross, dot. ring. }
  set (g := dot A B C D) in *. set (w := g / K) in *. assert (Eg : g = w * K) by (unfold w; field; lra).
  assert (W1 : Rabs w <= 1).
  { apply sq_le; [lra|]. rewrite <- Rabs_mult, Rabs_pos_eq by apply Rle_0_sqr. apply Rmult_le_reg_r with (K * K); [apply Rmult_lt_0_compat; lra|].
    pose proof (Rle_0_sqr (cross A B C D)) as Q. unfold Rsqr in Q. rewrite Eg in CK. lra. }
  assert (NB : Rabs (B2R n) <= 2).
  { replace (B2R n) with (w + (B2R n - w)) by ring. eapply Rle_trans; [apply Rabs_triang|]. unfold u32 in *. lra. }
  assert (FA : is_finite (Babs n) = true) by now rewrite is_finite_Babs. assert (EA : B2R (Babs n) = Rabs (B2R n)) by apply B2R_Babs.
  assert (V1 : B2R (c1 : F) = 1) by (vm_compute; lra). assert (F1 : is_finite (c1 : F) = true) by reflexivity.
  assert (SB : Rabs (Rabs (B2R n) - 1) <= 1) by (pose proof (Rabs_pos (B2R n)); apply Rabs_le; lra).
  destruct (sub_ok f (Babs n) (c1 : F) FA F1) as (Fs & e & He & Es).
  { rewrite u_eq, huge_eq. match goal with |- Rabs ?z * _ < _ => replace z with (Rabs (B2R n) - 1) by (symmetry; change (B2R (Babs n) - B2R (c1 : F) = Rabs (B2R n) - 1); now rewrite EA, V1) end.
    apply Rle_lt_trans with (bpow radix2 1); [change (bpow radix2 1) with 2; unfold u32; lra|apply bpow_lt; lia]. }
  assert (H' : Bltb (Babs (Bminus mode_NE (Babs n) (c1 : F))) (ceps : F) = true).
  { exact H. }
  clear H. destruct (eps_val lm) as [Fe Ee]. rewrite Bltb_correct in H'; [|now rewrite is_finite_Babs|exact Fe].
  match type of H' with Rlt_bool ?x ?y = true => pose proof (Rlt_bool_spec x y) as SP; rewrite H' in SP; inversion SP as [LT|]; clear H' SP; rename LT into H' end.
  assert (L : Rabs ((Rabs (B2R n) - 1) * (1 + e)) < eps32).
  { rewrite B2R_Babs in H'. match type of H' with Rabs ?z < ?y => replace z with ((Rabs (B2R n) - 1) * (1 + e)) in H' by (symmetry; etransitivity; [exact Es|]; change ((B2R (Babs n) - B2R (c1 : F)) * (1 + e) = (Rabs (B2R n) - 1) * (1 + e)); now rewrite EA, V1); replace y with eps32 in H' by (symmetry; exact Ee) end. exact H'. }
  rewrite Rabs_mult in L. rewrite u_eq in He. apply Rabs_le_inv in He. rewrite (Rabs_pos_eq (1 + e)) in L by (unfold u32 in *; lra).
  assert (L2 : Rabs (Rabs (B2R n) - 1) <= 201 / 100 * u32).
  { rewrite eps_num in L. apply Rnot_lt_le. intros G. assert (201 / 100 * u32 * (1 - u32) <= Rabs (Rabs (B2R n) - 1) * (1 + e)) by (apply Rmult_le_compat; unfold u32 in *; lra). unfold u32 in *. lra. }
  assert (L3 : 1 - 17 * u32 <= Rabs w).
  { pose proof (Rabs_triang_inv (B2R n) w). apply Rabs_le_inv in L2. unfold u32 in *. lra. }
  split.
  - rewrite Eg, Rabs_mult, (Rabs_pos_eq K) by lra. apply Rmult_le_compat_r; lra.
  - apply sq_le; [lra|]. rewrite <- Rabs_mult, Rabs_pos_eq by apply Rle_0_sqr. rewrite Eg in CK.
    assert (WW : (1 - 17 * u32) * (1 - 17 * u32) <= w * w) by (rewrite <- (Rabs_pos_eq (w * w)) by apply Rle_0_sqr; rewrite Rabs_mult; apply Rmult_le_compat; unfold u32 in *; lra).
    assert (PKK : 0 < K * K) by (apply Rmult_lt_0_compat; lra). replace (w * K * (w * K)) with (w * w * (K * K)) in CK by ring.
    assert ((1 - 17 * u32) * (1 - 17 * u32) * (K * K) <= w * w * (K * K)) by (apply Rmult_le_compat_r; lra). unfold u32 in *. lra.
Qed.
End Par.
