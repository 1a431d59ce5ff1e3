(** * Polygon::new, area and center in f32 on small integer grids. *)
From Coq Require Import ZArith Reals List Bool Lia Lra Psatz Arith.
From Flocq Require Import Core.Core IEEE754.BinarySingleNaN.
From Verif Require Import Scalar Utils Polygon PlaneSpec PolySpec F32 Laws PolyArea PolyDiag PolyF32.
Import ListNotations.
Local Open Scope R_scope.

(** Both coordinates are integers of magnitude at most [K], times 2^e. *)
Definition grid_num_le (K e : Z) (x : f32) : Prop :=
  is_finite x = true /\ exists k, (Z.abs k <= K)%Z /\ B2R x = IZR k * bpow radix2 e.
Definition grid_le (K e : Z) (p : Vec2 f32) : Prop := grid_num_le K e (vx p) /\ grid_num_le K e (vy p).

(** The sums that Polygon::new forms for [n] vertices stay within 2^24 grid units. *)
Definition small (K : Z) (n : nat) : Prop :=
  (1 <= K <= 2048)%Z /\ (4 * (K * K) * (Z.of_nat n - 2) <= 16777216)%Z.

Lemma grid_le_grid : forall K e p, (K <= 2048)%Z -> grid_le K e p -> grid e p.
Proof.
  intros K e p HK [[F1 (k1 & B1 & E1)] [F2 (k2 & B2 & E2)]].
  split; (split; [assumption|]); [exists k1|exists k2]; (split; [lia|assumption]).
Qed.

Section NewGrid.
Context (lm : Libm) (e : Z) (He : (-74 <= e <= 51)%Z) (K : Z) (HK : (1 <= K <= 2048)%Z).
Local Notation area2F := (area2 (O := FO lm)).

Lemma area2_le : forall a b c, grid_le K e a -> grid_le K e b -> grid_le K e c ->
  exists k, (Z.abs k <= 4 * (K * K))%Z /\ rel (e + e) (area2F a b c) k /\
    @eq R (area2 (O := RO) (toR a) (toR b) (toR c)) (IZR k * bpow radix2 (e + e)).
Proof.
  intros a b c Ha Hb Hc.
  assert (HK2 : (K <= 2048)%Z) by lia.
  destruct (area2_exact lm e He a b c (grid_le_grid _ _ _ HK2 Ha) (grid_le_grid _ _ _ HK2 Hb) (grid_le_grid _ _ _ HK2 Hc))
    as (k & _ & Rk & Ek).
  exists k. split; [|now split].
  destruct Ha as [[_ (ax & Bax & Eax)] [_ (ay & Bay & Eay)]], Hb as [[_ (bx & Bbx & Ebx)] [_ (by_ & Bby & Eby)]],
    Hc as [[_ (cx & Bcx & Ecx)] [_ (cy & Bcy & Ecy)]].
  pose proof (det_bound K ax ay bx by_ cx cy Bax Bay Bbx Bby Bcx Bcy) as D.
  replace k with ((bx - ax) * (cy - ay) - (cx - ax) * (by_ - ay))%Z; [exact D|].
  apply eq_IZR. apply (Rmult_eq_reg_r (bpow radix2 (e + e))); [|apply Rgt_not_eq, bpow_gt_0].
  rewrite <- Ek, area2_cross. unfold cross, toR; cbn [vx vy]. rewrite Eax, Eay, Ebx, Eby, Ecx, Ecy.
  rewrite minus_IZR, !mult_IZR, !minus_IZR, bpow_plus. ring.
Qed.

Lemma area_loop_exact : forall a rest s sr k, grid_le K e a -> Forall (grid_le K e) rest ->
  rel (e + e) s k -> sr = IZR k * bpow radix2 (e + e) ->
  (Z.abs k + 4 * (K * K) * (Z.of_nat (length rest) - 1) <= 16777216)%Z ->
  exists k', rel (e + e) (area_loop (O := FO lm) a rest s) k' /\
    @eq R (area_loop (O := RO) (toR a) (map toR rest) sr) (IZR k' * bpow radix2 (e + e)) /\
    ((2 <= length rest)%nat -> (Z.abs k' <= 16777216)%Z).
Proof.
  intros a rest. induction rest as [|b rest IH]; intros s sr k Ha Hr Rs Es Bk.
  - exists k. split; [exact Rs|]. split; [exact Es|]. intros H; exfalso; exact (Nat.nle_succ_0 _ H).
  - destruct rest as [|c rest].
    + exists k. split; [exact Rs|]. split; [exact Es|]. cbn [length]. lia.
    + inversion Hr as [|? ? Hb Hr']; subst. inversion Hr' as [|? ? Hc _]; subst.
      destruct (area2_le a b c Ha Hb Hc) as (k2 & B2 & R2 & E2).
      cbn [length] in Bk.
      assert (B' : (Z.abs (k + k2) + 4 * (K * K) * (Z.of_nat (length (c :: rest)) - 1) <= 16777216)%Z).
      { cbn [length]. pose proof (Z.abs_triangle k k2).
        replace (Z.of_nat (S (S (length rest))) - 1)%Z with (Z.of_nat (S (length rest)) - 1 + 1)%Z in Bk by lia.
        set (q := (4 * (K * K))%Z) in *. set (u := (Z.of_nat (S (length rest)) - 1)%Z) in *.
        rewrite Z.mul_add_distr_l in Bk. lia. }
      assert (P : (0 <= 4 * (K * K) * (Z.of_nat (length (c :: rest)) - 1))%Z).
      { cbn [length]. apply Z.mul_nonneg_nonneg; nia. }
      assert (R' : rel (e + e) (Bplus mode_NE s (area2F a b c)) (k + k2)).
      { apply add_exact; [exact Rs|exact R2|lia|lia]. }
      destruct (IH (Bplus mode_NE s (area2F a b c)) (IZR k * bpow radix2 (e + e) + area2 (O := RO) (toR a) (toR b) (toR c))
        (k + k2)%Z Ha Hr' R') as (k' & A1 & A2 & A3).
      * rewrite E2, plus_IZR. ring.
      * exact B'.
      * exists k'. split; [exact A1|]. split; [exact A2|]. intros _. cbn [length] in A3.
        destruct rest as [|d rest]; [|apply A3; cbn [length]; lia].
        cbn [area_loop] in A1. destruct R' as [_ E'], A1 as [_ A1].
        replace k' with (k + k2)%Z; [lia|]. apply eq_IZR.
        apply (Rmult_eq_reg_r (bpow radix2 (e + e))); [|apply Rgt_not_eq, bpow_gt_0].
        rewrite <- A1. symmetry. exact E'.
Qed.

Lemma area_poly2_exact : forall vs, Forall (grid_le K e) vs -> (3 <= length vs)%nat ->
  (4 * (K * K) * (Z.of_nat (length vs) - 2) <= 16777216)%Z ->
  exists k, (Z.abs k <= 16777216)%Z /\ rel (e + e) (area_poly2 (O := FO lm) vs) k /\
    @eq R (area_poly2 (O := RO) (map toR vs)) (IZR k * bpow radix2 (e + e)).
Proof.
  intros vs G L B. destruct vs as [|a rest]; [cbn in L; lia|]. inversion G as [|? ? Ha Hr]; subst.
  cbn [length] in L, B.
  destruct (area_loop_exact a rest zero32 0 0%Z Ha Hr) as (k & A1 & A2 & A3).
  - split; [reflexivity|simpl; ring].
  - simpl; ring.
  - replace (Z.of_nat (length rest) - 1)%Z with (Z.of_nat (S (length rest)) - 2)%Z by lia. rewrite Z.add_0_l. exact B.
  - exists k. split; [apply A3; lia|]. split; [exact A1|exact A2].
Qed.

Theorem new_exact : forall vs, Forall (grid_le K e) vs ->
  (4 * (K * K) * (Z.of_nat (length vs) - 2) <= 16777216)%Z ->
  polygon_new (O := RO) (map toR vs) = option_map polyR (polygon_new (O := FO lm) vs).
Proof.
  intros vs G B. unfold polygon_new.
  change (@length (Vec2 RO) (map toR vs)) with (length (map toR vs)). rewrite map_length.
  change (@length (Vec2 (FO lm)) vs) with (length vs).
  destruct (Nat.ltb_spec (length vs) 3) as [L|L]; [reflexivity|].
  destruct (area_poly2_exact vs G L B) as (k & _ & [F E] & E').
  change (@olt (FO lm)) with (@Bltb 24 128). change (@c0 (FO lm)) with zero32.
  rewrite (proj1 (cmp_exact _ zero32 F eq_refl)), E.
  change (@olt RO) with Rltb. change (@c0 RO) with 0. change (B2R zero32) with 0.
  rewrite E'. destruct (Rltb _ 0); cbn [option_map]; unfold polyR; cbn [vertices]; [|reflexivity].
  now rewrite map_rev.
Qed.

(** The area is computed without rounding. *)
Theorem area_exact : forall vs, Forall (grid_le K e) vs -> (3 <= length vs)%nat ->
  (4 * (K * K) * (Z.of_nat (length vs) - 2) <= 16777216)%Z ->
  is_finite (polygon_area (O := FO lm) (MkPolygon vs)) = true /\
  B2R (polygon_area (O := FO lm) (MkPolygon vs)) = Rabs (shoelace (map toR vs)) / 2.
Proof.
  intros vs G L B. destruct (area_poly2_exact vs G L B) as (k & Bk & [F E] & E').
  rewrite area_poly2_shoelace in E'. rewrite E'.
  change (polygon_area (O := FO lm) (MkPolygon vs)) with
    (Bmult mode_NE (Babs (area_poly2 (O := FO lm) vs)) (f32_of 1 (-1))).
  set (s := area_poly2 (O := FO lm) vs) in *. change (is_finite s = true) in F.
  pose proof (Bmult_correct 24 128 _ _ mode_NE (Babs s) (f32_of 1 (-1))) as C.
  assert (H : B2R (f32_of 1 (-1)) = bpow radix2 (-1)).
  { change (f32_of 1 (-1)) with (f32_of 1 (-1)). vm_compute. lra. }
  assert (X : B2R (Babs s) * B2R (f32_of 1 (-1)) = IZR (Z.abs k) * bpow radix2 (e + e - 1)).
  { change (B2R s = IZR k * bpow radix2 (e + e)) in E.
    rewrite B2R_Babs, E, H, Rabs_mult, <- abs_IZR, (Rabs_right (bpow radix2 (e + e))) by (apply Rle_ge, bpow_ge_0).
    rewrite Rmult_assoc, <- bpow_plus. reflexivity. }
  rewrite X in C. destruct (representable (Z.abs k) (e + e - 1) ltac:(lia) ltac:(lia)) as [R1 R2].
  rewrite R1, Rlt_bool_true in C by exact R2. destruct C as (C1 & C2 & _).
  rewrite is_finite_Babs, F in C2. split; [exact C2|]. rewrite C1.
  rewrite Rabs_mult, <- abs_IZR, (Rabs_right (bpow radix2 (e + e))) by (apply Rle_ge, bpow_ge_0).
  unfold Z.sub. rewrite bpow_plus. simpl. lra.
Qed.

Lemma fold_exact : forall vs (s : Vec2 f32) (sr : point) a b, Forall (grid_le K e) vs ->
  rel e (vx s) a -> rel e (vy s) b -> sr = toR s ->
  (Z.abs a + K * Z.of_nat (length vs) <= 16777216)%Z -> (Z.abs b + K * Z.of_nat (length vs) <= 16777216)%Z ->
  exists a' b', rel e (vx (fold_left (p_add (O := FO lm)) vs s)) a' /\ rel e (vy (fold_left (p_add (O := FO lm)) vs s)) b' /\
    fold_left (p_add (O := RO)) (map toR vs) sr = toR (fold_left (p_add (O := FO lm)) vs s) /\
    (Z.abs a' <= Z.abs a + K * Z.of_nat (length vs))%Z /\ (Z.abs b' <= Z.abs b + K * Z.of_nat (length vs))%Z.
Proof.
  induction vs as [|v vs IH]; intros s sr a b G Ra Rb Es Ba Bb.
  - exists a, b. cbn [fold_left map length]. rewrite Z.mul_0_r, !Z.add_0_r. repeat split; auto; try apply Ra; try apply Rb; lia.
  - inversion G as [|? ? [[F1 (k1 & B1 & E1)] [F2 (k2 & B2 & E2)]] G']; subst.
    cbn [length] in Ba, Bb. rewrite Nat2Z.inj_succ, Z.mul_succ_r in Ba, Bb.
    pose proof (Z.abs_triangle a k1) as T1. pose proof (Z.abs_triangle b k2) as T2.
    assert (P : (0 <= K * Z.of_nat (length vs))%Z) by (apply Z.mul_nonneg_nonneg; lia).
    assert (R1 : rel e (Bplus mode_NE (vx s) (vx v)) (a + k1)) by (apply add_exact; [exact Ra|now split|lia|lia]).
    assert (R2 : rel e (Bplus mode_NE (vy s) (vy v)) (b + k2)) by (apply add_exact; [exact Rb|now split|lia|lia]).
    destruct (IH (p_add (O := FO lm) s v) (p_add (O := RO) (toR s) (toR v)) (a + k1)%Z (b + k2)%Z G' R1 R2)
      as (a' & b' & A1 & A2 & A3 & A4 & A5).
    + destruct R1 as [_ R1], R2 as [_ R2], Ra as [_ Ra], Rb as [_ Rb].
      change (P2 (B2R (vx s) + B2R (vx v)) (B2R (vy s) + B2R (vy v)) =
        P2 (B2R (Bplus mode_NE (vx s) (vx v))) (B2R (Bplus mode_NE (vy s) (vy v)))).
      rewrite R1, Ra, E1, R2, Rb, E2, !plus_IZR. f_equal; ring.
    + lia.
    + lia.
    + exists a', b'. cbn [length fold_left map]. rewrite Nat2Z.inj_succ, Z.mul_succ_r.
      split; [exact A1|]. split; [exact A2|]. split; [exact A3|]. lia.
Qed.

Lemma div_rounded : forall (x : f32) k n, rel e x k -> (0 < n)%nat -> (Z.of_nat n <= 16777216)%Z ->
  (Z.abs k <= K * Z.of_nat n)%Z ->
  is_finite (Bdiv mode_NE x (f32_Z (Z.of_nat n))) = true /\
  B2R (Bdiv mode_NE x (f32_Z (Z.of_nat n))) = rnd32 (B2R x / INR n).
Proof.
  intros x k n [Fx Ex] Hn Bn Bk.
  destruct (f32_Z_exact (Z.of_nat n) ltac:(lia)) as [Fn En].
  assert (In : 0 < INR n) by (now apply lt_0_INR).
  assert (En' : B2R (f32_Z (Z.of_nat n)) = INR n) by (now rewrite En, INR_IZR_INZ).
  pose proof (Bdiv_correct 24 128 _ _ mode_NE x (f32_Z (Z.of_nat n)) ltac:(lra)) as C.
  rewrite En' in C.
  assert (A : Rabs (B2R x / INR n) <= IZR K * bpow radix2 e).
  { unfold Rdiv. rewrite Ex, !Rabs_mult, Rabs_inv, <- abs_IZR, (Rabs_right (bpow radix2 e)), (Rabs_right (INR n)) by (first [apply Rle_ge, bpow_ge_0|lra]).
    apply (Rmult_le_reg_r (INR n)); [exact In|].
    replace (IZR (Z.abs k) * bpow radix2 e * / INR n * INR n) with (IZR (Z.abs k) * bpow radix2 e) by (field; lra).
    apply IZR_le in Bk. rewrite mult_IZR, <- INR_IZR_INZ in Bk.
    replace (IZR K * bpow radix2 e * INR n) with (IZR K * INR n * bpow radix2 e) by ring.
    apply Rmult_le_compat_r; [apply bpow_ge_0|exact Bk]. }
  destruct (representable K e ltac:(lia) ltac:(lia)) as [R1 R2].
  assert (P : 0 <= IZR K * bpow radix2 e) by (apply Rmult_le_pos; [apply IZR_le; lia|apply bpow_ge_0]).
  rewrite Rabs_right in R2 by lra.
  assert (G : Rabs (rnd32 (B2R x / INR n)) <= IZR K * bpow radix2 e).
  { apply abs_round_le_generic; [apply fexp32_valid|apply rnd32_valid| |exact A].
    rewrite <- R1. apply generic_format_round; [apply fexp32_valid|apply rnd32_valid]. }
  rewrite Rlt_bool_true in C by (eapply Rle_lt_trans; [exact G|exact R2]).
  destruct C as (C1 & C2 & _). split; [now rewrite C2|exact C1].
Qed.

(** The center is the correctly rounded centroid of the vertices. *)
Theorem center_rounded : forall vs, Forall (grid_le K e) vs -> (0 < length vs)%nat ->
  (K * Z.of_nat (length vs) <= 16777216)%Z ->
  let c := polygon_center (O := FO lm) (MkPolygon vs) in
  let r := polygon_center (O := RO) (MkPolygon (map toR vs)) in
  is_finite (vx c) = true /\ is_finite (vy c) = true /\
  B2R (vx c) = rnd32 (vx r) /\ B2R (vy c) = rnd32 (vy r).
Proof.
  intros vs G Hn B c r.
  destruct (fold_exact vs (P2 zero32 zero32) (P2 0 0) 0%Z 0%Z G) as (a & b & A1 & A2 & A3 & A4 & A5).
  1,2: split; [reflexivity|simpl; ring].
  - reflexivity.
  - rewrite Z.add_0_l. exact B.
  - rewrite Z.add_0_l. exact B.
  - rewrite Z.add_0_l in A4, A5.
    assert (Bn : (Z.of_nat (length vs) <= 16777216)%Z) by nia.
    destruct (div_rounded _ _ (length vs) A1 Hn Bn A4) as [X1 X2].
    destruct (div_rounded _ _ (length vs) A2 Hn Bn A5) as [Y1 Y2].
    split; [exact X1|]. split; [exact Y1|].
    assert (Er : r = P2 (B2R (vx (fold_left (p_add (O := FO lm)) vs (P2 zero32 zero32))) / INR (length vs))
                        (B2R (vy (fold_left (p_add (O := FO lm)) vs (P2 zero32 zero32))) / INR (length vs))).
    { unfold r, polygon_center. cbn [vertices].
      change (P2 (@c0 RO) (@c0 RO)) with (P2 0 0 : point).
      rewrite A3. change (@length (Vec2 RO) (map toR vs)) with (length (map toR vs)). rewrite map_length. reflexivity. }
    rewrite Er. cbn [vx vy]. split; [exact X2|exact Y2].
Qed.
End NewGrid.
