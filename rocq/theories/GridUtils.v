(** * geometry/utils.rs in f32 on integer grids: distances and nearest points. *)
From Coq Require Import ZArith Reals List Bool Lia Lra Psatz Arith.
From Flocq Require Import Core.Core IEEE754.BinarySingleNaN.
From Verif Require Import Scalar Utils PlaneSpec F32 Laws UtilsReal PolyF32 PolyNewF32.
Import ListNotations.
Local Open Scope R_scope.

(** [p] has coordinates k*2^e. *)
Definition at_grid (e : Z) (p : Vec2 f32) (k : Z * Z) : Prop := rel e (vx p) (fst k) /\ rel e (vy p) (snd k).
Definition within (K : Z) (k : Z * Z) : Prop := (Z.abs (fst k) <= K)%Z /\ (Z.abs (snd k) <= K)%Z.

Lemma grid_le_at : forall K e p, grid_le K e p <-> exists k, within K k /\ at_grid e p k.
Proof.
  intros K e p. split.
  - intros [[F1 (a & A1 & A2)] [F2 (b & B1 & B2)]]. exists (a, b). now repeat split.
  - intros ([a b] & [A B] & [[F1 E1] [F2 E2]]). split; (split; [assumption|]); [now exists a|now exists b].
Qed.

(** Squared distance in grid units. *)
Definition dist2 (k l : Z * Z) : Z :=
  ((fst l - fst k) * (fst l - fst k) + (snd l - snd k) * (snd l - snd k))%Z.

Lemma dist2_nonneg : forall k l, (0 <= dist2 k l)%Z.
Proof. intros. unfold dist2. pose proof (Z.square_nonneg (fst l - fst k)). pose proof (Z.square_nonneg (snd l - snd k)). lia. Qed.

Lemma dist2_zero : forall k l, dist2 k l = 0%Z <-> k = l.
Proof.
  intros [a b] [c d]. unfold dist2; cbn [fst snd]. split.
  - intros H. pose proof (Z.square_nonneg (c - a)) as P1. pose proof (Z.square_nonneg (d - b)) as P2.
    assert (H1 : ((c - a) * (c - a) = 0)%Z) by lia. assert (H2 : ((d - b) * (d - b) = 0)%Z) by lia.
    apply Z.mul_eq_0 in H1. apply Z.mul_eq_0 in H2. f_equal; lia.
  - intros E. injection E as -> ->. ring.
Qed.

Lemma sq_bound : forall m x, (Z.abs x <= m)%Z -> (x * x <= m * m)%Z.
Proof. intros m x H. rewrite <- (Z.abs_square x). apply Z.mul_le_mono_nonneg; lia. Qed.

Lemma dist2_bound : forall K k l, within K k -> within K l -> (dist2 k l <= 8 * (K * K))%Z.
Proof.
  intros K [a b] [c d] [A B] [C D]. unfold dist2; cbn [fst snd] in *.
  pose proof (sq_bound (2 * K) (c - a) ltac:(lia)). pose proof (sq_bound (2 * K) (d - b) ltac:(lia)). lia.
Qed.

Lemma toR_at : forall e p k, at_grid e p k -> toR p = P2 (IZR (fst k) * bpow radix2 e) (IZR (snd k) * bpow radix2 e).
Proof. intros e p k [[_ E1] [_ E2]]. unfold toR. now rewrite E1, E2. Qed.

Lemma dist_at : forall e p q k l, at_grid e p k -> at_grid e q l ->
  dist (toR p) (toR q) = sqrt (IZR (dist2 k l)) * bpow radix2 e.
Proof.
  intros e p q k l Hp Hq. rewrite (toR_at _ _ _ Hp), (toR_at _ _ _ Hq).
  assert (B : 0 < bpow radix2 e) by apply bpow_gt_0.
  apply sq_eq; [apply dist_nonneg|apply Rmult_le_pos; [apply sqrt_pos|lra]|].
  rewrite dist_sq. cbn [vx vy].
  replace (sqrt (IZR (dist2 k l)) * bpow radix2 e * (sqrt (IZR (dist2 k l)) * bpow radix2 e))
    with (sqrt (IZR (dist2 k l)) * sqrt (IZR (dist2 k l)) * (bpow radix2 e * bpow radix2 e)) by ring.
  rewrite sqrt_sqrt by (apply IZR_le, dist2_nonneg).
  unfold dist2. rewrite plus_IZR, !mult_IZR, !minus_IZR. ring.
Qed.

Section Grid.
Context (lm : Libm) (e : Z) (He : (-74 <= e <= 51)%Z).

(** The computed distance is the correctly rounded distance. *)
Lemma distance_rounded : forall K p q k l, (8 * (K * K) <= 16777216)%Z -> (0 <= K)%Z ->
  within K k -> within K l -> at_grid e p k -> at_grid e q l ->
  is_finite (distance (O := FO lm) p q) = true /\
  B2R (distance (O := FO lm) p q) = rnd32 (dist (toR p) (toR q)).
Proof.
  intros K p q k l HK K0 Wk Wl Hp Hq.
  pose proof (dist2_bound K k l Wk Wl) as B. pose proof (dist2_nonneg k l) as P.
  assert (D1 : (Z.abs (fst l - fst k) <= 2 * K)%Z) by (destruct Wk, Wl; lia).
  assert (D2 : (Z.abs (snd l - snd k) <= 2 * K)%Z) by (destruct Wk, Wl; lia).
  assert (K1 : (2 * K <= 16777216)%Z) by nia.
  assert (R1 : rel e (Bminus mode_NE (vx q) (vx p)) (fst l - fst k)) by (apply sub_exact; [apply Hq|apply Hp|lia|lia]).
  assert (R2 : rel e (Bminus mode_NE (vy q) (vy p)) (snd l - snd k)) by (apply sub_exact; [apply Hq|apply Hp|lia|lia]).
  pose proof (sq_bound _ _ D1) as S1. pose proof (sq_bound _ _ D2) as S2.
  assert (Q1 : rel (e + e) (Bmult mode_NE (Bminus mode_NE (vx q) (vx p)) (Bminus mode_NE (vx q) (vx p))) ((fst l - fst k) * (fst l - fst k))).
  { apply mul_exact; [exact R1|exact R1|rewrite Z.abs_eq; nia|lia]. }
  assert (Q2 : rel (e + e) (Bmult mode_NE (Bminus mode_NE (vy q) (vy p)) (Bminus mode_NE (vy q) (vy p))) ((snd l - snd k) * (snd l - snd k))).
  { apply mul_exact; [exact R2|exact R2|rewrite Z.abs_eq; nia|lia]. }
  assert (Q : rel (e + e) (p_dot (O := FO lm) (p_sub (O := FO lm) q p) (p_sub (O := FO lm) q p)) (dist2 k l)).
  { apply add_exact; [exact Q1|exact Q2| |lia]. fold (dist2 k l). rewrite Z.abs_eq; lia. }
  destruct Q as [F E].
  change (distance (O := FO lm) p q) with (Bsqrt mode_NE (p_dot (O := FO lm) (p_sub (O := FO lm) q p) (p_sub (O := FO lm) q p))).
  set (x := p_dot (O := FO lm) (p_sub (O := FO lm) q p) (p_sub (O := FO lm) q p)) in *.
  change (is_finite x = true) in F. change (B2R x = IZR (dist2 k l) * bpow radix2 (e + e)) in E.
  destruct (Bsqrt_correct 24 128 _ _ mode_NE x) as (C1 & C2 & _). split.
  - rewrite C2. destruct x as [s|s| |[|] m ex Hx]; try discriminate; try reflexivity.
    exfalso. assert (N : B2R (B754_finite true m ex Hx) < 0) by (apply F2R_lt_0; reflexivity).
    rewrite E in N. assert (0 <= IZR (dist2 k l) * bpow radix2 (e + e)) by (apply Rmult_le_pos; [now apply IZR_le|apply bpow_ge_0]). lra.
  - rewrite C1, E. f_equal. rewrite (dist_at _ _ _ _ _ Hp Hq).
    rewrite bpow_plus, <- Rmult_assoc.
    assert (B0 : 0 < bpow radix2 e) by apply bpow_gt_0.
    rewrite (Rmult_assoc (IZR _)), sqrt_mult, sqrt_square by (first [now apply IZR_le|nra]). reflexivity.
Qed.

(** Rounded roots of different integers below 2^22 are different. *)
Lemma between_roots : forall n m, (0 <= n < m)%Z -> (m <= 4194304)%Z ->
  exists c, (0 <= c)%Z /\ (c + 1 <= 16777216)%Z /\
    sqrt (IZR n) <= IZR c * bpow radix2 (-13) /\ IZR (c + 1) * bpow radix2 (-13) <= sqrt (IZR m).
Proof.
  intros n m [H0 H1] Hm.
  assert (B : bpow radix2 (-13) = / 8192) by reflexivity. rewrite B.
  set (x := sqrt (IZR n)). set (y := sqrt (IZR m)).
  assert (X0 : 0 <= x) by apply sqrt_pos.
  assert (Xx : x * x = IZR n) by (apply sqrt_sqrt, IZR_le; lia).
  assert (Yy : y * y = IZR m) by (apply sqrt_sqrt, IZR_le; lia).
  assert (Y0 : 0 <= y) by apply sqrt_pos.
  assert (D : IZR n + 1 <= IZR m) by (rewrite <- plus_IZR; apply IZR_le; lia).
  assert (Ym : y <= 2048).
  { apply sq_le; [lra|]. rewrite Yy. replace (2048 * 2048) with (IZR 4194304) by (simpl; lra). now apply IZR_le. }
  assert (XY : x < y) by nra.
  assert (G : / 4096 <= y - x).
  { assert (1 <= (y - x) * (y + x)) by nra. assert (y + x <= 4096) by lra. nra. }
  exists (Zceil (x * 8192)). pose proof (Zceil_ub (x * 8192)) as U.
  assert (Lc : IZR (Zceil (x * 8192)) < x * 8192 + 1).
  { pose proof (Zceil_lb (x * 8192)). lra. }
  assert (C0 : (0 <= Zceil (x * 8192))%Z).
  { apply le_IZR. lra. }
  assert (C1 : (Zceil (x * 8192) + 1 <= 16777216)%Z).
  { apply le_IZR. rewrite plus_IZR. assert (x * 8192 + 2 <= y * 8192) by lra. lra. }
  split; [exact C0|]. split; [exact C1|]. split; [lra|]. rewrite plus_IZR. lra.
Qed.

Lemma rnd_le_grid : forall x c f, (-149 <= f <= 103)%Z -> (Z.abs c <= 16777216)%Z ->
  x <= IZR c * bpow radix2 f -> rnd32 x <= IZR c * bpow radix2 f.
Proof.
  intros x c f Hf Hc H. apply round_le_generic; [apply fexp32_valid|apply rnd32_valid| |exact H].
  rewrite <- (proj1 (representable c f Hc Hf)). apply generic_format_round; [apply fexp32_valid|apply rnd32_valid].
Qed.

Lemma rnd_ge_grid : forall x c f, (-149 <= f <= 103)%Z -> (Z.abs c <= 16777216)%Z ->
  IZR c * bpow radix2 f <= x -> IZR c * bpow radix2 f <= rnd32 x.
Proof.
  intros x c f Hf Hc H. apply round_ge_generic; [apply fexp32_valid|apply rnd32_valid| |exact H].
  rewrite <- (proj1 (representable c f Hc Hf)). apply generic_format_round; [apply fexp32_valid|apply rnd32_valid].
Qed.

Lemma roots_ordered : forall n m, (0 <= n)%Z -> (0 <= m <= 4194304)%Z -> (n <= 4194304)%Z ->
  (rnd32 (sqrt (IZR n) * bpow radix2 e) < rnd32 (sqrt (IZR m) * bpow radix2 e) <-> (n < m)%Z).
Proof.
  assert (B : 0 < bpow radix2 e) by apply bpow_gt_0.
  assert (S : forall n m, (0 <= n < m)%Z -> (m <= 4194304)%Z ->
    rnd32 (sqrt (IZR n) * bpow radix2 e) < rnd32 (sqrt (IZR m) * bpow radix2 e)).
  { intros n m H Hm. destruct (between_roots n m H Hm) as (c & C0 & C1 & U & V).
    apply Rle_lt_trans with (IZR c * bpow radix2 (-13 + e)).
    - apply rnd_le_grid; [lia|lia|]. rewrite bpow_plus, <- Rmult_assoc. apply Rmult_le_compat_r; lra.
    - apply Rlt_le_trans with (IZR (c + 1) * bpow radix2 (-13 + e)).
      + apply Rmult_lt_compat_r; [apply bpow_gt_0|apply IZR_lt; lia].
      + apply rnd_ge_grid; [lia|lia|]. rewrite bpow_plus, <- Rmult_assoc. apply Rmult_le_compat_r; lra. }
  intros n m Hn Hm Hn'. split; [|intros; apply S; lia].
  intros H. destruct (Z.lt_trichotomy n m) as [?|[->|L]]; [assumption|lra|].
  pose proof (S m n ltac:(lia) Hn'). lra.
Qed.

(** ** find_closest_to *)
(** For grid points of magnitude at most 724 it is the exact first minimum. *)

(** A computed distance and the squared distance it stands for. *)
Definition stands (d : f32) (n : Z) : Prop :=
  (0 <= n <= 4194304)%Z /\ is_finite d = true /\ B2R d = rnd32 (sqrt (IZR n) * bpow radix2 e).

Lemma stands_lt : forall d d' n n', stands d n -> stands d' n' -> Bltb d d' = Z.ltb n n'.
Proof.
  intros d d' n n' (N & F & E) (N' & F' & E'). rewrite (proj1 (cmp_exact d d' F F')).
  rewrite E, E'. apply eq_true_iff_eq. rewrite Rltb_true, Z.ltb_lt. apply roots_ordered; lia.
Qed.

Lemma distance_stands : forall p q k l, within 724 k -> within 724 l -> at_grid e p k -> at_grid e q l ->
  stands (distance (O := FO lm) p q) (dist2 k l).
Proof.
  intros p q k l Wk Wl Hp Hq. pose proof (dist2_bound 724 k l Wk Wl). pose proof (dist2_nonneg k l).
  destruct (distance_rounded 724 p q k l ltac:(lia) ltac:(lia) Wk Wl Hp Hq) as [F E].
  split; [lia|]. split; [exact F|]. now rewrite E, (dist_at _ _ _ _ _ Hp Hq).
Qed.

Lemma stands_lt_max : forall d n, stands d n -> Bltb d (f32_of 16777215 104) = true.
Proof.
  intros d n (N & F & E). rewrite (proj1 (cmp_exact d (f32_of 16777215 104) F eq_refl)).
  apply Rltb_true. rewrite E.
  apply Rle_lt_trans with (IZR 2048 * bpow radix2 e).
  - apply rnd_le_grid; [lia|lia|]. apply Rmult_le_compat_r; [apply bpow_ge_0|].
    apply sq_le; [simpl; lra|]. rewrite sqrt_sqrt by (apply IZR_le; lia).
    rewrite <- mult_IZR. apply IZR_le. lia.
  - apply Rle_lt_trans with (bpow radix2 11 * bpow radix2 e).
    + apply Rmult_le_compat_r; [apply bpow_ge_0|]. simpl. lra.
    + rewrite <- bpow_plus. apply Rle_lt_trans with (bpow radix2 62); [apply bpow_le; lia|].
      vm_compute. lra.
Qed.

(** Distances in f32 and in exact arithmetic ([None]: not a number there). *)
Definition same_dist (d : f32) (x : XO) : Prop :=
  (exists n, stands d n /\ x = Some (sqrt (IZR n) * bpow radix2 e)) \/
  (d = f32_of 16777215 104 /\ x = Some max32).

Lemma root_lt_max : forall n, (0 <= n <= 4194304)%Z -> sqrt (IZR n) * bpow radix2 e < max32.
Proof.
  intros n N. apply Rle_lt_trans with (bpow radix2 11 * bpow radix2 e).
  - apply Rmult_le_compat_r; [apply bpow_ge_0|].
    apply sq_le; [simpl; lra|]. rewrite sqrt_sqrt by (apply IZR_le; lia).
    replace (bpow radix2 11 * bpow radix2 11) with (IZR 4194304) by (simpl; lra). apply IZR_le. lia.
  - rewrite <- bpow_plus. apply Rle_lt_trans with (bpow radix2 62); [apply bpow_le; lia|].
    unfold max32. vm_compute. lra.
Qed.

Lemma same_lt : forall d d' x x', same_dist d x -> same_dist d' x' ->
  (exists n, stands d n) -> Bltb d d' = xcmp Rltb x x'.
Proof.
  intros d d' x x' [(n & S & ->)|[-> ->]] S' (m & Hm).
  - assert (B : 0 < bpow radix2 e) by apply bpow_gt_0.
    destruct S' as [(n' & S' & ->)|[-> ->]].
    + rewrite (stands_lt d d' n n' S S'). cbn [xcmp]. apply eq_true_iff_eq. rewrite Rltb_true, Z.ltb_lt. split.
      * intros H. apply Rmult_lt_compat_r; [exact B|]. apply sqrt_lt_1_alt. split; [apply IZR_le, S|now apply IZR_lt].
      * intros H. apply Rmult_lt_reg_r in H; [|exact B]. apply lt_IZR. apply sqrt_lt_0_alt in H. exact H.
    + rewrite (stands_lt_max d n S). cbn [xcmp]. symmetry. apply Rltb_true, root_lt_max, S.
  - exfalso. pose proof (stands_lt_max _ m Hm) as H. discriminate H.
Qed.

Lemma closest_loop_grid : forall ds xs index mi md mx,
  Forall2 (fun d x => (exists n, stands d n) /\ same_dist d x) ds xs -> same_dist md mx ->
  fst (closest_loop (O := FO lm) ds index mi md) = fst (closest_loop (O := XO) xs index mi mx) /\
  same_dist (snd (closest_loop (O := FO lm) ds index mi md)) (snd (closest_loop (O := XO) xs index mi mx)).
Proof.
  intros ds xs. revert ds. induction xs as [|x xs IH]; intros ds index mi md mx H Hb.
  - inversion H; subst. cbn. auto.
  - inversion H as [|d ? ds' ? [Nd Hd] Hds]; subst. cbn [closest_loop].
    change (@olt (FO lm)) with (@Bltb 24 128). change (@olt XO) with (xcmp Rltb).
    rewrite (same_lt d md x mx Hd Hb Nd). destruct (xcmp Rltb x mx); apply IH; auto.
Qed.

Theorem find_closest_grid : forall p ps, grid_le 724 e p -> Forall (grid_le 724 e) ps ->
  fst (find_closest_to (O := FO lm) p ps) = fst (find_closest_to (O := XO) (xp (toR p)) (map (fun q => xp (toR q)) ps)) /\
  same_dist (snd (find_closest_to (O := FO lm) p ps)) (snd (find_closest_to (O := XO) (xp (toR p)) (map (fun q => xp (toR q)) ps))).
Proof.
  intros p ps Hp Hps. unfold find_closest_to. apply closest_loop_grid.
  - apply grid_le_at in Hp. destruct Hp as (k & Wk & Ak).
    induction Hps as [|q ps Hq Hps IH]; [constructor|]. cbn [map]. constructor; [|exact IH].
    apply grid_le_at in Hq. destruct Hq as (l & Wl & Al).
    pose proof (distance_stands p q k l Wk Wl Ak Al) as S. split; [now exists (dist2 k l)|].
    left. exists (dist2 k l). split; [exact S|]. now rewrite distance_xp, (dist_at _ _ _ _ _ Ak Al).
  - right. split; reflexivity.
Qed.
End Grid.
