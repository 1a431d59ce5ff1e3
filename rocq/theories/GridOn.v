(** * is_on_line_segment in f32 on small integer grids: exactly the inner points. *)
From Coq Require Import ZArith Reals List Bool Lia Lra Psatz Arith.
From Flocq Require Import Core.Core IEEE754.BinarySingleNaN.
From Verif Require Import Scalar Utils PlaneSpec F32 Laws UtilsReal UtilsF32 PolyF32 PolyNewF32 GridSpec GridUtils GridSeg GridPrim.
Import ListNotations.
Local Open Scope R_scope.

(** ** The detour over a lattice point *)
Lemma collinear_along : forall a b p, a <> b -> cross a b a p = 0 -> exists t, p = along a b t.
Proof.
  intros [ax ay] [bx by_] [px py] N C. unfold cross in C; cbn [vx vy] in C.
  destruct (Req_dec (bx - ax) 0) as [X|X].
  - assert (Y : by_ - ay <> 0) by (intros Y; apply N; f_equal; lra).
    exists ((py - ay) / (by_ - ay)). unfold along; cbn [vx vy]. f_equal.
    + assert (H : (by_ - ay) * (px - ax) = 0) by nra. apply Rmult_integral in H. destruct H; [contradiction|].
      replace (bx - ax) with 0 by lra. lra.
    + field. exact Y.
  - exists ((px - ax) / (bx - ax)). unfold along; cbn [vx vy]. f_equal.
    + field. exact X.
    + apply Rmult_eq_reg_r with (bx - ax); [|exact X].
      replace ((ay + (px - ax) / (bx - ax) * (by_ - ay)) * (bx - ax)) with (ay * (bx - ax) + (px - ax) * (by_ - ay)) by (field; exact X).
      lra.
Qed.

Lemma dist_along : forall a b t, dist a (along a b t) = Rabs t * dist a b /\ dist (along a b t) b = Rabs (1 - t) * dist a b.
Proof.
  intros a b t. split; apply sq_eq; try apply dist_nonneg;
    try (apply Rmult_le_pos; [apply Rabs_pos|apply dist_nonneg]); rewrite dist_sq.
  - replace (Rabs t * dist a b * (Rabs t * dist a b)) with (Rabs t * Rabs t * (dist a b * dist a b)) by ring.
    rewrite <- Rabs_mult, (Rabs_pos_eq (t * t)) by apply Rle_0_sqr. rewrite dist_sq. unfold along; cbn [vx vy]. ring.
  - replace (Rabs (1 - t) * dist a b * (Rabs (1 - t) * dist a b)) with (Rabs (1 - t) * Rabs (1 - t) * (dist a b * dist a b)) by ring.
    rewrite <- Rabs_mult, (Rabs_pos_eq ((1 - t) * (1 - t))) by apply Rle_0_sqr. rewrite dist_sq. unfold along; cbn [vx vy]. ring.
Qed.

Lemma collinear_gap : forall a b p, cross a b a p = 0 -> ~ on_segment a b p ->
  dist a p + dist p b - dist a b = 2 * dist a p \/ dist a p + dist p b - dist a b = 2 * dist p b.
Proof.
  intros a b p C N. assert (D : a = b \/ a <> b).
  { destruct a as [ax ay], b as [bx by_]. destruct (Req_dec ax bx) as [->|]; [destruct (Req_dec ay by_) as [->|]|];
      [now left|right; congruence|right; congruence]. }
  destruct D as [->|D].
  - left. rewrite dist_self0, (dist_sym p b). lra.
  - destruct (collinear_along a b p D C) as (t & ->). destruct (dist_along a b t) as [E1 E2].
    destruct (Rlt_le_dec t 0) as [L|L].
    + left. rewrite E1, E2, (Rabs_left t), (Rabs_right (1 - t)) by lra. ring.
    + destruct (Rle_lt_dec t 1) as [L'|L'].
      * exfalso. apply N. exists t. split; [lra|reflexivity].
      * right. rewrite E1, E2, (Rabs_right t), (Rabs_left (1 - t)) by lra. ring.
Qed.

Section On.
Context (lm : Libm) (e : Z).
Let u := bpow radix2 e.

Lemma cross_lattice : forall a b p ka kb kp, at_grid e a ka -> at_grid e b kb -> at_grid e p kp ->
  cross (toR a) (toR b) (toR a) (toR p) <> 0 -> u * u <= Rabs (cross (toR a) (toR b) (toR a) (toR p)).
Proof.
  intros a b p ka kb kp Aa Ab Ap N.
  rewrite (toR_at _ _ _ Aa), (toR_at _ _ _ Ab), (toR_at _ _ _ Ap) in *. unfold cross in *; cbn [vx vy] in *. fold u in N |- *.
  set (z := ((fst kb - fst ka) * (snd kp - snd ka) - (snd kb - snd ka) * (fst kp - fst ka))%Z).
  assert (E : (IZR (fst kb) * u - IZR (fst ka) * u) * (IZR (snd kp) * u - IZR (snd ka) * u) -
    (IZR (snd kb) * u - IZR (snd ka) * u) * (IZR (fst kp) * u - IZR (fst ka) * u) = IZR z * (u * u))
    by (unfold z; rewrite minus_IZR, !mult_IZR, !minus_IZR; ring).
  rewrite E in *. assert (U : 0 < u) by apply bpow_gt_0.
  assert (Z0 : z <> 0%Z) by (intros H; apply N; rewrite H; ring).
  rewrite Rabs_mult, (Rabs_right (u * u)) by nra. assert (1 <= Rabs (IZR z)) by (rewrite <- abs_IZR; apply IZR_le; lia). nra.
Qed.

(** Distances on the grid are 0, or between u and 17 u. *)
Lemma dist_range : forall p q kp kq, within 6 kp -> within 6 kq -> at_grid e p kp -> at_grid e q kq ->
  dist (toR p) (toR q) <= 17 * u /\ (toR p <> toR q -> u <= dist (toR p) (toR q)).
Proof.
  intros p q kp kq Wp Wq Ap Aq. rewrite (dist_at _ _ _ _ _ Ap Aq). fold u. assert (U : 0 < u) by apply bpow_gt_0.
  pose proof (dist2_bound 6 kp kq Wp Wq) as B. pose proof (dist2_nonneg kp kq) as P. split.
  - apply Rmult_le_compat_r; [lra|]. apply sq_le; [lra|]. rewrite sqrt_sqrt by (now apply IZR_le).
    replace (17 * 17) with (IZR 289) by (simpl; lra). apply IZR_le. lia.
  - intros N. assert (D : dist2 kp kq <> 0%Z).
    { intros H. apply dist2_zero in H. apply N. rewrite (toR_at _ _ _ Ap), (toR_at _ _ _ Aq). now rewrite H. }
    assert (1 <= sqrt (IZR (dist2 kp kq))); [|nra]. rewrite <- sqrt_1. apply sqrt_le_1_alt. apply IZR_le. lia.
Qed.

Lemma lattice_gap : forall a b p ka kb kp, within 6 ka -> within 6 kb -> within 6 kp ->
  at_grid e a ka -> at_grid e b kb -> at_grid e p kp ->
  toR p <> toR a -> toR p <> toR b -> ~ on_segment (toR a) (toR b) (toR p) ->
  4 * u <= 14739 * (dist (toR a) (toR p) + dist (toR p) (toR b) - dist (toR a) (toR b)).
Proof.
  intros a b p ka kb kp Wa Wb Wp Aa Ab Ap Na Nb N.
  destruct (dist_range _ _ _ _ Wa Wp Aa Ap) as [A1 A2]. destruct (dist_range _ _ _ _ Wp Wb Ap Ab) as [B1 B2].
  destruct (dist_range _ _ _ _ Wa Wb Aa Ab) as [C1 C2].
  specialize (A2 (not_eq_sym Na)). specialize (B2 Nb).
  assert (U : 0 < u) by apply bpow_gt_0.
  destruct (Req_dec (cross (toR a) (toR b) (toR a) (toR p)) 0) as [Z|NZ].
  - destruct (collinear_gap _ _ _ Z N) as [-> | ->]; lra.
  - pose proof (cross_lattice a b p ka kb kp Aa Ab Ap NZ) as CL.
    pose proof (heron (toR a) (toR b) (toR p)) as H. cbv zeta in H.
    rewrite (dist_sym (toR b) (toR p)) in H.
    set (A := dist (toR a) (toR p)) in *. set (B := dist (toR p) (toR b)) in *. set (C := dist (toR a) (toR b)) in *.
    set (w := cross (toR a) (toR b) (toR a) (toR p)) in *.
    assert (W2 : u * u * (u * u) <= w * w).
    { replace (w * w) with (Rabs w * Rabs w) by (rewrite <- Rabs_mult; apply Rabs_pos_eq; nra).
      apply Rmult_le_compat; try exact CL; apply Rle_0_sqr. }
    assert (T : C <= A + B) by apply triangle.
    assert (C0 : 0 <= C) by apply dist_nonneg.
    set (g := A + B - C) in *. assert (G0 : 0 <= g) by (unfold g; lra).
    replace ((B + A + C) * (B + A - C) * (B + C - A) * (A + C - B)) with
      (g * ((A + B + C) * (C * C - (A - B) * (A - B)))) in H by (unfold g; ring).
    assert (S1 : 0 <= A + B + C <= 51 * u) by lra.
    assert (S2 : C * C - (A - B) * (A - B) <= 289 * (u * u)).
    { pose proof (Rle_0_sqr (A - B)) as Q. unfold Rsqr in Q. assert (C * C <= 17 * u * (17 * u)) by (apply Rmult_le_compat; lra). lra. }
    assert (S3 : (A + B + C) * (C * C - (A - B) * (A - B)) <= 51 * u * (289 * (u * u))).
    { apply Rle_trans with ((A + B + C) * (289 * (u * u))).
      - apply Rmult_le_compat_l; lra.
      - apply Rmult_le_compat_r; [apply Rmult_le_pos; [lra|apply Rle_0_sqr]|lra]. }
    assert (S4 : 4 * (u * u * (u * u)) <= g * (51 * u * (289 * (u * u)))) .
    { apply Rle_trans with (4 * (w * w)); [lra|]. rewrite <- H. apply Rmult_le_compat_l; assumption. }
    assert (U3 : 0 < u * u * u) by (repeat apply Rmult_lt_0_compat; exact U).
    apply Rmult_le_reg_r with (u * u * u); [exact U3|]. lra.
Qed.

(** ** The computed test *)
Context (He : (-22 <= e <= 51)%Z).
Let He' : (-74 <= e <= 51)%Z.
Proof. lia. Qed.

Lemma on_f32 : forall a b p ka kb kp i, within 6 ka -> within 6 kb -> within 6 kp ->
  at_grid e a ka -> at_grid e b kb -> at_grid e p kp ->
  let A := dist (toR a) (toR p) in let B := dist (toR p) (toR b) in let C := dist (toR a) (toR b) in
  is_on_line_segment (O := FO lm) a b p i =
  Rltb (Rabs (rnd32 (rnd32 (rnd32 A + rnd32 B) - rnd32 C))) eps32 && Rltb eps32 A && Rltb eps32 B.
Proof.
  intros a b p ka kb kp i Wa Wb Wp Aa Ab Ap A B C.
  assert (W724 : forall k, within 6 k -> within 724 k) by (intros k [? ?]; split; lia).
  pose proof (distance_stands lm e He' a p ka kp (W724 _ Wa) (W724 _ Wp) Aa Ap) as SA.
  pose proof (distance_stands lm e He' p b kp kb (W724 _ Wp) (W724 _ Wb) Ap Ab) as SB.
  pose proof (distance_stands lm e He' a b ka kb (W724 _ Wa) (W724 _ Wb) Aa Ab) as SC.
  unfold is_on_line_segment.
  set (x := distance (O := FO lm) a p) in *. set (y := distance (O := FO lm) p b) in *. set (z := distance (O := FO lm) a b) in *.
  change (Bltb (Babs (Bminus mode_NE (Bplus mode_NE x y) z)) (f32_of 1 (-23)) && Bltb (f32_of 1 (-23)) (Babs x) && Bltb (f32_of 1 (-23)) (Babs y) =
    Rltb (Rabs (rnd32 (rnd32 (rnd32 A + rnd32 B) - rnd32 C))) eps32 && Rltb eps32 A && Rltb eps32 B).
  pose proof (dist_at _ _ _ _ _ Aa Ap) as DA. pose proof (dist_at _ _ _ _ _ Ap Ab) as DB. pose proof (dist_at _ _ _ _ _ Aa Ab) as DC.
  fold A in DA. fold B in DB. fold C in DC.
  destruct (stands_eps e He _ _ SA) as (_ & _ & EA). destruct (stands_eps e He _ _ SB) as (_ & _ & EB).
  rewrite <- DA in EA. rewrite <- DB in EB.
  destruct SA as (_ & FA & RA). destruct SB as (_ & FB & RB). destruct SC as (_ & FC & RC).
  rewrite <- DA in RA. rewrite <- DB in RB. rewrite <- DC in RC.
  destruct eps_f32 as [Fe Ee].
  destruct (dist_range _ _ _ _ Wa Wp Aa Ap) as [A1 _]. destruct (dist_range _ _ _ _ Wp Wb Ap Ab) as [B1 _].
  destruct (dist_range _ _ _ _ Wa Wb Aa Ab) as [C1 _].
  assert (A0 : 0 <= A) by apply dist_nonneg. assert (B0 : 0 <= B) by apply dist_nonneg. assert (C0 : 0 <= C) by apply dist_nonneg.
  fold A in A1. fold B in B1. fold C in C1.
  assert (GE0 : forall v, 0 <= v -> 0 <= rnd32 v).
  { intros v Hv. pose proof (rnd_ge_grid v 0 0 ltac:(lia) ltac:(lia)) as X. cbn [bpow] in X. lra. }
  assert (LE : forall v c, (0 <= c <= 100)%Z -> v <= IZR c * u -> rnd32 v <= IZR c * u) by (intros v c Hc; apply rnd_le_grid; lia).
  pose proof (LE A 17%Z ltac:(lia) A1) as A3. pose proof (LE B 17%Z ltac:(lia) B1) as B3. pose proof (LE C 17%Z ltac:(lia) C1) as C3.
  pose proof (GE0 A A0) as A4. pose proof (GE0 B B0) as B4. pose proof (GE0 C C0) as C4.
  assert (U : 0 < u <= bpow radix2 51) by (split; [apply bpow_gt_0|apply bpow_le; lia]).
  assert (BIG : 100 * u < bpow radix2 128).
  { apply Rle_lt_trans with (bpow radix2 7 * bpow radix2 51); [|rewrite <- bpow_plus; apply bpow_lt; lia].
    replace (bpow radix2 7) with 128 by (simpl; lra). nra. }
  pose proof (Bplus_correct 24 128 _ _ mode_NE x y FA FB) as P. rewrite RA, RB in P.
  pose proof (LE (rnd32 A + rnd32 B) 34%Z ltac:(lia) ltac:(lra)) as S3. pose proof (GE0 (rnd32 A + rnd32 B) ltac:(lra)) as S4.
  rewrite Rlt_bool_true in P by (rewrite Rabs_right by lra; lra). destruct P as (P1 & P2 & _).
  pose proof (Bminus_correct 24 128 _ _ mode_NE (Bplus mode_NE x y) z P2 FC) as M. rewrite P1, RC in M.
  set (s := rnd32 (rnd32 A + rnd32 B)) in *. set (c := rnd32 C) in *.
  assert (M3 : Rabs (rnd32 (s - c)) <= 51 * u).
  { apply Rabs_le. split.
    - replace (- (51 * u)) with (IZR (-51) * u) by (change (IZR (-51)) with (- (51)); ring). apply rnd_ge_grid; [lia|lia|]. fold u. lra.
    - apply (LE (s - c) 51%Z); [lia|lra]. }
  rewrite Rlt_bool_true in M by lra. destruct M as (M1 & M2 & _).
  destruct (cmp_exact (Babs (Bminus mode_NE (Bplus mode_NE x y) z)) _ ltac:(rewrite is_finite_Babs; exact M2) Fe) as (K1 & _).
  rewrite K1, B2R_Babs, M1, Ee. f_equal; [f_equal|].
  - rewrite <- EA. destruct (cmp_exact _ (Babs x) Fe ltac:(rewrite is_finite_Babs; exact FA)) as (K2 & _).
    destruct (cmp_exact _ x Fe FA) as (K3 & _). rewrite K2, K3, B2R_Babs, RA, Rabs_right by lra. reflexivity.
  - rewrite <- EB. destruct (cmp_exact _ (Babs y) Fe ltac:(rewrite is_finite_Babs; exact FB)) as (K2 & _).
    destruct (cmp_exact _ y Fe FB) as (K3 & _). rewrite K2, K3, B2R_Babs, RB, Rabs_right by lra. reflexivity.
Qed.

(** Agreement with the inner points, from bounds on the two detours. *)
Lemma on_cases : forall a b p ka kb kp i, within 6 ka -> within 6 kb -> within 6 kp ->
  at_grid e a ka -> at_grid e b kb -> at_grid e p kp ->
  let A := dist (toR a) (toR p) in let B := dist (toR p) (toR b) in let C := dist (toR a) (toR b) in
  (on_segment (toR a) (toR b) (toR p) -> Rabs (rnd32 (rnd32 (rnd32 A + rnd32 B) - rnd32 C)) < eps32) ->
  (toR p <> toR a -> toR p <> toR b -> ~ on_segment (toR a) (toR b) (toR p) ->
     eps32 <= A + B - C /\ eps32 <= rnd32 (rnd32 (rnd32 A + rnd32 B) - rnd32 C)) ->
  (is_on_line_segment (O := FO lm) a b p i = true <-> inner (toR a) (toR b) (toR p)) /\
  (is_on_line_segment (O := XO) (up a) (up b) (up p) i = true <-> inner (toR a) (toR b) (toR p)).
Proof.
  intros a b p ka kb kp i Wa Wb Wp Aa Ab Ap A B C Hon Hoff.
  assert (EB : eps32 < u) by (apply bpow_lt; lia). assert (E0 : 0 < eps32) by apply bpow_gt_0.
  destruct (dist_range _ _ _ _ Wa Wp Aa Ap) as [_ A2]. destruct (dist_range _ _ _ _ Wp Wb Ap Ab) as [_ B2].
  fold A in A2. fold B in B2.
  assert (D : on_segment (toR a) (toR b) (toR p) \/ ~ on_segment (toR a) (toR b) (toR p)) by apply Classical_Prop.classic.
  assert (NA : eps32 < A -> toR p <> toR a) by (intros H E; unfold A in H; rewrite E, dist_self0 in H; lra).
  assert (NB : eps32 < B -> toR p <> toR b) by (intros H E; unfold B in H; rewrite E, dist_self0 in H; lra).
  assert (PA : toR p <> toR a -> eps32 < A) by (intros N; specialize (A2 (not_eq_sym N)); lra).
  assert (PB : toR p <> toR b -> eps32 < B) by (intros N; specialize (B2 N); lra).
  split.
  - rewrite (on_f32 a b p ka kb kp i Wa Wb Wp Aa Ab Ap). rewrite !andb_true_iff, !Rltb_true. fold A B C. split.
    + intros [[H1 H2] H3]. specialize (NA H2). specialize (NB H3). split; [|split; assumption].
      destruct D as [D|D]; [exact D|]. destruct (Hoff NA NB D) as [_ X]. pose proof (Rle_abs (rnd32 (rnd32 (rnd32 A + rnd32 B) - rnd32 C))). lra.
    + intros (H1 & H2 & H3). split; [split|]; auto.
  - unfold up. rewrite on_segment_test. fold A B C. split.
    + intros (H1 & H2 & H3). specialize (NA H2). specialize (NB H3). split; [|split; assumption].
      destruct D as [D|D]; [exact D|]. destruct (Hoff NA NB D) as [X _]. lra.
    + intros (H1 & H2 & H3). split; [|split; auto]. pose proof (on_segment_dist _ _ _ H1) as E. fold A B C in E. lra.
Qed.

(** ** Any segments, spacing 2^-9 .. 2^-5 *)
Lemma small_on : (-9 <= e <= -5)%Z -> forall a b p i, grid_le 6 e a -> grid_le 6 e b -> grid_le 6 e p ->
  (is_on_line_segment (O := FO lm) a b p i = true <-> inner (toR a) (toR b) (toR p)) /\
  (is_on_line_segment (O := XO) (up a) (up b) (up p) i = true <-> inner (toR a) (toR b) (toR p)).
Proof.
  intros Es a b p i Ga Gb Gp.
  apply grid_le_at in Ga. destruct Ga as (ka & Wa & Aa). apply grid_le_at in Gb. destruct Gb as (kb & Wb & Ab).
  apply grid_le_at in Gp. destruct Gp as (kp & Wp & Ap).
  apply (on_cases a b p ka kb kp i Wa Wb Wp Aa Ab Ap).
  all: destruct (dist_range _ _ _ _ Wa Wp Aa Ap) as [A1 A2]; destruct (dist_range _ _ _ _ Wp Wb Ap Ab) as [B1 B2];
    destruct (dist_range _ _ _ _ Wa Wb Aa Ab) as [C1 C2];
    set (A := dist (toR a) (toR p)) in *; set (B := dist (toR p) (toR b)) in *; set (C := dist (toR a) (toR b)) in *;
    set (h := bpow radix2 (-24));
    assert (U1 : bpow radix2 (-9) <= u <= bpow radix2 (-5)) by (split; apply bpow_le; lia);
    change (bpow radix2 (-9)) with (/ 512) in U1; change (bpow radix2 (-5)) with (/ 32) in U1;
    assert (H0 : 0 < h) by apply bpow_gt_0;
    assert (H1 : h <= / 1024) by (change (/ 1024) with (bpow radix2 (-10)); apply bpow_le; lia);
    assert (EE : eps32 = 2 * h) by (change eps32 with (bpow radix2 (1 + -24)); rewrite bpow_plus; reflexivity);
    assert (A0 : 0 <= A) by apply dist_nonneg; assert (B0 : 0 <= B) by apply dist_nonneg; assert (C0 : 0 <= C) by apply dist_nonneg;
    assert (M1 : bpow radix2 (-125) <= / 32) by (change (/ 32) with (bpow radix2 (-5)); apply bpow_le; lia).
  - intros On.
    assert (E : A + B = C) by (apply on_segment_dist; exact On).
    assert (X1 : forall x, x = 0 \/ u <= x -> Rabs (rnd32 x - x) <= h * x).
    { intros x [-> | Hx].
      - replace (rnd32 0) with 0 by (symmetry; apply round_0; apply rnd32_valid). rewrite Rminus_0_r, Rabs_R0. lra.
      - apply rnd_err; [|rewrite Rabs_right; lra]. apply Rle_trans with (2 := Hx). apply bpow_le; lia. }
    assert (Z : forall x y, dist x y = 0 \/ x <> y).
    { intros x y. destruct (Classical_Prop.classic (x = y)) as [-> | N]; [left; apply dist_self0|right; exact N]. }
    assert (XA : Rabs (rnd32 A - A) <= h * A).
    { apply X1. destruct (Z (toR a) (toR p)) as [Q|Q]; [left; exact Q|right; apply A2; exact Q]. }
    assert (XB : Rabs (rnd32 B - B) <= h * B).
    { apply X1. destruct (Z (toR p) (toR b)) as [Q|Q]; [left; exact Q|right; apply B2; exact Q]. }
    assert (XC : Rabs (rnd32 C - C) <= h * C).
    { apply X1. destruct (Z (toR a) (toR b)) as [Q|Q]; [left; exact Q|right; apply C2; exact Q]. }
    apply Rabs_le_inv in XA. apply Rabs_le_inv in XB. apply Rabs_le_inv in XC.
    assert (M0 : h * A <= A /\ h * B <= B) by (split; rewrite <- (Rmult_1_l A) at 2 || rewrite <- (Rmult_1_l B) at 2; apply Rmult_le_compat_r; lra).
    assert (M2 : h * A + h * B = h * C) by (rewrite <- E; ring).
    assert (M3 : h * C <= h * (17/32)) by (apply Rmult_le_compat_l; lra).
    assert (XS : Rabs (rnd32 (rnd32 A + rnd32 B) - (rnd32 A + rnd32 B)) <= h * (9/16)).
    { apply rnd_err; [lra|]. rewrite Rabs_right; lra. }
    apply Rabs_le_inv in XS.
    assert (LE : rnd32 (rnd32 (rnd32 A + rnd32 B) - rnd32 C) <= IZR 7 * bpow radix2 (-26)).
    { apply rnd_le_grid; [lia|lia|]. change h with (bpow radix2 (2 + -26)) in *. rewrite bpow_plus in *. change (bpow radix2 2) with 4 in *.
      lra. }
    assert (GE : IZR (-7) * bpow radix2 (-26) <= rnd32 (rnd32 (rnd32 A + rnd32 B) - rnd32 C)).
    { apply rnd_ge_grid; [lia|lia|]. change (IZR (-7)) with (- (7)). change h with (bpow radix2 (2 + -26)) in *. rewrite bpow_plus in *. change (bpow radix2 2) with 4 in *.
      lra. }
    change (IZR (-7)) with (- (7)) in GE.
    assert (H7 : 2 * h = 8 * bpow radix2 (-26)) by (change h with (bpow radix2 (2 + -26)); rewrite bpow_plus; change (bpow radix2 2) with 4; ring).
    pose proof (bpow_gt_0 radix2 (-26)) as P26.
    apply Rabs_def1; lra.
  - intros Na Nb Nc.
    pose proof (lattice_gap a b p ka kb kp Wa Wb Wp Aa Ab Ap Na Nb Nc) as GP. fold A B C in GP.
    assert (X0 : forall x M, / 32 <= M -> 0 <= x <= M -> Rabs (rnd32 x - x) <= h * M).
    { intros x M HM Hx. apply rnd_err; [lra|]. rewrite Rabs_right; lra. }
    assert (G8 : 8 * h <= A + B - C).
    { change h with (/ 16777216). lra. }
    split; [lra|].
    pose proof (X0 A (17/32) ltac:(lra) ltac:(lra)) as XA. pose proof (X0 B (17/32) ltac:(lra) ltac:(lra)) as XB.
    pose proof (X0 C (17/32) ltac:(lra) ltac:(lra)) as XC.
    apply Rabs_le_inv in XA. apply Rabs_le_inv in XB. apply Rabs_le_inv in XC.
    assert (GE0 : forall v, 0 <= v -> 0 <= rnd32 v).
    { intros v Hv. pose proof (rnd_ge_grid v 0 0 ltac:(lia) ltac:(lia)) as X. cbn [bpow] in X. lra. }
    pose proof (GE0 A A0) as A4. pose proof (GE0 B B0) as B4.
    pose proof (X0 (rnd32 A + rnd32 B) (5/4) ltac:(lra) ltac:(lra)) as XS. apply Rabs_le_inv in XS.
    assert (F : IZR 2 * h <= rnd32 (rnd32 (rnd32 A + rnd32 B) - rnd32 C)) by (apply rnd_ge_grid; [lia|lia|]; fold h; lra).
    lra.
Qed.

(** ** Segments parallel to an axis, spacing 2^-19 .. 2^51 *)
Lemma sqrt_sq : forall n, sqrt (IZR (n * n)) = IZR (Z.abs n).
Proof. intros n. rewrite <- (Z.abs_square n), mult_IZR. apply sqrt_square. apply IZR_le. lia. Qed.

Lemma rnd_int : forall n f, (Z.abs n <= 16777216)%Z -> (-149 <= f <= 103)%Z -> rnd32 (IZR n * bpow radix2 f) = IZR n * bpow radix2 f.
Proof. intros n f Hn Hf. exact (proj1 (representable n f Hn Hf)). Qed.

Lemma axis_num : forall U V H, (Z.abs U <= 12)%Z -> (Z.abs V <= 12)%Z -> (Z.abs H <= 12)%Z ->
  let A := sqrt (IZR (U * U + H * H)) * u in let B := sqrt (IZR (V * V + H * H)) * u in
  let C := sqrt (IZR ((U + V) * (U + V))) * u in
  (H = 0%Z -> rnd32 (rnd32 (rnd32 A + rnd32 B) - rnd32 C) = A + B - C) /\
  (H <> 0%Z -> bpow radix2 (e - 4) <= A + B - C /\ bpow radix2 (e - 4) <= rnd32 (rnd32 (rnd32 A + rnd32 B) - rnd32 C)).
Proof.
  intros U V H HU HV HH A B C.
  assert (EC : C = IZR (Z.abs (U + V)) * u) by (unfold C; now rewrite sqrt_sq).
  assert (RC : rnd32 C = C) by (rewrite EC; apply rnd_int; lia).
  rewrite RC. split.
  - intros ->. assert (EA : A = IZR (Z.abs U) * u) by (unfold A; now rewrite Z.mul_0_r, Z.add_0_r, sqrt_sq).
    assert (EB : B = IZR (Z.abs V) * u) by (unfold B; now rewrite Z.mul_0_r, Z.add_0_r, sqrt_sq).
    assert (RA : rnd32 A = A) by (rewrite EA; apply rnd_int; lia).
    assert (RB : rnd32 B = B) by (rewrite EB; apply rnd_int; lia).
    rewrite RA, RB.
    assert (RS : rnd32 (A + B) = A + B).
    { replace (A + B) with (IZR (Z.abs U + Z.abs V) * u) by (rewrite EA, EB, plus_IZR; ring). apply rnd_int; lia. }
    rewrite RS.
    replace (A + B - C) with (IZR (Z.abs U + Z.abs V - Z.abs (U + V)) * u) by (rewrite EA, EB, EC, minus_IZR, plus_IZR; ring).
    apply rnd_int; lia.
  - intros NH. set (v := bpow radix2 (e - 5)). assert (V0 : 0 < v) by apply bpow_gt_0.
    assert (UV : u = 32 * v) by (unfold u, v; replace e with (5 + (e - 5))%Z at 1 by lia; rewrite bpow_plus; reflexivity).
    assert (F : bpow radix2 (e - 4) = 2 * v) by (unfold v; replace (e - 4)%Z with (1 + (e - 5))%Z by lia; rewrite bpow_plus; reflexivity).
    assert (LO : forall X, (Z.abs X <= 12)%Z -> IZR (32 * Z.abs X + 1) * v <= sqrt (IZR (X * X + H * H)) * u).
    { intros X HX. rewrite UV. replace (IZR (32 * Z.abs X + 1) * v) with (IZR (32 * Z.abs X + 1) / 32 * (32 * v)) by field.
      apply Rmult_le_compat_r; [lra|]. apply sq_le; [apply sqrt_pos|]. rewrite sqrt_sqrt.
      - assert (1 <= IZR (H * H)) by (apply IZR_le; nia).
        rewrite <- (Z.abs_square X). rewrite !plus_IZR, !mult_IZR in *. assert (0 <= IZR (Z.abs X) <= 12) by (split; apply IZR_le; lia). nra.
      - apply IZR_le. nia. }
    pose proof (LO U HU) as LA. pose proof (LO V HV) as LB. fold A in LA. fold B in LB.
    assert (RA : IZR (32 * Z.abs U + 1) * v <= rnd32 A) by (apply rnd_ge_grid; [lia|lia|exact LA]).
    assert (RB : IZR (32 * Z.abs V + 1) * v <= rnd32 B) by (apply rnd_ge_grid; [lia|lia|exact LB]).
    assert (RS : IZR (32 * Z.abs U + 1 + (32 * Z.abs V + 1)) * v <= rnd32 (rnd32 A + rnd32 B)).
    { apply rnd_ge_grid; [lia|lia|]. fold v. rewrite (plus_IZR (32 * Z.abs U + 1)). lra. }
    assert (T : IZR (32 * Z.abs U + 1 + (32 * Z.abs V + 1)) >= 32 * IZR (Z.abs (U + V)) + 2).
    { rewrite <- mult_IZR, <- plus_IZR. apply Rle_ge, IZR_le. lia. }
    assert (T2 : (32 * IZR (Z.abs (U + V)) + 2) * v <= IZR (32 * Z.abs U + 1 + (32 * Z.abs V + 1)) * v) by (apply Rmult_le_compat_r; lra).
    rewrite (plus_IZR (32 * Z.abs U + 1)) in T2, RS. rewrite EC, UV. rewrite F. split; [lra|].
    change (2 * v) with (IZR 2 * v). apply rnd_ge_grid; [lia|lia|]. fold v. lra.
Qed.

Lemma axis_on : (-19 <= e)%Z -> forall a b p i, grid_le 6 e a -> grid_le 6 e b -> grid_le 6 e p -> axis (toR a) (toR b) ->
  (is_on_line_segment (O := FO lm) a b p i = true <-> inner (toR a) (toR b) (toR p)) /\
  (is_on_line_segment (O := XO) (up a) (up b) (up p) i = true <-> inner (toR a) (toR b) (toR p)).
Proof.
  intros Es a b p i Ga Gb Gp Ax.
  apply grid_le_at in Ga. destruct Ga as (ka & Wa & Aa). apply grid_le_at in Gb. destruct Gb as (kb & Wb & Ab).
  apply grid_le_at in Gp. destruct Gp as (kp & Wp & Ap).
  assert (U0 : 0 < u) by apply bpow_gt_0.
  assert (EB : eps32 <= bpow radix2 (e - 4)) by (apply bpow_le; lia).
  assert (E0 : 0 < eps32) by apply bpow_gt_0.
  assert (EU : eps32 < u) by (apply bpow_lt; lia).
  assert (N : exists U V H, (Z.abs U <= 12)%Z /\ (Z.abs V <= 12)%Z /\ (Z.abs H <= 12)%Z /\
    (dist2 ka kp = U * U + H * H)%Z /\ (dist2 kp kb = V * V + H * H)%Z /\ (dist2 ka kb = (U + V) * (U + V))%Z /\
    (H = 0%Z -> cross (toR a) (toR b) (toR a) (toR p) = 0) /\ (on_segment (toR a) (toR b) (toR p) -> H = 0%Z)).
  { unfold axis in Ax. rewrite (toR_at _ _ _ Aa), (toR_at _ _ _ Ab), (toR_at _ _ _ Ap) in *. cbn [vx vy] in Ax. fold u in Ax |- *.
    destruct ka as [a1 a2], kb as [b1 b2], kp as [p1 p2]. destruct Wa, Wb, Wp. unfold dist2, cross; cbn [fst snd vx vy] in *.
    destruct Ax as [X|X]; apply Rmult_eq_reg_r in X; try lra; apply eq_IZR in X; subst.
    - exists (p2 - a2)%Z, (b2 - p2)%Z, (p1 - b1)%Z. repeat apply conj; try lia.
      + intros Q. replace p1 with b1 by lia. ring.
      + intros (t & _ & Q). injection Q as Q _. assert (Q' : (IZR p1 - IZR b1) * u = 0) by lra.
        apply Rmult_integral in Q'. destruct Q' as [Q'|Q']; [|lra]. rewrite <- minus_IZR in Q'. now apply eq_IZR in Q'.
    - exists (p1 - a1)%Z, (b1 - p1)%Z, (p2 - b2)%Z. repeat apply conj; try lia.
      + intros Q. replace p2 with b2 by lia. ring.
      + intros (t & _ & Q). injection Q as _ Q. assert (Q' : (IZR p2 - IZR b2) * u = 0) by lra.
        apply Rmult_integral in Q'. destruct Q' as [Q'|Q']; [|lra]. rewrite <- minus_IZR in Q'. now apply eq_IZR in Q'. }
  destruct N as (U & V & H & HU & HV & HH & EA & EB' & EC & HC & HO).
  destruct (axis_num U V H HU HV HH) as [N1 N2]. rewrite <- EA, <- EB', <- EC in N1, N2. unfold u in N1, N2.
  rewrite <- (dist_at _ _ _ _ _ Aa Ap), <- (dist_at _ _ _ _ _ Ap Ab), <- (dist_at _ _ _ _ _ Aa Ab) in N1, N2.
  apply (on_cases a b p ka kb kp i Wa Wb Wp Aa Ab Ap).
  - intros On. rewrite (N1 (HO On)). rewrite (on_segment_dist _ _ _ On). unfold Rminus. rewrite Rplus_opp_r, Rabs_R0. exact E0.
  - intros Na Nb Nc. destruct (Z.eq_dec H 0) as [Z|NZ].
    + rewrite (N1 Z). destruct (dist_range _ _ _ _ Wa Wp Aa Ap) as [_ A2]. destruct (dist_range _ _ _ _ Wp Wb Ap Ab) as [_ B2].
      specialize (A2 (not_eq_sym Na)). specialize (B2 Nb).
      destruct (collinear_gap _ _ _ (HC Z) Nc) as [-> | ->]; lra.
    + destruct (N2 NZ). lra.
Qed.
End On.
