(** * Distances in f32. *)
From Coq Require Import ZArith Reals Lia Lra Psatz List Bool.
From Flocq Require Import Core.Core IEEE754.BinarySingleNaN.
From Verif Require Import Scalar Utils F32 Laws PlaneSpec GeoSpec Format RoundSpec Rounding NearCalc.
Import ListNotations.
Local Open Scope R_scope.

Lemma root_error : forall S s e k, 0 <= S -> 0 <= s -> 0 <= e <= / 4 -> 0 <= k -> Rabs (s - S) <= e * S + k ^ 2 ->
  Rabs (sqrt s - sqrt S) <= (e / 2 + e ^ 2 / 2) * sqrt S + k.
Proof.
  intros S s e k PS Ps He Pk H. apply Rabs_le_inv in H. pose proof (sqrt_pos S) as R. pose proof (sqrt_sqrt S PS) as Q. set (x := sqrt S) in *.
  assert (E2 : 0 <= e ^ 2 <= e / 4) by (split; nra).
  apply Rabs_le. split.
  - set (c := e / 2 + e ^ 2 / 2). destruct (Rle_dec ((1 - c) * x) k) as [L|L]; [pose proof (sqrt_pos s); lra|].
    assert (sqrt s >= (1 - c) * x - k); [|lra]. apply Rle_ge. apply Rsqr_incr_0_var; [|apply sqrt_pos].
    rewrite Rsqr_sqrt by exact Ps. unfold Rsqr.
    assert (C : (1 - c) * (1 - c) <= 1 - e) by (unfold c; nra).
    assert ((1 - c) * (1 - c) * (x * x) <= (1 - e) * (x * x)) by (apply Rmult_le_compat_r; [nra|exact C]).
    nra.
  - assert (sqrt s <= (1 + e / 2) * x + k); [|assert (0 <= e ^ 2 / 2 * x) by (apply Rmult_le_pos; lra); lra].
    assert (0 <= (1 + e / 2) * x) by (apply Rmult_le_pos; lra).
    apply Rsqr_incr_0_var; [|lra].
    rewrite Rsqr_sqrt by exact Ps. unfold Rsqr.
    assert ((1 + e) * (x * x) <= (1 + e / 2) * (1 + e / 2) * (x * x)) by (apply Rmult_le_compat_r; nra). nra.
Qed.

Section Geo.
Variable lm : Libm.
Local Notation F := (FO lm).
Local Notation f := (single lm).

Lemma u_eq : ur f = u32. Proof. reflexivity. Qed.
Lemma huge_eq : huge f = bpow radix2 128. Proof. reflexivity. Qed.
Lemma tiny_eq : tiny f = bpow radix2 (-126). Proof. reflexivity. Qed.
Lemma eps_val : is_finite (ceps : F) = true /\ B2R (ceps : F) = eps32.
Proof. split; [reflexivity|]. vm_compute. lra. Qed.

Lemma sq_nonneg : forall x : f32, 0 <= B2R (Bmult mode_NE x x) .
Proof.
  intros x. pose proof (Bmult_correct 24 128 _ _ mode_NE x x) as C.
  destruct (Rlt_bool _ _) in C.
  - destruct C as (C & _). rewrite C. apply round_ge_generic; [apply fexp32_valid|apply rnd32_valid|apply generic_format_0|]. apply Rle_0_sqr.
  - destruct (Bmult mode_NE x x) as [s|s| |s m e H]; try (cbn; lra). exfalso. destruct (xorb (Bsign x) (Bsign x)); discriminate C.
Qed.
Lemma sqrt_rel : forall s : f32, is_finite s = true -> 0 <= B2R s ->
  is_finite (Bsqrt mode_NE s) = true /\ exists d e, Rabs d <= u32 /\ Rabs e <= u32 * tiny f /\ B2R (Bsqrt mode_NE s) = sqrt (B2R s) * (1 + d) + e.
Proof.
  intros s Fs Ps. destruct (Bsqrt_correct 24 128 _ _ mode_NE s) as (E & G & _). split.
  - rewrite G. destruct s as [b|b| |[|] m e H]; try reflexivity; try discriminate Fs.
    exfalso. cbn in Ps. apply (Rlt_not_le _ _ (F2R_lt_0 radix2 (Float radix2 (Z.neg m) e) eq_refl)). exact Ps.
  - destruct (rnd_any f (sqrt (B2R s))) as (d & e & Hd & He & Q). exists d, e. split; [exact Hd|]. split; [exact He|].
    rewrite E. exact Q.
Qed.

Lemma big63 : forall d, 0 <= d <= bpow radix2 63 -> (1 + u32) ^ 4 * (d ^ 2 + 2 * tiny f) < huge f.
Proof.
  intros d Hd. rewrite huge_eq, tiny_eq. assert (d ^ 2 <= bpow radix2 126).
  { change 126%Z with (63 + 63)%Z. rewrite bpow_plus. nra. }
  assert (bpow radix2 (-126) <= 1) by (change 1 with (bpow radix2 0); apply bpow_le; lia).
  assert (4 * bpow radix2 126 = bpow radix2 128) by (change 128%Z with (2 + 126)%Z; rewrite bpow_plus; reflexivity).
  assert (1000 <= bpow radix2 126) by (apply Rle_trans with (bpow radix2 10); [cbn; lra|apply bpow_le; lia]).
  assert ((1 + u32) ^ 4 <= 11 / 10) by (unfold u32; lra).
  assert (0 <= d ^ 2 + 2 * bpow radix2 (-126)) by (pose proof (bpow_ge_0 radix2 (-126)); nra).
  apply Rle_lt_trans with (11 / 10 * (d ^ 2 + 2 * bpow radix2 (-126))); [apply Rmult_le_compat_r; lra|lra].
Qed.

Lemma distance_error : forall a b : Vec2 F, pfin a -> pfin b -> let d := dist (real_point a) (real_point b) in
  d <= bpow radix2 63 -> within (32 / 10 * u32 * d + bpow radix2 (-73)) (distance a b : f32) d.
Proof.
  intros [ax ay] [bx by'] [Fax Fay] [Fbx Fby] d Hd. unfold distance, p_norm, p_dot, p_sub. cbn [vx vy omul oadd osub osqrt FO] in *.
  set (X := B2R bx - B2R ax) in *. set (Y := B2R by' - B2R ay) in *.
  assert (Ed : d = sqrt (X * X + Y * Y)) by reflexivity.
  assert (PS : 0 <= X * X + Y * Y) by nra.
  assert (Pd : 0 <= d) by (rewrite Ed; apply sqrt_pos).
  assert (D2 : d ^ 2 = X * X + Y * Y) by (rewrite Ed, <- Rsqr_pow2; now apply Rsqr_sqrt).
  pose proof (big63 d (conj Pd Hd)) as Big. rewrite D2 in Big.
  pose proof (tiny_pos f) as Pt. assert (Pu : 0 < u32) by (unfold u32; lra).
  assert (AX : Rabs X <= d) by (rewrite Ed, <- sqrt_Rsqr_abs; apply sqrt_le_1_alt; unfold Rsqr; nra).
  assert (AY : Rabs Y <= d) by (rewrite Ed, <- sqrt_Rsqr_abs; apply sqrt_le_1_alt; unfold Rsqr; nra).
  assert (Room1 : (1 + u32) * d < huge f).
  { rewrite huge_eq. assert (2 * bpow radix2 63 < bpow radix2 128) by (change 2 with (bpow radix2 1); rewrite <- bpow_plus; apply bpow_lt; lia).
    unfold u32 in *. lra. }
  assert (N1 : nr f 1 (Rabs X) (Bminus mode_NE bx ax) X).
  { apply nr_diff; [exact Fbx|exact Fax|]. rewrite u_eq. eapply Rle_lt_trans; [|exact Room1]. apply Rmult_le_compat_l; [lra|exact AX]. }
  assert (N2 : nr f 1 (Rabs Y) (Bminus mode_NE by' ay) Y).
  { apply nr_diff; [exact Fby|exact Fay|]. rewrite u_eq. eapply Rle_lt_trans; [|exact Room1]. apply Rmult_le_compat_l; [lra|exact AY]. }
  assert (QX : Rabs X * Rabs X = X * X) by (rewrite <- Rabs_mult, Rabs_pos_eq; [reflexivity|nra]).
  assert (QY : Rabs Y * Rabs Y = Y * Y) by (rewrite <- Rabs_mult, Rabs_pos_eq; [reflexivity|nra]).
  pose proof (pow_mono f 3 4 ltac:(lia)) as P34. rewrite u_eq in P34. pose proof (pow1 f 3) as P3. rewrite u_eq in P3.
  assert (M1 : nr f 3 (X * X + tiny f) (Bmult mode_NE (Bminus mode_NE bx ax) (Bminus mode_NE bx ax)) (X * X)).
  { rewrite <- QX at 1. apply (nr_mul f 1 1 _ _ _ _ _ _ N1 N1). rewrite QX, u_eq. eapply Rle_lt_trans; [|exact Big]. apply Rmult_le_compat; cbn [Nat.add]; nra. }
  assert (M2 : nr f 3 (Y * Y + tiny f) (Bmult mode_NE (Bminus mode_NE by' ay) (Bminus mode_NE by' ay)) (Y * Y)).
  { rewrite <- QY at 1. apply (nr_mul f 1 1 _ _ _ _ _ _ N2 N2). rewrite QY, u_eq. eapply Rle_lt_trans; [|exact Big]. apply Rmult_le_compat; cbn [Nat.add]; nra. }
  assert (M3 := nr_add f 3 _ _ _ _ _ _ M1 M2). rewrite u_eq in M3.
  specialize (M3 ltac:(eapply Rle_lt_trans; [|exact Big]; apply Req_le; ring)).
  set (s := Bplus mode_NE _ _) in *. destruct M3 as (_ & Fs & Es). rewrite u_eq in Es.
  assert (Ps : 0 <= B2R s).
  { pose proof (Bplus_correct 24 128 _ _ mode_NE _ _ (proj1 (proj2 M1)) (proj1 (proj2 M2))) as C.
    destruct (Rlt_bool _ _) in C.
    - destruct C as (C & _). eapply Rle_trans; [|apply Req_le; symmetry; exact C]. apply round_ge_generic; [apply fexp32_valid|apply rnd32_valid|apply generic_format_0|].
      pose proof (sq_nonneg (Bminus mode_NE bx ax)). pose proof (sq_nonneg (Bminus mode_NE by' ay)). lra.
    - exfalso. destruct C as (C & _). change (B2SF s = binary_overflow 24 128 mode_NE (Bsign (Bmult mode_NE (Bminus mode_NE bx ax) (Bminus mode_NE bx ax)))) in C.
      clearbody s. destruct s as [b|b| |b m e H]; try discriminate Fs; destruct (Bsign _) in C; discriminate C. }
  destruct (sqrt_rel s Fs Ps) as (Fq & dd & e & Hdd & He & Eq).
  split; [exact Fq|]. rewrite Eq.
  assert (E4 : (1 + u32) ^ 4 - 1 <= 4001 / 1000 * u32) by (unfold u32; lra).
  pose proof (bpow_gt_0 radix2 (-126)) as T126.
  assert (RE : Rabs (sqrt (B2R s) - d) <= ((4001 / 1000 * u32) / 2 + (4001 / 1000 * u32) ^ 2 / 2) * d + bpow radix2 (-74) * (3 / 2)).
  { rewrite Ed. apply root_error; [exact PS|exact Ps|unfold u32; lra|pose proof (bpow_gt_0 radix2 (-74)); lra|].
    eapply Rle_trans; [exact Es|]. replace (X * X + tiny f + (Y * Y + tiny f)) with ((X * X + Y * Y) + 2 * tiny f) by ring.
    assert (K : (bpow radix2 (-74) * (3 / 2)) ^ 2 = 9 / 4 * bpow radix2 (-148)).
    { change (-148)%Z with (-74 + -74)%Z. rewrite bpow_plus. field. }
    rewrite K. assert (K2 : u32 * tiny f * 8 = bpow radix2 (-147)).
    { rewrite tiny_eq. change u32 with (bpow radix2 (-24)). change 8 with (bpow radix2 3). rewrite <- !bpow_plus. reflexivity. }
    assert (K3 : bpow radix2 (-147) = 2 * bpow radix2 (-148)) by (change 2 with (bpow radix2 1); rewrite <- bpow_plus; reflexivity).
    apply Rle_trans with (4001 / 1000 * u32 * ((X * X + Y * Y) + 2 * tiny f)); [apply Rmult_le_compat_r; lra|].
    pose proof (bpow_gt_0 radix2 (-148)). nra. }
  set (q := sqrt (B2R s)) in *.
  assert (RW : q * (1 + dd) + e - d = (q - d) * (1 + dd) + d * dd + e) by ring.
  match goal with |- _ <= ?y => change (Rabs (q * (1 + dd) + e - d) <= y) end. rewrite RW.
  eapply Rle_trans; [apply Rabs_triang|]. eapply Rle_trans; [apply Rplus_le_compat; [apply Rabs_triang|exact He]|]. rewrite !Rabs_mult.
  rewrite (Rabs_pos_eq d) by exact Pd.
  assert (A1 : Rabs (1 + dd) <= 1 + u32) by (eapply Rle_trans; [apply Rabs_triang|]; rewrite Rabs_R1; lra).
  assert (B1 : Rabs (q - d) * Rabs (1 + dd) <= (((4001 / 1000 * u32) / 2 + (4001 / 1000 * u32) ^ 2 / 2) * d + bpow radix2 (-74) * (3 / 2)) * (1 + u32))
    by (apply Rmult_le_compat; auto using Rabs_pos).
  assert (B2 : d * Rabs dd <= d * u32) by (apply Rmult_le_compat_l; assumption).
  assert (T74 : u32 * tiny f <= bpow radix2 (-74) * / 1000).
  { rewrite tiny_eq. change u32 with (bpow radix2 (-24)). rewrite <- bpow_plus. apply Rle_trans with (bpow radix2 (-74) * bpow radix2 (-10)); [rewrite <- bpow_plus; apply bpow_le; lia|].
    apply Rmult_le_compat_l; [apply bpow_ge_0|]. cbn. lra. }
  assert (E73 : bpow radix2 (-73) = 2 * bpow radix2 (-74)) by (change 2 with (bpow radix2 1); rewrite <- bpow_plus; reflexivity).
  rewrite E73. pose proof (bpow_gt_0 radix2 (-74)) as P74. unfold u32 in *. lra.
Qed.

(** ** Distances beyond 2^63 *)
Definition atleast (r : R) (z : f32) : Prop := z = B754_infinity false \/ (is_finite z = true /\ r <= B2R z).
Lemma rnd_ge : forall k x, (-149 < k)%Z -> bpow radix2 k <= x -> bpow radix2 k <= rnd32 x.
Proof.
  intros k x Hk H. apply round_ge_generic; [apply fexp32_valid|apply rnd32_valid| |exact H].
  apply generic_format_bpow. unfold SpecFloat.fexp, SpecFloat.emin. lia.
Qed.
Lemma rnd_ge0 : forall x, 0 <= x -> 0 <= rnd32 x.
Proof. intros x H. apply round_ge_generic; [apply fexp32_valid|apply rnd32_valid|apply generic_format_0|exact H]. Qed.
Lemma minus_big : forall x y : f32, is_finite x = true -> is_finite y = true -> bpow radix2 62 <= Rabs (B2R x - B2R y) ->
  atleast (bpow radix2 62) (Babs (Bminus mode_NE x y)).
Proof.
  intros x y Fx Fy H. pose proof (Bminus_correct 24 128 _ _ mode_NE x y Fx Fy) as C.
  destruct (Rlt_bool _ _) in C.
  - right. destruct C as (C & G & _). split; [now rewrite is_finite_Babs|]. rewrite B2R_Babs, C.
    destruct (Rcase_abs (B2R x - B2R y)) as [N|P].
    + rewrite Rabs_left in H by exact N. replace (B2R x - B2R y) with (- - (B2R x - B2R y)) by ring. rewrite round_NE_opp, Rabs_Ropp.
      eapply Rle_trans; [|apply RRle_abs]. apply rnd_ge; [lia|lra].
    + rewrite Rabs_right in H by exact P. eapply Rle_trans; [|apply RRle_abs]. apply rnd_ge; [lia|lra].
  - left. destruct C as (C & _). revert C. generalize (Bminus mode_NE x y). intros z C.
    destruct (Bsign x) in C; destruct z as [s|s| |s m e Hz]; try discriminate C; reflexivity.
Qed.
Lemma minus_nonnan : forall x y : f32, is_finite x = true -> is_finite y = true -> is_nan (Bminus mode_NE x y) = false.
Proof.
  intros x y Fx Fy. pose proof (Bminus_correct 24 128 _ _ mode_NE x y Fx Fy) as C.
  destruct (Rlt_bool _ _) in C; destruct C as (C & G); revert C G; generalize (Bminus mode_NE x y); intros z C G.
  - destruct z; try reflexivity. destruct G as (G & _). discriminate G.
  - destruct (Bsign x) in C; destruct z as [s|s| |s m e Hz]; try discriminate C; reflexivity.
Qed.
Lemma sq_atleast : forall k (z : f32), (-149 < k + k)%Z -> atleast (bpow radix2 k) (Babs z) -> atleast (bpow radix2 (k + k)) (Bmult mode_NE z z).
Proof.
  intros k z Hk [E|[Fz H]].
  - left. destruct z as [s|s| |s m e Hz]; try discriminate E. destruct s; reflexivity.
  - rewrite is_finite_Babs in Fz. rewrite B2R_Babs in H. pose proof (Bmult_correct 24 128 _ _ mode_NE z z) as C.
    destruct (Rlt_bool _ _) in C.
    + right. destruct C as (C & G & _). rewrite Fz in G. split; [exact G|]. rewrite C. apply rnd_ge; [exact Hk|].
      rewrite bpow_plus. rewrite <- (Rabs_pos_eq (B2R z * B2R z)) by apply Rle_0_sqr. rewrite Rabs_mult. pose proof (bpow_ge_0 radix2 k). apply Rmult_le_compat; assumption.
    + left. rewrite xorb_nilpotent in C. revert C. generalize (Bmult mode_NE z z). intros w C. destruct w as [s|[|]| |s m e Hz]; try discriminate C; reflexivity.
Qed.
Lemma sq_nonneg' : forall z : f32, is_nan z = false -> atleast 0 (Bmult mode_NE z z).
Proof.
  intros z Nz. destruct (is_finite z) eqn:Fz.
  - pose proof (Bmult_correct 24 128 _ _ mode_NE z z) as C. destruct (Rlt_bool _ _) in C.
    + right. destruct C as (_ & G & _). rewrite Fz in G. split; [exact G|]. apply sq_nonneg.
    + left. rewrite xorb_nilpotent in C. revert C. generalize (Bmult mode_NE z z). intros w C. destruct w as [s|[|]| |s m e Hz]; try discriminate C; reflexivity.
  - left. destruct z as [s|[|]| |s m e Hz]; try discriminate; reflexivity.
Qed.
Lemma plus_atleast : forall k (x y : f32), (-149 < k)%Z -> atleast (bpow radix2 k) x -> atleast 0 y ->
  atleast (bpow radix2 k) (Bplus mode_NE x y) /\ atleast (bpow radix2 k) (Bplus mode_NE y x).
Proof.
  intros k x y Hk Hx Hy. rewrite (Bplus_comm y x). assert (atleast (bpow radix2 k) (Bplus mode_NE x y)); [|now split].
  destruct Hx as [-> |[Fx Hx]], Hy as [-> |[Fy Hy]].
  - now left. - left. destruct y as [s|[|]| |s m e Hz]; try discriminate; reflexivity.
  - left. destruct x as [s|[|]| |s m e Hz]; try discriminate; reflexivity.
  - pose proof (Bplus_correct 24 128 _ _ mode_NE x y Fx Fy) as C. destruct (Rlt_bool _ _) in C.
    + right. destruct C as (C & G & _). split; [exact G|]. rewrite C. apply rnd_ge; [exact Hk|lra].
    + left. destruct C as (C & _). assert (S : Bsign x = false).
      { destruct x as [s|s| |[|] m e Hz]; try discriminate Fx; try reflexivity.
        - cbn in Hx. pose proof (bpow_gt_0 radix2 k). lra.
        - exfalso. pose proof (F2R_lt_0 radix2 (Float radix2 (Z.neg m) e) eq_refl) as N. cbn in Hx. pose proof (bpow_gt_0 radix2 k). cbn in N. lra. }
      rewrite S in C. revert C. generalize (Bplus mode_NE x y). intros w C. destruct w as [s|[|]| |s m e Hz]; try discriminate C; reflexivity.
Qed.
Lemma sqrt_atleast : forall k (x : f32), (-149 < k)%Z -> atleast (bpow radix2 (k + k)) x -> atleast (bpow radix2 k) (Bsqrt mode_NE x).
Proof.
  intros k x Hk [-> |[Fx Hx]]; [now left|right]. pose proof (bpow_gt_0 radix2 (k + k)).
  destruct (sqrt_rel x Fx ltac:(lra)) as [G _]. split; [exact G|].
  destruct (Bsqrt_correct 24 128 _ _ mode_NE x) as (E & _). rewrite E. apply rnd_ge; [exact Hk|].
  rewrite <- (sqrt_Rsqr (bpow radix2 k)) by apply bpow_ge_0. apply sqrt_le_1_alt. unfold Rsqr. rewrite <- bpow_plus. exact Hx.
Qed.
Lemma distance_far : forall a b : Vec2 F, pfin a -> pfin b -> bpow radix2 63 <= dist (real_point a) (real_point b) ->
  atleast (bpow radix2 62) (distance a b : f32).
Proof.
  intros [ax ay] [bx by'] [Fax Fay] [Fbx Fby] Hd. unfold distance, p_norm, p_dot, p_sub. cbn [vx vy omul oadd osub osqrt FO] in *.
  apply sqrt_atleast; [lia|].
  unfold dist, real_point in Hd. cbn [vx vy] in Hd. set (X := B2R bx - B2R ax) in *. set (Y := B2R by' - B2R ay) in *.
  pose proof (sq_nonneg' _ (minus_nonnan bx ax Fbx Fax)) as NX. pose proof (sq_nonneg' _ (minus_nonnan by' ay Fby Fay)) as NY.
  assert (H : bpow radix2 62 <= Rabs X \/ bpow radix2 62 <= Rabs Y).
  { destruct (Rle_dec (bpow radix2 62) (Rabs X)); [now left|]. destruct (Rle_dec (bpow radix2 62) (Rabs Y)); [now right|]. exfalso.
    assert (Q : sqrt (X * X + Y * Y) < bpow radix2 63); [|lra].
    rewrite <- (sqrt_Rsqr (bpow radix2 63)) by apply bpow_ge_0. apply sqrt_lt_1_alt. split; [nra|]. unfold Rsqr.
    change 63%Z with (1 + 62)%Z. rewrite bpow_plus. change (bpow radix2 1) with 2.
    pose proof (bpow_gt_0 radix2 62). set (B := bpow radix2 62) in *.
    assert (X * X < B * B) by (rewrite <- (Rabs_pos_eq (X * X)) by nra; rewrite Rabs_mult; pose proof (Rabs_pos X); nra).
    assert (Y * Y < B * B) by (rewrite <- (Rabs_pos_eq (Y * Y)) by nra; rewrite Rabs_mult; pose proof (Rabs_pos Y); nra). nra. }
  destruct H as [H|H].
  - refine (proj1 (plus_atleast _ _ _ _ _ NY)); [lia|]. apply sq_atleast; [lia|]. now apply minus_big.
  - refine (proj2 (plus_atleast _ _ _ _ _ NX)); [lia|]. apply sq_atleast; [lia|]. now apply minus_big.
Qed.

(** ** The comparisons with epsilon *)
Lemma atleast_lt : forall r (x y : f32), is_finite y = true -> atleast r x -> B2R y <= r -> Bltb x y = false /\ Bleb y x = true.
Proof.
  intros r x y Fy [-> |[Fx H]] Hy.
  - destruct y as [s|[|]| |[|] m e Hz]; try discriminate; split; reflexivity.
  - rewrite Bltb_correct, Bleb_correct by assumption. split; [apply Rlt_bool_false|apply Rle_bool_true]; lra.
Qed.
Lemma eps_num : eps32 = / 8388608. Proof. reflexivity. Qed.
Lemma small73 : bpow radix2 (-73) <= / 10000000 * u32 * eps32.
Proof.
  rewrite eps_num. unfold u32. apply Rle_trans with (bpow radix2 (-73)); [lra|].
  apply Rle_trans with (/ 9444732965739290427392); [apply Req_le; reflexivity|lra].
Qed.
Lemma far_eps : eps32 * 2 <= bpow radix2 62.
Proof. change 2 with (bpow radix2 1). unfold eps32. rewrite <- bpow_plus. apply bpow_le. lia. Qed.
Lemma lt_eps_real : forall a b : Vec2 F, pfin a -> pfin b -> let d := dist (real_point a) (real_point b) in
  (olt (distance a b) ceps = true -> d < eps32 * (1 + 4 * u32)) /\ (olt (distance a b) ceps = false -> eps32 * (1 - 4 * u32) < d).
Proof.
  intros a b Fa Fb d. cbn [olt FO]. destruct eps_val as [Fe Ee]. cbn [ceps FO] in *.
  destruct (Rle_dec (bpow radix2 63) d) as [L|L].
  - pose proof (distance_far a b Fa Fb L) as A. destruct (atleast_lt _ _ _ Fe A) as [B _]. { rewrite Ee. pose proof far_eps. pose proof eps_num. lra. }
    rewrite B. split; [discriminate|]. intros _. pose proof far_eps.
    assert (bpow radix2 62 <= bpow radix2 63) by (apply bpow_le; lia). rewrite eps_num in *. unfold u32. lra.
  - assert (Pd : 0 <= d) by apply sqrt_pos.
    destruct (distance_error a b Fa Fb ltac:(fold d; lra)) as [Fd Hd]. fold d in Hd. apply Rabs_le_inv in Hd. pose proof small73 as S73.
    rewrite (Bltb_correct 24 128 _ _ Fd Fe), Ee. destruct (Rlt_bool_spec (B2R (distance a b : f32)) eps32) as [H|H]; split; try discriminate; intros _; rewrite eps_num in *; unfold u32 in *; lra.
Qed.
Lemma le_eps_real : forall a b : Vec2 F, pfin a -> pfin b -> let d := dist (real_point a) (real_point b) in
  (ole (distance a b) ceps = true -> d < eps32 * (1 + 4 * u32)) /\ (ole (distance a b) ceps = false -> eps32 * (1 - 4 * u32) < d).
Proof.
  intros a b Fa Fb d. cbn [ole FO]. destruct eps_val as [Fe Ee]. cbn [ceps FO] in *.
  destruct (Rle_dec (bpow radix2 63) d) as [L|L].
  - pose proof (distance_far a b Fa Fb L) as A. pose proof far_eps as FE.
    assert (B : Bleb (distance a b : f32) (f32_of 1 (-23)) = false).
    { destruct A as [-> |[Fx H]]; [reflexivity|]. rewrite (Bleb_correct 24 128 _ _ Fx Fe), Ee. apply Rle_bool_false. unfold eps32 in *. pose proof (bpow_gt_0 radix2 (-23)). lra. }
    rewrite B. split; [discriminate|]. intros _.
    assert (bpow radix2 62 <= bpow radix2 63) by (apply bpow_le; lia). rewrite eps_num in *. unfold u32. lra.
  - assert (Pd : 0 <= d) by apply sqrt_pos.
    destruct (distance_error a b Fa Fb ltac:(fold d; lra)) as [Fd Hd]. fold d in Hd. apply Rabs_le_inv in Hd. pose proof small73 as S73.
    rewrite (Bleb_correct 24 128 _ _ Fd Fe), Ee. destruct (Rle_bool_spec (B2R (distance a b : f32)) eps32) as [H|H]; split; try discriminate; intros _; rewrite eps_num in *; unfold u32 in *; lra.
Qed.
End Geo.
