(** * Norms, normalize and inverse of src/math with rounding, in any binary format. *)
From Coq Require Import ZArith Reals Lia Lra Psatz.
From Flocq Require Import Core.Core BinarySingleNaN.
From Verif Require Import Scalar GA Format RoundSpec Rounding GARound.
Local Open Scope R_scope.

(** ** Plain facts about reals *)
Lemma unit_dist : forall a b c d x y z w k e, 0 <= k -> 0 <= e ->
  a ^ 2 + b ^ 2 + c ^ 2 + d ^ 2 = 1 ->
  Rabs (x - a) <= k * Rabs a + e -> Rabs (y - b) <= k * Rabs b + e -> Rabs (z - c) <= k * Rabs c + e -> Rabs (w - d) <= k * Rabs d + e ->
  Rabs (sqrt (x ^ 2 + y ^ 2 + z ^ 2 + w ^ 2) - 1) <= k + 2 * e.
Proof.
  intros a b c d x y z w k e Pk Pe U Ha Hb Hc Hd.
  set (n := sqrt (x ^ 2 + y ^ 2 + z ^ 2 + w ^ 2)).
  assert (Q : 0 <= x ^ 2 + y ^ 2 + z ^ 2 + w ^ 2).
  { pose proof (pow2_ge_0 x). pose proof (pow2_ge_0 y). pose proof (pow2_ge_0 z). pose proof (pow2_ge_0 w). lra. }
  assert (N2 : n ^ 2 = x ^ 2 + y ^ 2 + z ^ 2 + w ^ 2).
  { unfold n. replace (sqrt (x ^ 2 + y ^ 2 + z ^ 2 + w ^ 2) ^ 2) with (sqrt (x ^ 2 + y ^ 2 + z ^ 2 + w ^ 2) * sqrt (x ^ 2 + y ^ 2 + z ^ 2 + w ^ 2)) by ring. now apply sqrt_sqrt. }
  assert (Nn : 0 <= n) by apply sqrt_pos.
  assert (D : x * a + y * b + z * c + w * d <= n).
  { apply Rsqr_incr_0_var; [|exact Nn]. unfold Rsqr. pose proof (cs4 x y z w a b c d) as C. rewrite U, <- N2 in C. lra. }
  assert (S : (Rabs a + Rabs b + Rabs c + Rabs d) ^ 2 <= 4).
  { pose proof (cs4 (Rabs a) (Rabs b) (Rabs c) (Rabs d) 1 1 1 1) as C. rewrite !Rmult_1_r in C. rewrite <- !Rsqr_pow2, <- !Rsqr_abs, !Rsqr_pow2 in C. rewrite U in C. lra. }
  assert (S' : Rabs a + Rabs b + Rabs c + Rabs d <= 2).
  { apply Rsqr_incr_0_var; [|lra]. unfold Rsqr. lra. }
  assert (E : forall p q, Rabs (p - q) <= k * Rabs q + e -> (p - q) ^ 2 <= k ^ 2 * q ^ 2 + 2 * k * e * Rabs q + e ^ 2).
  { intros p q H. rewrite <- Rsqr_pow2, Rsqr_abs, Rsqr_pow2.
    apply Rle_trans with ((k * Rabs q + e) ^ 2).
    - apply pow_incr. split; [apply Rabs_pos|exact H].
    - right. replace (q ^ 2) with (Rabs q ^ 2) by (rewrite <- !Rsqr_pow2, <- Rsqr_abs; reflexivity). ring. }
  apply E in Ha. apply E in Hb. apply E in Hc. apply E in Hd.
  assert (T : (n - 1) ^ 2 <= (k + 2 * e) ^ 2).
  { apply Rle_trans with ((x - a) ^ 2 + (y - b) ^ 2 + (z - c) ^ 2 + (w - d) ^ 2).
    - assert (n ^ 2 = x ^ 2 + y ^ 2 + z ^ 2 + w ^ 2) by exact N2. nra.
    - assert (2 * k * e * (Rabs a + Rabs b + Rabs c + Rabs d) <= 2 * k * e * 2).
      { apply Rmult_le_compat_l; [|exact S']. pose proof (Rmult_le_pos k e Pk Pe). lra. }
      assert (k ^ 2 * (a ^ 2 + b ^ 2 + c ^ 2 + d ^ 2) = k ^ 2) by (rewrite U; ring).
      nra. }
  apply Rsqr_le_abs_0 in T || (rewrite <- !Rsqr_pow2 in T; apply Rsqr_le_abs_0 in T).
  rewrite (Rabs_pos_eq (k + 2 * e)) in T by lra. exact T.
Qed.

Section Norm.
Variable f : Fmt.
Hypothesis wide : (11 <= prec f)%Z.
Local Notation O := (BO f).
Local Notation u := (ur f).
Local Notation t := (tiny f).

Lemma u_small : 0 < u <= / 2048.
Proof.
  split; [apply ur_pos|]. change (/ 2048) with (bpow radix2 (-11)). apply bpow_le. lia.
Qed.
Lemma t_small : 0 < t <= / 1024.
Proof.
  split; [apply tiny_pos|]. change (/ 1024) with (bpow radix2 (-10)). apply bpow_le.
  pose proof (prec_emax f) as H. unfold Prec_lt_emax in H. lia.
Qed.
Lemma huge_big : 4096 <= huge f.
Proof.
  change 4096 with (bpow radix2 12). apply bpow_le. pose proof (prec_emax f) as H. unfold Prec_lt_emax in H. lia.
Qed.
Lemma pow4 : (1 + u) ^ 4 <= 1 + 4 * u + 7 * u ^ 2.
Proof. pose proof u_small. nra. Qed.

(** The square root of a sum of squares. *)
Lemma root_near : forall (s : fl f) S, t <= u * S -> near f 4 (S + 4 * t) s S ->
  is_finite (Bsqrt mode_NE s) = true /\ 0 < B2R s /\ Rabs (B2R s - S) <= 41 / 10 * u * S /\
  exists d, Rabs d <= 32 / 10 * u /\ B2R (Bsqrt mode_NE s) = sqrt S * (1 + d).
Proof.
  intros s S Hs [F E]. pose proof u_small as [Pu Su]. pose proof t_small as [Pt St]. pose proof pow4 as P4.
  assert (PS : 0 < S). { apply Rmult_lt_reg_l with u; [exact Pu|]. lra. }
  assert (E' : Rabs (B2R s - S) <= 41 / 10 * u * S).
  { eapply Rle_trans; [exact E|]. apply Rle_trans with ((4 * u + 7 * u ^ 2) * (S + 4 * (u * S))).
    - apply Rmult_le_compat; [|lra|lra|lra]. pose proof (pow1 f 4). lra.
    - nra. }
  clear E. apply Rabs_le_inv in E'.
  assert (Ps : 0 < B2R s) by nra.
  assert (Fs : is_finite (Bsqrt mode_NE s) = true).
  { pose proof (proj1 (proj2 (Bsqrt_correct _ _ _ _ mode_NE s))) as G. rewrite G. clear G.
    destruct s as [b|b| |[|] m e H]; try discriminate; try reflexivity. exfalso.
    assert (B2R (B754_finite true m e H : fl f) < 0) by (apply F2R_lt_0; cbn; lia). lra. }
  split; [exact Fs|]. split; [exact Ps|]. split; [apply Rabs_le; lra|].
  pose proof (proj1 (Bsqrt_correct _ _ _ _ mode_NE s)) as V.
  pose (a := B2R s / S - 1).
  assert (Ha : B2R s = S * (1 + a)) by (unfold a; field; lra).
  assert (Ba : - (41 / 10 * u) <= a <= 41 / 10 * u).
  { assert (S * a = B2R s - S) by (rewrite Ha; ring). split; apply Rmult_le_reg_l with S; lra. }
  assert (Sq : sqrt (B2R s) = sqrt S * sqrt (1 + a)) by (rewrite Ha; apply sqrt_mult; lra).
  pose (b := sqrt (1 + a) - 1).
  assert (Bb : - (21 / 10 * u) <= b <= 21 / 10 * u).
  { unfold b. split.
    - assert (1 - 21 / 10 * u <= sqrt (1 + a)); [|lra].
      rewrite <- (sqrt_pow2 (1 - 21 / 10 * u)) by lra. apply sqrt_le_1; nra.
    - assert (sqrt (1 + a) <= 1 + 21 / 10 * u); [|lra].
      rewrite <- (sqrt_pow2 (1 + 21 / 10 * u)) by lra. apply sqrt_le_1; nra. }
  assert (Nrm : t <= Rabs (sqrt (B2R s))).
  { rewrite Rabs_pos_eq by apply sqrt_pos. rewrite <- (sqrt_pow2 t) by lra. apply sqrt_le_1; [nra|lra|].
    assert (S * u <= S * (/ 2048)) by (apply Rmult_le_compat_l; lra). nra. }
  destruct (rnd_normal f (sqrt (B2R s)) Nrm) as (d & Hd & Er). apply Rabs_le_inv in Hd.
  exists (b + d + b * d). split.
  - assert (Bd : Rabs (b * d) <= 21 / 10 * u * u) by (rewrite Rabs_mult; apply Rmult_le_compat; try apply Rabs_pos; apply Rabs_le; lra).
    apply Rabs_le_inv in Bd. assert (21 / 10 * u * u <= / 10 * u) by nra. apply Rabs_le. lra.
  - rewrite V, Er, Sq. unfold b. ring.
Qed.

(** Dividing a component by the norm. *)
Lemma over_root : forall (x n : fl f) S, is_finite x = true -> t <= u * S -> B2R x ^ 2 <= S ->
  (exists d, Rabs d <= 32 / 10 * u /\ B2R n = sqrt S * (1 + d)) ->
  is_finite (Bdiv mode_NE x n) = true /\
  Rabs (B2R (Bdiv mode_NE x n) - B2R x / sqrt S) <= 45 / 10 * u * Rabs (B2R x / sqrt S) + u * t /\
  Rabs (B2R x / sqrt S) <= 1.
Proof.
  intros x n S Fx HS Hx (d & Hd & En). pose proof u_small as [Pu Su]. pose proof t_small as [Pt St]. pose proof huge_big as Hh.
  assert (PS : 0 < S). { apply Rmult_lt_reg_l with u; [exact Pu|]. lra. }
  pose proof (sqrt_lt_R0 S PS) as Pr. apply Rabs_le_inv in Hd.
  assert (Pn : 0 < B2R n) by (rewrite En; apply Rmult_lt_0_compat; lra).
  assert (C1 : Rabs (B2R x / sqrt S) <= 1).
  { unfold Rdiv. rewrite Rabs_mult, (Rabs_inv (sqrt S)), (Rabs_pos_eq (sqrt S)) by lra.
    apply Rmult_le_reg_r with (sqrt S); [exact Pr|]. rewrite Rmult_assoc, Rinv_l, Rmult_1_r, Rmult_1_l by lra.
    rewrite <- sqrt_Rsqr_abs. apply sqrt_le_1; [apply Rle_0_sqr|lra|]. rewrite Rsqr_pow2. exact Hx. }
  set (c := B2R x / sqrt S) in *.
  assert (Q : B2R x / B2R n = c * / (1 + d)). { unfold c. rewrite En. field. split; lra. }
  assert (I : exists g, Rabs g <= 33 / 10 * u /\ / (1 + d) = 1 + g).
  { exists (/ (1 + d) - 1). split; [|ring]. replace (/ (1 + d) - 1) with (- d / (1 + d)) by (field; lra).
    unfold Rdiv. rewrite Rabs_mult, Rabs_Ropp, Rabs_inv, (Rabs_pos_eq (1 + d)) by lra.
    apply Rmult_le_reg_r with (1 + d); [lra|]. rewrite Rmult_assoc, Rinv_l, Rmult_1_r by lra.
    apply Rle_trans with (32 / 10 * u); [apply Rabs_le; lra|]. nra. }
  destruct I as (g & Hg & Eg). rewrite Eg in Q. apply Rabs_le_inv in Hg.
  pose proof (Rabs_pos c) as Pc.
  assert (K : Rabs (c * (1 + g)) <= 2).
  { rewrite Rabs_mult, (Rabs_pos_eq (1 + g)) by lra. nra. }
  destruct (div_ok f x n Fx) as (F & d' & e & Hd' & He & V); [lra|rewrite Q; nra|].
  split; [exact F|]. split; [|exact C1]. rewrite V, Q. apply Rabs_le_inv in Hd'.
  replace (c * (1 + g) * (1 + d') + e - c) with (c * (g + d' + g * d') + e) by ring.
  eapply Rle_trans; [apply Rabs_triang|]. apply Rplus_le_compat; [|exact He].
  rewrite Rabs_mult, Rmult_comm. apply Rmult_le_compat_r; [exact Pc|].
  assert (Bd : Rabs (g * d') <= 33 / 10 * u * u) by (rewrite Rabs_mult; apply Rmult_le_compat; try apply Rabs_pos; apply Rabs_le; lra).
  apply Rabs_le_inv in Bd. assert (33 / 10 * u * u <= / 10 * u) by nra. apply Rabs_le. lra.
Qed.

(** The squared norms. *)
Definition vsq (v : Vector3 O) : R := B2R (a1 v) ^ 2 + B2R (a2 v) ^ 2 + B2R (a3 v) ^ 2.
Definition bsq (v : Bivector3 O) : R := B2R (b1 v) ^ 2 + B2R (b2 v) ^ 2 + B2R (b3 v) ^ 2.
Definition rsq (v : Rotor3 O) : R := B2R (scalar v) ^ 2 + B2R (b1 (bivector v)) ^ 2 + B2R (b2 (bivector v)) ^ 2 + B2R (b3 (bivector v)) ^ 2.
Lemma sq_abs : forall x : fl f, Rabs (B2R x) * Rabs (B2R x) = B2R x ^ 2.
Proof. intros. rewrite <- Rabs_mult, Rabs_pos_eq by (apply Rle_0_sqr). ring. Qed.
Lemma room4 : forall S, 0 <= S -> 4 * S <= huge f -> (1 + u) ^ 4 * (S + 4 * t) < huge f.
Proof.
  intros S PS HS. pose proof u_small. pose proof t_small. pose proof huge_big. pose proof pow4.
  apply Rle_lt_trans with (2 * (S + 4 * t)); [|lra]. apply Rmult_le_compat_r; [lra|]. nra.
Qed.
Lemma vsq_near : forall v : Vector3 O, vfin v -> 4 * vsq v <= huge f -> near f 4 (vsq v + 4 * t) (vec_norm_squared v) (vsq v).
Proof.
  intros [x y z] (X & Y & Z) H. unfold vsq in *. cbn [a1 a2 a3] in *.
  pose proof (pow2_ge_0 (B2R x)). pose proof (pow2_ge_0 (B2R y)). pose proof (pow2_ge_0 (B2R z)). pose proof (tiny_pos f).
  unfold vec_norm_squared, vec_dot. cbn [a1 a2 a3].
  replace (B2R x ^ 2 + B2R y ^ 2 + B2R z ^ 2) with (B2R x * B2R x + B2R y * B2R y + B2R z * B2R z) at 2 by ring.
  reify_near. apply near_flat; [cbn; tauto|cbn; tauto|cbn; lia|cbn [mag]; rewrite !sq_abs; lra|]. apply room4; lra.
Qed.
Lemma bsq_near : forall v : Bivector3 O, bfin v -> 4 * bsq v <= huge f -> near f 4 (bsq v + 4 * t) (biv_norm_squared v) (bsq v).
Proof.
  intros [x y z] (X & Y & Z) H. unfold bsq in *. cbn [b1 b2 b3] in *.
  pose proof (pow2_ge_0 (B2R x)). pose proof (pow2_ge_0 (B2R y)). pose proof (pow2_ge_0 (B2R z)). pose proof (tiny_pos f).
  unfold biv_norm_squared, biv_neg, biv_dot. cbn [b1 b2 b3].
  replace (B2R x ^ 2 + B2R y ^ 2 + B2R z ^ 2) with (- (- B2R x * B2R x + - B2R y * B2R y + - B2R z * B2R z)) at 2 by ring.
  reify_near. apply near_flat; [cbn; tauto|cbn; tauto|cbn; lia|cbn [mag]; rewrite !sq_abs; lra|]. apply room4; lra.
Qed.
Lemma tsq_near : forall v : Trivector3 O, is_finite (t1 v) = true -> 4 * B2R (t1 v) ^ 2 <= huge f ->
  near f 4 (B2R (t1 v) ^ 2 + 4 * t) (tri_norm_squared v) (B2R (t1 v) ^ 2).
Proof.
  intros [x] X H. cbn [t1] in *. pose proof (pow2_ge_0 (B2R x)). pose proof (tiny_pos f).
  unfold tri_norm_squared, tri_neg, tri_dot. cbn [t1].
  replace (B2R x ^ 2) with (- - B2R x * B2R x) at 2 by ring.
  reify_near. apply near_flat; [cbn; tauto|cbn; tauto|cbn; lia|cbn [mag]; rewrite !sq_abs; lra|]. apply room4; lra.
Qed.
Lemma rsq_near : forall v : Rotor3 O, rfin v -> 4 * rsq v <= huge f -> near f 4 (rsq v + 4 * t) (rot_norm_squared v) (rsq v).
Proof.
  intros [w [x y z]] (W & X & Y & Z) H. unfold rsq in *. cbn [b1 b2 b3 scalar bivector] in *.
  pose proof (pow2_ge_0 (B2R w)). pose proof (pow2_ge_0 (B2R x)). pose proof (pow2_ge_0 (B2R y)). pose proof (pow2_ge_0 (B2R z)). pose proof (tiny_pos f).
  unfold rot_norm_squared, rot_inverse, rot_dot, biv_neg, biv_dot. cbn [b1 b2 b3 scalar bivector].
  replace (B2R w ^ 2 + B2R x ^ 2 + B2R y ^ 2 + B2R z ^ 2) with (B2R w * B2R w + - (- B2R x * B2R x + - B2R y * B2R y + - B2R z * B2R z)) at 2 by ring.
  reify_near. apply near_flat; [cbn; tauto|cbn; tauto|cbn; lia|cbn [mag]; rewrite !sq_abs; lra|]. apply room4; lra.
Qed.

Lemma sized_pos : forall L, sized f L -> 0 < L.
Proof.
  intros L (P & H & _). pose proof u_small as [Pu _]. pose proof t_small as [Pt _].
  destruct P as [P|P]; [exact P|]. rewrite <- P in H. replace (u * 0 ^ 2) with 0 in H by ring. lra.
Qed.
Lemma t_huge : t * huge f = 4.
Proof. unfold tiny, huge. rewrite <- bpow_plus. replace (2 - emax f + emax f)%Z with 2%Z by ring. reflexivity. Qed.
(** The smallest normal number is negligible beside the inverse of such a length. *)
Lemma sized_t : forall L, sized f L -> t * L <= / 32.
Proof.
  intros L H. pose proof (sized_pos L H) as PL. destruct H as (_ & _ & H). pose proof t_huge as T. pose proof t_small as [Pt _]. pose proof huge_big.
  assert (Q : (t * L) ^ 2 <= (/ 32) ^ 2).
  { replace ((t * L) ^ 2) with (t * t * (L ^ 2)) by ring.
    apply Rle_trans with (t * t * (huge f / 4)); [apply Rmult_le_compat_l; nra|].
    replace (t * t * (huge f / 4)) with (t * (t * huge f) / 4) by field. rewrite T.
    assert (t * 4096 <= 4) by (rewrite <- T; apply Rmult_le_compat_l; lra). lra. }
  rewrite <- !Rsqr_pow2 in Q. apply Rsqr_incr_0_var in Q; [exact Q|lra].
Qed.
Lemma sized_mul : forall L K, sized f L -> sized f K -> t <= u * (L * K) /\ 4 * (L * K) <= huge f.
Proof.
  intros L K HL HK. pose proof (sized_pos L HL). pose proof (sized_pos K HK). destruct HL as (_ & L1 & L2), HK as (_ & K1 & K2).
  pose proof u_small as [Pu _]. pose proof t_small as [Pt _]. pose proof huge_big. split.
  - destruct (Rle_or_lt L K).
    + eapply Rle_trans; [exact L1|]. apply Rmult_le_compat_l; [lra|]. nra.
    + eapply Rle_trans; [exact K1|]. apply Rmult_le_compat_l; [lra|]. nra.
  - destruct (Rle_or_lt L K); nra.
Qed.

(** ** normalize *)
Lemma vlen_sq : forall v : Vector3 O, vlen (rv v) = sqrt (vsq v).
Proof. reflexivity. Qed.
Lemma blen_sq : forall v : Bivector3 O, blen (rb v) = sqrt (bsq v).
Proof. reflexivity. Qed.
Lemma rlen_sq : forall v : Rotor3 O, rlen (rr v) = sqrt (rsq v).
Proof. reflexivity. Qed.
Lemma tlen_sq : forall v : Trivector3 O, tlen (rt v) = sqrt (B2R (t1 v) ^ 2).
Proof. intros v. unfold tlen, rt. cbn [t1]. rewrite <- Rsqr_pow2. symmetry. apply sqrt_Rsqr_abs. Qed.

Lemma sized_sq : forall S, 0 <= S -> sized f (sqrt S) -> t <= u * S /\ 4 * S <= huge f.
Proof.
  intros S PS (_ & A & B). replace (sqrt S ^ 2) with (sqrt S * sqrt S) in A, B by ring. rewrite sqrt_sqrt in A, B by exact PS. now split.
Qed.
Lemma root_within : forall (s : fl f) S, t <= u * S -> near f 4 (S + 4 * t) s S -> within (32 / 10 * u * sqrt S) (Bsqrt mode_NE s) (sqrt S).
Proof.
  intros s S H N. destruct (root_near s S H N) as (F & _ & _ & d & Hd & E). split; [exact F|].
  rewrite E. replace (sqrt S * (1 + d) - sqrt S) with (sqrt S * d) by ring.
  rewrite Rabs_mult, (Rabs_pos_eq (sqrt S)), Rmult_comm by apply sqrt_pos. apply Rmult_le_compat_r; [apply sqrt_pos|exact Hd].
Qed.
Lemma unit4 : forall (x y z w n : fl f) S, is_finite x = true -> is_finite y = true -> is_finite z = true -> is_finite w = true ->
  S = B2R x ^ 2 + B2R y ^ 2 + B2R z ^ 2 + B2R w ^ 2 -> t <= u * S ->
  (exists d, Rabs d <= 32 / 10 * u /\ B2R n = sqrt S * (1 + d)) ->
  let q := fun a => Bdiv mode_NE a n in
  within (5 * u) (q x) (B2R x / sqrt S) /\ within (5 * u) (q y) (B2R y / sqrt S) /\ within (5 * u) (q z) (B2R z / sqrt S) /\ within (5 * u) (q w) (B2R w / sqrt S) /\
  Rabs (sqrt (B2R (q x) ^ 2 + B2R (q y) ^ 2 + B2R (q z) ^ 2 + B2R (q w) ^ 2) - 1) <= 5 * u.
Proof.
  intros x y z w n S Fx Fy Fz Fw ES HS Hn q. pose proof u_small as [Pu Su]. pose proof t_small as [Pt St].
  pose proof (pow2_ge_0 (B2R x)). pose proof (pow2_ge_0 (B2R y)). pose proof (pow2_ge_0 (B2R z)). pose proof (pow2_ge_0 (B2R w)).
  destruct (over_root x n S Fx HS ltac:(lra) Hn) as (X1 & X2 & X3). destruct (over_root y n S Fy HS ltac:(lra) Hn) as (Y1 & Y2 & Y3).
  destruct (over_root z n S Fz HS ltac:(lra) Hn) as (Z1 & Z2 & Z3). destruct (over_root w n S Fw HS ltac:(lra) Hn) as (W1 & W2 & W3).
  assert (PS : 0 < S). { apply Rmult_lt_reg_l with u; [exact Pu|]. lra. }
  pose proof (sqrt_lt_R0 S PS) as Pr.
  assert (Ut : u * t <= / 1024 * u) by nra.
  assert (W : forall c, Rabs c <= 1 -> 45 / 10 * u * Rabs c + u * t <= 5 * u) by (intros c Hc; pose proof (Rabs_pos c); nra).
  split; [split; [exact X1|eapply Rle_trans; [exact X2|now apply W]]|].
  split; [split; [exact Y1|eapply Rle_trans; [exact Y2|now apply W]]|].
  split; [split; [exact Z1|eapply Rle_trans; [exact Z2|now apply W]]|].
  split; [split; [exact W1|eapply Rle_trans; [exact W2|now apply W]]|].
  eapply Rle_trans; [eapply (unit_dist (B2R x / sqrt S) (B2R y / sqrt S) (B2R z / sqrt S) (B2R w / sqrt S)); [| | |exact X2|exact Y2|exact Z2|exact W2]|].
  - lra. - nra.
  - assert (N2 : sqrt S * sqrt S = S) by (apply sqrt_sqrt; lra).
    replace ((B2R x / sqrt S) ^ 2 + (B2R y / sqrt S) ^ 2 + (B2R z / sqrt S) ^ 2 + (B2R w / sqrt S) ^ 2)
      with ((B2R x ^ 2 + B2R y ^ 2 + B2R z ^ 2 + B2R w ^ 2) / (sqrt S * sqrt S)) by (field; lra).
    rewrite N2, <- ES. field. lra.
  - lra.
Qed.
(** A zero component stays zero. *)
Lemma zero_over : forall n : fl f, 0 < B2R n -> B2R (Bdiv mode_NE (B754_zero false : fl f) n) = 0.
Proof. intros [b|b| |b m e H] P; try (cbn in P; lra); reflexivity. Qed.
Lemma root_pos : forall (n : fl f) S, t <= u * S -> (exists d, Rabs d <= 32 / 10 * u /\ B2R n = sqrt S * (1 + d)) -> 0 < B2R n.
Proof.
  intros n S H (d & Hd & E). pose proof u_small as [Pu Su]. pose proof t_small as [Pt St]. apply Rabs_le_inv in Hd.
  assert (PS : 0 < S). { apply Rmult_lt_reg_l with u; [exact Pu|]. lra. }
  rewrite E. apply Rmult_lt_0_compat; [now apply sqrt_lt_R0|lra].
Qed.
Local Notation z0 := (B754_zero false : fl f).

Lemma vec_normalize_near : forall v : Vector3 O, vfin v -> let L := vlen (rv v) in sized f L ->
  within (32 / 10 * u * L) (vec_norm v) L /\
  veach (within (5 * u)) (vec_normalize v) (V3 (B2R (a1 v) / L) (B2R (a2 v) / L) (B2R (a3 v) / L)) /\
  Rabs (vlen (rv (vec_normalize v)) - 1) <= 5 * u.
Proof.
  intros v Fv L H. unfold L in *. clear L. rewrite vlen_sq in *.
  assert (P : 0 <= vsq v) by (unfold vsq; pose proof (pow2_ge_0 (B2R (a1 v))); pose proof (pow2_ge_0 (B2R (a2 v))); pose proof (pow2_ge_0 (B2R (a3 v))); lra).
  apply sized_sq in H; [|exact P]. destruct H as [H1 H2]. pose proof (vsq_near v Fv H2) as N.
  split; [now apply root_within|]. destruct (root_near _ _ H1 N) as (_ & _ & _ & Q). destruct Fv as (F1 & F2 & F3).
  destruct (unit4 (a1 v) (a2 v) (a3 v) z0 _ (vsq v) F1 F2 F3 eq_refl ltac:(unfold vsq; cbn; ring) H1 Q) as (A & B & C & _ & D).
  split; [exact (conj A (conj B C))|].
  rewrite (zero_over _ (root_pos _ _ H1 Q)) in D. replace (0 ^ 2) with 0 in D by ring. rewrite Rplus_0_r in D. exact D.
Qed.
Lemma biv_normalize_near : forall v : Bivector3 O, bfin v -> let L := blen (rb v) in sized f L ->
  within (32 / 10 * u * L) (biv_norm v) L /\
  beach (within (5 * u)) (biv_normalize v) (B3 (B2R (b1 v) / L) (B2R (b2 v) / L) (B2R (b3 v) / L)) /\
  Rabs (blen (rb (biv_normalize v)) - 1) <= 5 * u.
Proof.
  intros v Fv L H. unfold L in *. clear L. rewrite blen_sq in *.
  assert (P : 0 <= bsq v) by (unfold bsq; pose proof (pow2_ge_0 (B2R (b1 v))); pose proof (pow2_ge_0 (B2R (b2 v))); pose proof (pow2_ge_0 (B2R (b3 v))); lra).
  apply sized_sq in H; [|exact P]. destruct H as [H1 H2]. pose proof (bsq_near v Fv H2) as N.
  split; [now apply root_within|]. destruct (root_near _ _ H1 N) as (_ & _ & _ & Q). destruct Fv as (F1 & F2 & F3).
  destruct (unit4 (b1 v) (b2 v) (b3 v) z0 _ (bsq v) F1 F2 F3 eq_refl ltac:(unfold bsq; cbn; ring) H1 Q) as (A & B & C & _ & D).
  split; [exact (conj A (conj B C))|].
  rewrite (zero_over _ (root_pos _ _ H1 Q)) in D. replace (0 ^ 2) with 0 in D by ring. rewrite Rplus_0_r in D. exact D.
Qed.
Lemma tri_normalize_near : forall v : Trivector3 O, tfin v -> let L := tlen (rt v) in sized f L ->
  within (32 / 10 * u * L) (tri_norm v) L /\
  teach (within (5 * u)) (tri_normalize v) (T3 (B2R (t1 v) / L)) /\
  Rabs (tlen (rt (tri_normalize v)) - 1) <= 5 * u.
Proof.
  intros v Fv L H. unfold L in *. clear L. rewrite !tlen_sq in *.
  pose proof (pow2_ge_0 (B2R (t1 v))) as P.
  apply sized_sq in H; [|exact P]. destruct H as [H1 H2]. pose proof (tsq_near v Fv H2) as N.
  split; [now apply root_within|]. destruct (root_near _ _ H1 N) as (_ & _ & _ & Q).
  destruct (unit4 (t1 v) z0 z0 z0 _ (B2R (t1 v) ^ 2) Fv eq_refl eq_refl eq_refl ltac:(cbn; ring) H1 Q) as (A & _ & _ & _ & D).
  split; [exact A|].
  rewrite (zero_over _ (root_pos _ _ H1 Q)) in D. replace (0 ^ 2) with 0 in D by ring. rewrite !Rplus_0_r in D. exact D.
Qed.
Lemma rot_normalize_near : forall v : Rotor3 O, rfin v -> let L := rlen (rr v) in sized f L ->
  within (32 / 10 * u * L) (rot_norm v) L /\
  reach (within (5 * u)) (rot_normalize v)
    (Ro3 (B2R (scalar v) / L) (B3 (B2R (b1 (bivector v)) / L) (B2R (b2 (bivector v)) / L) (B2R (b3 (bivector v)) / L))) /\
  Rabs (rlen (rr (rot_normalize v)) - 1) <= 5 * u.
Proof.
  intros v Fv L H. unfold L in *. clear L. rewrite rlen_sq in *.
  assert (P : 0 <= rsq v) by (unfold rsq; pose proof (pow2_ge_0 (B2R (scalar v))); pose proof (pow2_ge_0 (B2R (b1 (bivector v)))); pose proof (pow2_ge_0 (B2R (b2 (bivector v)))); pose proof (pow2_ge_0 (B2R (b3 (bivector v)))); lra).
  apply sized_sq in H; [|exact P]. destruct H as [H1 H2]. pose proof (rsq_near v Fv H2) as N.
  split; [now apply root_within|]. destruct (root_near _ _ H1 N) as (_ & _ & _ & Q). destruct Fv as (F0 & F1 & F2 & F3).
  destruct (unit4 (scalar v) (b1 (bivector v)) (b2 (bivector v)) (b3 (bivector v)) _ (rsq v) F0 F1 F2 F3 ltac:(reflexivity) H1 Q) as (A & B & C & E & D).
  split; [exact (conj A (conj B (conj C E)))|]. exact D.
Qed.
End Norm.
