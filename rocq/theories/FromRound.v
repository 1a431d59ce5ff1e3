(** * [Rotor3::from_vectors] with rounding. *)
From Coq Require Import ZArith Reals Lia Lra Psatz.
From Flocq Require Import Core.Core BinarySingleNaN.
From Verif Require Import Scalar GA GASpec GARing GAReal Format RoundSpec Rounding GARound NormRound LenReal InvRound RotRound.
Local Open Scope R_scope.

(** ** Exact facts *)
Definition half (a b : Vector3 R) : Rotor3 R := rot_add (O := RO) (Ro3 1 (B3 0 0 0)) (vec_mul (O := RO) b a).
Lemma half_len : forall a b, vlen a = 1 -> vlen b = 1 -> rlen (half a b) = vlen (vec_add (O := RO) a b).
Proof.
  intros a b Ha Hb. pose proof (vlen_sqr a) as A. pose proof (vlen_sqr b) as B. rewrite Ha in A. rewrite Hb in B.
  destruct a as [x y z], b as [p q r]. unfold rlen, vlen, half, rot_add, vec_mul, vec_dot, vec_wedge, biv_add, vec_add in *.
  cbn [a1 a2 a3 b1 b2 b3 scalar bivector oadd omul osub RO] in *. f_equal.
  replace ((1 + (p * x + q * y + r * z)) ^ 2 + (0 + (p * y - q * x)) ^ 2 + (0 + (p * z - r * x)) ^ 2 + (0 + (q * z - r * y)) ^ 2)
    with (1 + 2 * (p * x + q * y + r * z) + (x ^ 2 + y ^ 2 + z ^ 2) * (p ^ 2 + q ^ 2 + r ^ 2)) by ring.
  rewrite <- A, <- B.
  replace ((x + p) ^ 2 + (y + q) ^ 2 + (z + r) ^ 2) with ((x ^ 2 + y ^ 2 + z ^ 2) + (p ^ 2 + q ^ 2 + r ^ 2) + 2 * (p * x + q * y + r * z)) by ring.
  rewrite <- A, <- B. ring.
Qed.
Lemma half_image : forall a b, vlen a = 1 -> vlen b = 1 -> 0 < rlen (half a b) -> rot_rotate (O := RO) (rdir (half a b)) a = b.
Proof.
  intros a b Ha Hb P. pose proof (vlen_sqr a) as A. pose proof (vlen_sqr b) as B. rewrite Ha in A. rewrite Hb in B.
  pose proof (rlen_sqr (half a b)) as N. set (L := rlen (half a b)) in *. unfold rdir. fold L.
  destruct a as [x y z], b as [p q r]. unfold half, rot_add, vec_mul, vec_dot, vec_wedge, biv_add, rot_rotate in *.
  cbn [a1 a2 a3 b1 b2 b3 scalar bivector oadd omul osub oneg RO] in *.
  set (c := p * x + q * y + r * z) in *. set (k1 := p * y - q * x) in *. set (k2 := p * z - r * x) in *. set (k3 := q * z - r * y) in *.
  assert (K : k1 ^ 2 + k2 ^ 2 + k3 ^ 2 = 1 - c ^ 2).
  { replace (k1 ^ 2 + k2 ^ 2 + k3 ^ 2) with ((x ^ 2 + y ^ 2 + z ^ 2) * (p ^ 2 + q ^ 2 + r ^ 2) - c ^ 2) by (unfold k1, k2, k3, c; ring). rewrite <- A, <- B. ring. }
  assert (N' : L ^ 2 = 2 + 2 * c) by (rewrite N; replace ((1 + c) ^ 2 + (0 + k1) ^ 2 + (0 + k2) ^ 2 + (0 + k3) ^ 2) with ((1 + c) ^ 2 + (k1 ^ 2 + k2 ^ 2 + k3 ^ 2)) by ring; rewrite K; ring).
  assert (E1 : k1 * y + k2 * z = p - c * x) by (replace (p - c * x) with (p * (1 ^ 2) - c * x) by ring; rewrite A; unfold k1, k2, c; ring).
  assert (E2 : - k1 * x + k3 * z = q - c * y) by (replace (q - c * y) with (q * (1 ^ 2) - c * y) by ring; rewrite A; unfold k1, k3, c; ring).
  assert (E3 : - k2 * x - k3 * y = r - c * z) by (replace (r - c * z) with (r * (1 ^ 2) - c * z) by ring; rewrite A; unfold k2, k3, c; ring).
  assert (E4 : - k1 * z + k2 * y - k3 * x = 0) by (unfold k1, k2, k3; ring).
  assert (Q1 : (1 + c) * x + k1 * y + k2 * z = x + p) by lra.
  assert (Q2 : (1 + c) * y - k1 * x + k3 * z = y + q) by lra.
  assert (Q3 : (1 + c) * z - k2 * x - k3 * y = z + r) by lra.
  assert (F1 : k1 * q + k2 * r = c * p - x) by (replace (c * p - x) with (c * p - x * 1 ^ 2) by ring; rewrite B; unfold k1, k2, c; ring).
  assert (F2 : - k1 * p + k3 * r = c * q - y) by (replace (c * q - y) with (c * q - y * 1 ^ 2) by ring; rewrite B; unfold k1, k3, c; ring).
  assert (F3 : - k2 * p - k3 * q = c * r - z) by (replace (c * r - z) with (c * r - z * 1 ^ 2) by ring; rewrite B; unfold k2, k3, c; ring).
  assert (D : forall m n, m = (2 + 2 * c) * n -> m / L ^ 2 = n). { intros m n ->. rewrite <- N'. field. lra. }
  clearbody c k1 k2 k3. clear K N A B.
  apply (f_equal3 (@V3 R)).
  - transitivity (((1 + c) * ((1 + c) * x + k1 * y + k2 * z) + ((1 + c) * y - k1 * x + k3 * z) * k1 + ((1 + c) * z - k2 * x - k3 * y) * k2 - (- k1 * z + k2 * y - k3 * x) * k3) / L ^ 2); [field; lra|].
    apply D. rewrite Q1, Q2, Q3, E4. transitivity ((1 + c) * (x + p) + (k1 * y + k2 * z) + (k1 * q + k2 * r)); [ring|rewrite E1, F1; ring].
  - transitivity (((1 + c) * ((1 + c) * y - k1 * x + k3 * z) - ((1 + c) * x + k1 * y + k2 * z) * k1 + (- k1 * z + k2 * y - k3 * x) * k2 + ((1 + c) * z - k2 * x - k3 * y) * k3) / L ^ 2); [field; lra|].
    apply D. rewrite Q1, Q2, Q3, E4. transitivity ((1 + c) * (y + q) + (- k1 * x + k3 * z) + (- k1 * p + k3 * r)); [ring|rewrite E2, F2; ring].
  - transitivity (((1 + c) * ((1 + c) * z - k2 * x - k3 * y) - (- k1 * z + k2 * y - k3 * x) * k1 - ((1 + c) * x + k1 * y + k2 * z) * k2 - ((1 + c) * y - k1 * x + k3 * z) * k3) / L ^ 2); [field; lra|].
    apply D. rewrite Q1, Q2, Q3, E4. transitivity ((1 + c) * (z + r) + (- k2 * x - k3 * y) + (- k2 * p - k3 * q)); [ring|rewrite E3, F3; ring].
Qed.
(** The direction of a slightly changed rotor. *)
Lemma dir_change : forall q e : Rotor3 R, rlen e < rlen q ->
  exists d : Rotor3 R, rdir (rot_add (O := RO) q e) = rot_add (O := RO) (rdir q) d /\ rlen d <= 2 * rlen e / (rlen q - rlen e).
Proof.
  intros q e H. set (x := rot_add (O := RO) q e). pose proof (rlen_pos e) as Pe.
  assert (X1 : rlen x <= rlen q + rlen e) by apply rlen_add.
  assert (X2 : rlen q <= rlen x + rlen e).
  { replace q with (rot_add (O := RO) x (Ro3 (- scalar e) (B3 (- b1 (bivector e)) (- b2 (bivector e)) (- b3 (bivector e))))) at 1.
    - eapply Rle_trans; [apply rlen_add|]. apply Rplus_le_compat_l. right. rewrite !rlen_n4. cbn [scalar bivector b1 b2 b3]. apply n4_opp.
    - unfold x. destruct q as [w [a b c]], e as [w' [a' b' c']]. unfold rot_add, biv_add. cbn [scalar bivector b1 b2 b3 oadd RO].
      apply (f_equal2 (@Ro3 R)); [ring|]. apply (f_equal3 (@B3 R)); ring. }
  assert (Px : 0 < rlen x) by lra. assert (Pq : 0 < rlen q) by lra.
  set (X := rlen x) in *. set (Q := rlen q) in *.
  pose (k := (Q - X) / X).
  exists (rot_add (O := RO) (rot_scale (O := RO) e (/ X)) (rot_scale (O := RO) (rdir q) k)). split.
  - unfold rdir. fold X Q. unfold x, k. destruct q as [w [a b c]], e as [w' [a' b' c']]. unfold rot_add, biv_add, rot_scale, biv_scale.
    cbn [scalar bivector b1 b2 b3 oadd omul RO]. apply (f_equal2 (@Ro3 R)); [field; lra|]. apply (f_equal3 (@B3 R)); field; lra.
  - assert (S : forall (r : Rotor3 R) m, rlen (rot_scale (O := RO) r m) = Rabs m * rlen r).
    { intros [w [a b c]] m. unfold rlen, rot_scale, biv_scale. cbn [scalar bivector b1 b2 b3 omul RO].
      rewrite <- sqrt_Rsqr_abs. apply sqrt_prod; [apply Rle_0_sqr|apply s4_pos|rewrite Rsqr_pow2; ring]. }
    eapply Rle_trans; [apply rlen_add|]. rewrite !S. rewrite rdir_len by exact Pq. rewrite Rmult_1_r.
    rewrite (Rabs_pos_eq (/ X)) by (left; now apply Rinv_0_lt_compat).
    assert (K : Rabs k <= rlen e / X).
    { unfold k, Rdiv. rewrite Rabs_mult, (Rabs_pos_eq (/ X)) by (left; now apply Rinv_0_lt_compat).
      apply Rmult_le_compat_r; [left; now apply Rinv_0_lt_compat|]. apply Rabs_le. lra. }
    apply Rle_trans with (2 * rlen e / X); [unfold Rdiv in *; lra|].
    unfold Rdiv. apply Rmult_le_compat_l; [lra|]. apply Rinv_le; lra.
Qed.

(** The constant 1. *)
Lemma one_value : forall f, is_finite (fl_of f 1 0) = true /\ B2R (fl_of f 1 0) = 1.
Proof.
  intros f. pose proof (binary_normalize_correct (prec f) (emax f) _ _ mode_NE 1 0 false) as C.
  assert (G : generic_format radix2 (SpecFloat.fexp (prec f) (emax f)) 1).
  { change 1 with (bpow radix2 0). apply generic_format_bpow. unfold SpecFloat.fexp, SpecFloat.emin.
    pose proof (prec_pos f) as P. pose proof (prec_emax f) as Q. unfold Prec_gt_0 in P. unfold Prec_lt_emax in Q. lia. }
  assert (E : F2R (Float radix2 1 0) = 1) by (unfold F2R; cbn; ring).
  cbv zeta in C. rewrite E in C. rewrite round_generic in C; [|apply valid_rnd_round_mode|exact G].
  rewrite Rlt_bool_true in C. { destruct C as (A & B & _). split; [exact B|exact A]. }
  rewrite Rabs_R1. change 1 with (bpow radix2 0). apply bpow_lt. pose proof (prec_pos f) as P. pose proof (prec_emax f) as Q. unfold Prec_gt_0 in P. unfold Prec_lt_emax in Q. lia.
Qed.

Section From.
Variable f : Fmt.
Hypothesis wide : (11 <= prec f)%Z.
Hypothesis deep : tiny f <= ur f ^ 3.
Local Notation O := (BO f).
Local Notation u := (ur f).
Local Notation t := (tiny f).
Local Notation u_small := (u_small f wide).
Local Notation t_small := (t_small f wide).

Lemma vec_mul_add2 : forall a b c d : Vector3 R,
  vec_mul (O := RO) (vec_add (O := RO) a b) (vec_add (O := RO) c d) =
  rot_add (O := RO) (vec_mul (O := RO) a c) (rot_add (O := RO) (rot_add (O := RO) (vec_mul (O := RO) b c) (vec_mul (O := RO) a d)) (vec_mul (O := RO) b d)).
Proof.
  intros [x y z] [x' y' z'] [p q r] [p' q' r']. unfold vec_mul, vec_dot, vec_wedge, vec_add, rot_add, biv_add.
  cbn [a1 a2 a3 b1 b2 b3 scalar bivector oadd omul osub RO]. apply (f_equal2 (@Ro3 R)); [ring|]. apply (f_equal3 (@B3 R)); ring.
Qed.
Lemma rot_add_assoc : forall a b c : Rotor3 R, rot_add (O := RO) (rot_add (O := RO) a b) c = rot_add (O := RO) a (rot_add (O := RO) b c).
Proof.
  intros [w [x y z]] [w' [x' y' z']] [w'' [x'' y'' z'']]. unfold rot_add, biv_add. cbn [scalar bivector b1 b2 b3 oadd RO].
  apply (f_equal2 (@Ro3 R)); [ring|]. apply (f_equal3 (@B3 R)); ring.
Qed.

Lemma add3 : forall a b : R, forall x : R, x = a + (b + (x - (a + b))).
Proof. intros. ring. Qed.
Lemma add4 : forall b x : R, x = 0 + (b + (x - b)).
Proof. intros. ring. Qed.
(** The rotor before it is normalised. *)
Lemma half_near : forall a b : Vector3 O, vfin a -> vfin b -> sized f (vlen (rv a)) -> sized f (vlen (rv b)) ->
  let p := Ro3 (oadd c1 (vec_dot (vec_normalize b) (vec_normalize a))) (vec_wedge (vec_normalize b) (vec_normalize a)) in
  rfin p /\ exists e : Rotor3 R, rr p = rot_add (O := RO) (half (vdir (rv a)) (vdir (rv b))) e /\ rlen e <= 22 * u.
Proof.
  intros a b Fa Fb Ha Hb p. destruct (vec_normalize_err f wide a Fa Ha) as (Na & da & Ea & Da). destruct (vec_normalize_err f wide b Fb Hb) as (Nb & db & Eb & Db).
  pose proof u_small as [Pu Su]. pose proof t_small as [Pt St]. pose proof (huge_big f wide) as Hh.
  pose proof (sized_pos f wide _ Ha) as Pa. pose proof (sized_pos f wide _ Hb) as Pb.
  pose proof (vlen_add (vdir (rv a)) da) as La. rewrite <- Ea, vdir_len in La by exact Pa.
  pose proof (vlen_add (vdir (rv b)) db) as Lb. rewrite <- Eb, vdir_len in Lb by exact Pb.
  pose proof (vlen_pos (rv (vec_normalize a))) as Pna. pose proof (vlen_pos (rv (vec_normalize b))) as Pnb.
  set (A := vlen (rv (vec_normalize a))) in *. set (B := vlen (rv (vec_normalize b))) in *.
  assert (AB : B * A <= 1 + 11 * u).
  { apply Rle_trans with ((1 + 5 * u) * (1 + 5 * u)); [apply Rmult_le_compat; lra|nra]. }
  pose proof (Rmult_le_pos _ _ Pnb Pna) as PAB.
  destruct (vec_products f (vec_normalize b) (vec_normalize a) Nb Na ltac:(fold B A; apply (room_ok f wide); lra)) as [N Nw]; fold B A in N, Nw.
  set (x := vec_dot (vec_normalize b) (vec_normalize a) : fl f) in *.
  set (w := vec_wedge (vec_normalize b) (vec_normalize a)) in *.
  set (X := vec_dot (O := RO) (rv (vec_normalize b)) (rv (vec_normalize a))) in *.
  set (Wd := vec_wedge (O := RO) (rv (vec_normalize b)) (rv (vec_normalize a))) in *.
  assert (U0 : 0 <= 1 + 11 * u + 3 * t <= 101 / 100) by lra.
  assert (V0 : within (305 / 100 * u) x X).
  { apply (within_mono f) with (301 / 100 * u * (1 + 11 * u + 3 * t)); [nra|]. apply (near_le f 3 (301 / 100 * u) (B * A + 3 * t)); [exact (p3 f wide)|lra|lra|exact N]. }
  assert (Vw : forall (y : fl f) c, near f 2 (B * A + 2 * t) y c -> within (55 / 10 * u) y c).
  { intros y c M. apply (within_mono f) with (301 / 100 * u * (1 + 11 * u + 3 * t)); [nra|]. apply (near_le f 2 (301 / 100 * u) (B * A + 2 * t)); [pose proof (p2 f wide); lra|lra|lra|exact M]. }
  destruct (one_value f) as [F1 E1]. destruct V0 as [Fx Ex].
  assert (AX : Rabs X <= 1 + 11 * u).
  { eapply Rle_trans; [apply vec_dot_le|]. exact AB. }
  assert (Ax : Rabs (1 + B2R x) <= 21 / 10).
  { apply Rabs_le_inv in AX. apply Rabs_le_inv in Ex. apply Rabs_le. lra. }
  destruct (add_ok f (fl_of f 1 0) x F1 Fx) as (Fs & g & Hg & Es); [rewrite E1; nra|]. rewrite E1 in Es.
  assert (V1 : Rabs (B2R (Bplus mode_NE (fl_of f 1 0) x) - (1 + X)) <= 55 / 10 * u).
  { rewrite Es. replace ((1 + B2R x) * (1 + g) - (1 + X)) with ((B2R x - X) + (1 + B2R x) * g) by ring.
    eapply Rle_trans; [apply Rabs_triang|]. assert (Rabs ((1 + B2R x) * g) <= 21 / 10 * u) by (rewrite Rabs_mult; apply Rmult_le_compat; try apply Rabs_pos; assumption). lra. }
  destruct Nw as (N1 & N2 & N3). apply Vw in N1. apply Vw in N2. apply Vw in N3. destruct N1 as [G1 H1], N2 as [G2 H2], N3 as [G3 H3].
  split; [exact (conj Fs (conj G1 (conj G2 G3)))|].
  pose (e1 := Ro3 (B2R (scalar p) - (1 + X)) (B3 (B2R (b1 w) - b1 Wd) (B2R (b2 w) - b2 Wd) (B2R (b3 w) - b3 Wd)) : Rotor3 R).
  pose (e2 := rot_add (O := RO) (rot_add (O := RO) (vec_mul (O := RO) db (vdir (rv a))) (vec_mul (O := RO) (vdir (rv b)) da)) (vec_mul (O := RO) db da)).
  exists (rot_add (O := RO) e2 e1). split.
  - assert (P1 : rr p = rot_add (O := RO) (rot_add (O := RO) (Ro3 1 (B3 0 0 0)) (vec_mul (O := RO) (rv (vec_normalize b)) (rv (vec_normalize a)))) e1).
    { unfold e1. rewrite rot_add_assoc. unfold rot_add, biv_add. cbn [scalar bivector b1 b2 b3 oadd RO].
      refine (f_equal2 (@Ro3 R) _ (f_equal3 (@B3 R) _ _ _)); [exact (add3 _ _ _)|exact (add4 _ _)|exact (add4 _ _)|exact (add4 _ _)]. }
    rewrite P1, Ea, Eb, vec_mul_add2. fold e2. unfold half. now rewrite !rot_add_assoc.
  - assert (R1 : rlen e1 <= 11 * u).
    { rewrite rlen_n4. eapply Rle_trans; [apply (n4_err 0 0 0 0 _ _ _ _ 0 (55 / 10 * u)); [lra|lra| | | |]; rewrite Rmult_0_l, Rplus_0_l; assumption|].
      rewrite Rmult_0_l. lra. }
    assert (R2 : rlen e2 <= 10 * u + 25 * u ^ 2).
    { unfold e2. eapply Rle_trans; [apply rlen_add|]. eapply Rle_trans; [apply Rplus_le_compat_r, rlen_add|]. rewrite !rlen_vec_mul, !vdir_len by assumption.
      assert (X4 : vlen db * vlen da <= 25 * u ^ 2).
      { apply Rle_trans with ((5 * u) * (5 * u)); [apply Rmult_le_compat; try apply vlen_pos; lra|right; ring]. }
      lra. }
    eapply Rle_trans; [apply rlen_add|]. nra.
Qed.

Lemma from_vectors_near : forall a b : Vector3 O, vfin a -> vfin b -> sized f (vlen (rv a)) -> sized f (vlen (rv b)) ->
  let h := vlen (vec_add (O := RO) (vdir (rv a)) (vdir (rv b))) in 1000 * u <= h ->
  let r := rot_from_vectors (vec_normalize a) (vec_normalize b) in
  Rabs (rlen (rr r) - 1) <= 5 * u /\ veach (within (160 * u / h)) (rot_rotate r (vec_normalize a)) (vdir (rv b)).
Proof.
  intros a b Fa Fb Ha Hb h Hh r. destruct (half_near a b Fa Fb Ha Hb) as (Fp & e & Ep & Le).
  set (p := Ro3 (oadd c1 (vec_dot (vec_normalize b) (vec_normalize a))) (vec_wedge (vec_normalize b) (vec_normalize a))) in *.
  pose proof u_small as [Pu Su]. pose proof t_small as [Pt St]. pose proof (huge_big f wide) as Hb'.
  pose proof (sized_pos f wide _ Ha) as Pa. pose proof (sized_pos f wide _ Hb) as Pb.
  pose proof (vdir_len _ Pa) as Ua. pose proof (vdir_len _ Pb) as Ub.
  pose proof (half_len _ _ Ua Ub) as Eh. fold h in Eh.
  assert (Ph : 0 < h) by nra.
  pose proof (half_image _ _ Ua Ub ltac:(lra)) as Im.
  assert (H2 : h <= 2). { unfold h. eapply Rle_trans; [apply vlen_add|]. lra. }
  pose proof (rlen_pos e) as Pe.
  assert (X1 : rlen (rr p) <= 3). { rewrite Ep. eapply Rle_trans; [apply rlen_add|]. nra. }
  destruct (dir_change (half (vdir (rv a)) (vdir (rv b))) e ltac:(nra)) as (d & Ed & Ld). rewrite Eh in Ld.
  assert (X2 : 978 * u <= rlen (rr p)).
  { assert (rlen (half (vdir (rv a)) (vdir (rv b))) <= rlen (rr p) + rlen e); [|lra].
    rewrite Ep. set (q := half (vdir (rv a)) (vdir (rv b))).
    replace q with (rot_add (O := RO) (rot_add (O := RO) q e) (Ro3 (- scalar e) (B3 (- b1 (bivector e)) (- b2 (bivector e)) (- b3 (bivector e))))) at 1.
    - eapply Rle_trans; [apply rlen_add|]. apply Rplus_le_compat_l. right. rewrite !rlen_n4. cbn [scalar bivector b1 b2 b3]. apply n4_opp.
    - clear. destruct q as [w [x y z]], e as [w' [x' y' z']]. unfold rot_add, biv_add. cbn [scalar bivector b1 b2 b3 oadd RO].
      apply (f_equal2 (@Ro3 R)); [ring|]. apply (f_equal3 (@B3 R)); ring. }
  assert (Sp : sized f (rlen (rr p))).
  { split; [lra|]. split; [|nra]. eapply Rle_trans; [exact deep|]. replace (u ^ 3) with (u * u ^ 2) by ring.
    apply Rmult_le_compat_l; [lra|]. apply pow_incr. lra. }
  destruct (rot_normalize_err f wide p Fp Sp) as (Fr & g & Eg & Lg). destruct (rot_normalize_near f wide p Fp Sp) as (_ & _ & Lr).
  change (rot_normalize p) with r in Fr, Eg, Lr. split; [exact Lr|]. apply Rabs_le_inv in Lr.
  (* the computed rotor beside the exact one *)
  pose (D := rot_add (O := RO) d g).
  assert (ED : rr r = rot_add (O := RO) (rdir (half (vdir (rv a)) (vdir (rv b)))) D).
  { rewrite Eg, Ep, Ed. unfold D. now rewrite rot_add_assoc. }
  assert (Pih : 0 < / h) by now apply Rinv_0_lt_compat.
  assert (UH : u <= 2 * (u / h)).
  { apply Rmult_le_reg_r with h; [exact Ph|]. replace (2 * (u / h) * h) with (2 * u) by (field; lra). nra. }
  assert (Ld' : rlen d <= 45 * (u / h)).
  { eapply Rle_trans; [exact Ld|]. apply Rle_trans with (2 * (22 * u) / (h - 22 * u)).
    - unfold Rdiv. apply Rmult_le_compat; [lra|left; apply Rinv_0_lt_compat; nra|lra|]. apply Rinv_le; nra.
    - apply Rmult_le_reg_r with (h - 22 * u); [nra|]. replace (2 * (22 * u) / (h - 22 * u) * (h - 22 * u)) with (44 * u) by (field; nra).
      replace (45 * (u / h) * (h - 22 * u)) with (45 * u - 990 * u * (u * / h)) by (field; lra).
      assert (u * / h <= / 1000). { apply Rmult_le_reg_r with h; [exact Ph|]. rewrite Rmult_assoc, Rinv_l, Rmult_1_r by lra. lra. }
      nra. }
  assert (LD : rlen D <= 55 * (u / h)). { unfold D. eapply Rle_trans; [apply rlen_add|]. lra. }
  assert (UH1 : u / h <= / 1000). { apply Rmult_le_reg_r with h; [exact Ph|]. replace (u / h * h) with u by (field; lra). lra. }
  assert (PUH : 0 < u / h) by (apply Rmult_lt_0_compat; assumption).
  destruct (vec_normalize_err f wide a Fa Ha) as (Na & da & Ea & Da).
  pose proof (vlen_add (vdir (rv a)) da) as LV. rewrite <- Ea, Ua in LV. pose proof (vlen_pos (rv (vec_normalize a))) as PV.
  set (V := vlen (rv (vec_normalize a))) in *. set (L := rlen (rr r)) in *.
  assert (LV' : 0 <= L * V <= 1006 / 1000).
  { split; [apply Rmult_le_pos; lra|]. apply Rle_trans with ((1 + 5 * u) * (1 + 5 * u)); [apply Rmult_le_compat; lra|nra]. }
  assert (QL2 : 0 <= 2 * L * (L * V + 3 * t) + 4 * t <= 203 / 100).
  { assert (0 <= L * (L * V + 3 * t) <= (1 + 5 * u) * (101 / 100)); [|lra]. split; [apply Rmult_le_pos; lra|apply Rmult_le_compat; lra]. }
  assert (B4 : (1 + u) ^ 4 <= 2) by (pose proof (p4 f wide); lra). assert (B7 : (1 + u) ^ 7 <= 2) by (pose proof (p7 f wide); lra).
  pose proof (pow1 f 4) as C4. pose proof (pow1 f 7) as C7.
  assert (N := rot_rotate_near f r (vec_normalize a) Fr Na). cbv zeta in N. fold L V in N.
  assert (R4 : (1 + u) ^ 4 * (L * V + 3 * t) < huge f) by (apply Rle_lt_trans with (2 * 2); [apply Rmult_le_compat; lra|lra]).
  assert (R7 : (1 + u) ^ 7 * (2 * L * (L * V + 3 * t) + 4 * t) < huge f) by (apply Rle_lt_trans with (2 * 3); [apply Rmult_le_compat; lra|lra]).
  specialize (N R4 R7).
  (* exact rotation by the computed rotor against the exact rotor *)
  set (R := rdir (half (vdir (rv a)) (vdir (rv b)))) in *.
  assert (UR : rlen R = 1) by (unfold R; apply rdir_len; lra).
  pose proof (rotate_diff R D (rv (vec_normalize a))) as Df. rewrite <- ED, UR in Df. fold V in Df.
  assert (Df' : rlen D * V * (2 * 1 + rlen D) <= 114 * (u / h)).
  { pose proof (rlen_pos D). apply Rle_trans with (55 * (u / h) * (1003 / 1000) * (2 + 55 / 1000)).
    - apply Rmult_le_compat; [apply Rmult_le_pos; lra|lra|apply Rmult_le_compat; lra|lra].
    - lra. }
  assert (Dr : vlen (vec_sub (O := RO) (rot_rotate (O := RO) R (rv (vec_normalize a))) (vdir (rv b))) <= 5 * u).
  { rewrite <- Im. fold R. rewrite Ea.
    replace (vec_sub (O := RO) (rot_rotate (O := RO) R (vec_add (O := RO) (vdir (rv a)) da)) (rot_rotate (O := RO) R (vdir (rv a)))) with (sand R R da).
    - eapply Rle_trans; [apply sand_len|]. rewrite UR. lra.
    - rewrite sand_rotate. clear. generalize (vdir (rv a)). intros [x y z]. destruct da as [x' y' z'], R as [w [p q r]].
      unfold rot_rotate, vec_sub, vec_add. cbn [a1 a2 a3 b1 b2 b3 scalar bivector oadd omul osub oneg RO]. apply (f_equal3 (@V3 R)); ring. }
  assert (G : forall (x : fl f) c c' c'', near f 7 (2 * L * (L * V + 3 * t) + 4 * t) x c -> Rabs (c - c') <= rlen D * V * (2 * 1 + rlen D) -> Rabs (c' - c'') <= 5 * u ->
    within (160 * u / h) x c'').
  { intros x c c' c'' M M1 M2. replace (160 * u / h) with (160 * (u / h)) by (field; lra).
    apply (within_mono f) with (702 / 100 * u * (203 / 100) + (114 * (u / h) + 5 * u)); [lra|].
    eapply within_trans; [apply (near_le f 7 (702 / 100 * u) (2 * L * (L * V + 3 * t) + 4 * t)); [exact (p7 f wide)|lra|lra|exact M]|].
    replace (c - c'') with ((c - c') + (c' - c'')) by ring. eapply Rle_trans; [apply Rabs_triang|]. lra. }
  pose proof (vlen_part (vec_sub (O := RO) (rot_rotate (O := RO) (rr r) (rv (vec_normalize a))) (rot_rotate (O := RO) R (rv (vec_normalize a))))) as (D1 & D2 & D3).
  pose proof (vlen_part (vec_sub (O := RO) (rot_rotate (O := RO) R (rv (vec_normalize a))) (vdir (rv b)))) as (G1 & G2 & G3).
  destruct N as (N1 & N2 & N3). split; [|split].
  - exact (G _ _ _ _ N1 (Rle_trans _ _ _ D1 Df) (Rle_trans _ _ _ G1 Dr)).
  - exact (G _ _ _ _ N2 (Rle_trans _ _ _ D2 Df) (Rle_trans _ _ _ G2 Dr)).
  - exact (G _ _ _ _ N3 (Rle_trans _ _ _ D3 Df) (Rle_trans _ _ _ G3 Dr)).
Qed.
End From.
