(** * Rotors from an angle and a plane, with rounding. *)
From Coq Require Import ZArith Reals Lia Lra Psatz.
From Flocq Require Import Core.Core BinarySingleNaN.
From Verif Require Import GeoReg.
From Verif Require Import Scalar GA Format RoundSpec Rounding GARound NormRound LenReal InvRound RotRound AngleSpec.
Local Open Scope R_scope.

Section Angle.
Variable f : Fmt.
Hypothesis wide : (11 <= prec f)%Z.
Local Notation O := (BO f).
Local Notation u := (ur f).
Local Notation t := (tiny f).
Local Notation u_small := (u_small f wide).
Local Notation t_small := (t_small f wide).

Lemma two_val : is_finite (fl_of f 2 0) = true /\ B2R (fl_of f 2 0) = 2.
Proof.
  pose proof (binary_normalize_correct (prec f) (emax f) _ _ mode_NE 2 0 false) as C. cbv zeta in C.
  assert (V : F2R (Float radix2 2 0) = 2) by (unfold F2R; cbn; lra).
  assert (G : generic_format radix2 (SpecFloat.fexp (prec f) (emax f)) 2).
  { change 2 with (bpow radix2 1). apply generic_format_bpow. unfold SpecFloat.fexp, SpecFloat.emin. pose proof (prec_emax f) as E. unfold Prec_lt_emax in E. lia. }
  rewrite V in C. rewrite (round_generic radix2 _ _ 2 G) in C. rewrite Rlt_bool_true in C.
  - destruct C as (C1 & C2 & _). split; [exact C2|exact C1].
  - rewrite Rabs_pos_eq by lra. change 2 with (bpow radix2 1). apply bpow_lt. pose proof (prec_emax f) as E. unfold Prec_lt_emax in E. lia.
Qed.

Lemma half_format : forall x : fl f, t <= Rabs (B2R x / 2) -> generic_format radix2 (SpecFloat.fexp (prec f) (emax f)) (B2R x / 2).
Proof.
  intros x H. pose proof (generic_format_B2R (prec f) (emax f) x) as G.
  change (SpecFloat.fexp (prec f) (emax f)) with (FLT_exp (3 - emax f - prec f) (prec f)) in *.
  apply FLT_format_generic in G; [|exact (prec_pos f)]. destruct G as [[m e] E Hm He]. cbn [Fnum Fexp] in Hm, He.
  assert (E2 : B2R x / 2 = F2R (Float radix2 m (e - 1))).
  { rewrite E. unfold F2R. cbn [Fnum Fexp]. replace e with (1 + (e - 1))%Z at 1 by ring. rewrite bpow_plus. change (bpow radix2 1) with 2. field. }
  destruct (Z.eq_dec e (3 - emax f - prec f)) as [Ee|Ne].
  - exfalso. rewrite E2 in H. rewrite <- F2R_Zabs in H. unfold F2R in H. cbn [Fnum Fexp] in H.
    assert (K : IZR (Z.abs m) < bpow radix2 (prec f)) by (rewrite <- IZR_Zpower by (pose proof (prec_pos f) as P; unfold Prec_gt_0 in P; lia); now apply IZR_lt).
    assert (T : t = bpow radix2 (prec f) * bpow radix2 (e - 1)) by (unfold tiny; rewrite <- bpow_plus; f_equal; lia).
    rewrite T in H. apply Rmult_le_reg_r in H; [lra|apply bpow_gt_0].
  - apply generic_format_FLT. exists (Float radix2 m (e - 1)); [exact E2|exact Hm|cbn [Fexp]; lia].
Qed.

Lemma half_near : forall x : fl f, is_finite x = true ->
  within (2 * u * t) (Bdiv mode_NE x (fl_of f 2 0)) (B2R x / 2).
Proof.
  intros x Fx. destruct two_val as [F2 V2]. pose proof (Bdiv_correct _ _ _ _ mode_NE x (fl_of f 2 0) ltac:(rewrite V2; lra)) as C.
  rewrite V2 in C. pose proof (abs_B2R_lt_emax _ _ x) as HX. pose proof u_small as [Pu Su]. pose proof t_small as [Pt St]. pose proof (huge_big f wide) as Hh.
  change (bpow radix2 (emax f)) with (huge f) in *.
  assert (A : Rabs (B2R x / 2) = Rabs (B2R x) / 2) by (unfold Rdiv; rewrite Rabs_mult, (Rabs_pos_eq (/ 2)) by lra; reflexivity). pose proof (Rabs_pos (B2R x)) as P0.
  assert (R : exists e, round radix2 (SpecFloat.fexp (prec f) (emax f)) (round_mode mode_NE) (B2R x / 2) = B2R x / 2 + e /\ Rabs e <= 2 * u * t).
  { destruct (Rle_or_lt t (Rabs (B2R x / 2))) as [L|L].
    - exists 0. rewrite round_generic by (try typeclasses eauto; now apply half_format). split; [ring|]. rewrite Rabs_R0. nra.
    - destruct (rnd_any f (B2R x / 2)) as (d & e & Hd & He & E). exists (B2R x / 2 * d + e). split; [rewrite E; ring|].
      eapply Rle_trans; [apply Rabs_triang|]. rewrite Rabs_mult. assert (Rabs (B2R x / 2) * Rabs d <= t * u) by (apply Rmult_le_compat; auto using Rabs_pos; lra). lra. }
  destruct R as (e & R & He). rewrite R in C.
  assert (U : 2 * u * t <= / 1024) by nra.
  rewrite Rlt_bool_true in C.
  - destruct C as (C1 & C2 & _). split; [now rewrite C2|]. rewrite C1. replace (B2R x / 2 + e - B2R x / 2) with e by ring. exact He.
  - eapply Rle_lt_trans; [apply Rabs_triang|]. rewrite A. lra.
Qed.

Lemma trig_near : forall A x, accurate_trig f A (2 * u) -> is_finite x = true -> Rabs (B2R x) <= 2 * A - 1 ->
  let h := Bdiv mode_NE x (fl_of f 2 0) in
  within (201 / 100 * u) (f_sin f h) (sin (B2R x / 2)) /\ within (201 / 100 * u) (f_cos f h) (cos (B2R x / 2)).
Proof.
  intros A x HA Fx Bx h. destruct (half_near x Fx) as [Fh Eh]. fold h in Fh, Eh. pose proof u_small as [Pu Su]. pose proof t_small as [Pt St].
  assert (U : 0 <= 2 * u * t <= / 1024 * u * 2) by nra.
  assert (Bh : Rabs (B2R h) <= A).
  { replace (B2R h) with (B2R x / 2 + (B2R h - B2R x / 2)) by ring. eapply Rle_trans; [apply Rabs_triang|].
    unfold Rdiv at 1. rewrite Rabs_mult, (Rabs_pos_eq (/ 2)) by lra. lra. }
  destruct (HA h Fh Bh) as [[F1 E1] [F2 E2]].
  pose proof (sin_lip (B2R h) (B2R x / 2)) as L1. pose proof (cos_lip (B2R h) (B2R x / 2)) as L2.
  assert (G : forall p q r, Rabs (p - q) <= 2 * u -> Rabs (q - r) <= Rabs (B2R h - B2R x / 2) -> Rabs (p - r) <= 201 / 100 * u).
  { intros p q r G1 G2. replace (p - r) with ((p - q) + (q - r)) by ring. eapply Rle_trans; [apply Rabs_triang|]. lra. }
  split; (split; [assumption|]); [exact (G _ _ _ E1 L1)|exact (G _ _ _ E2 L2)].
Qed.

Lemma blen_mono : forall x y : Bivector3 R, Rabs (b1 x) <= b1 y -> Rabs (b2 x) <= b2 y -> Rabs (b3 x) <= b3 y -> blen x <= blen y.
Proof.
  intros x y H1 H2 H3. unfold blen. apply sqrt_le_1_alt.
  assert (G : forall p q, Rabs p <= q -> p ^ 2 <= q ^ 2) by (intros p q K; rewrite <- (Rsqr_pow2 p), Rsqr_abs, Rsqr_pow2; apply pow_incr; split; [apply Rabs_pos|exact K]).
  pose proof (G _ _ H1). pose proof (G _ _ H2). pose proof (G _ _ H3). lra.
Qed.
Lemma blen_k : forall k x y z, 0 <= k -> blen (B3 (k * Rabs x) (k * Rabs y) (k * Rabs z)) = k * blen (B3 x y z).
Proof.
  intros k x y z Hk. unfold blen. cbn [b1 b2 b3].
  replace ((k * Rabs x) ^ 2 + (k * Rabs y) ^ 2 + (k * Rabs z) ^ 2) with (k ^ 2 * (x ^ 2 + y ^ 2 + z ^ 2)).
  - rewrite sqrt_mult; [|apply pow2_ge_0|]. + now rewrite sqrt_pow2. + pose proof (pow2_ge_0 x). pose proof (pow2_ge_0 y). pose proof (pow2_ge_0 z). lra.
  - assert (Q : forall v, Rabs v ^ 2 = v ^ 2) by (intros v; rewrite <- !Rsqr_pow2; symmetry; apply Rsqr_abs). rewrite !Rpow_mult_distr, !Q. ring.
Qed.
Lemma blen_c : forall e, 0 <= e -> blen (B3 e e e) <= 2 * e.
Proof.
  intros e He. unfold blen. cbn [b1 b2 b3]. rewrite <- (sqrt_pow2 (2 * e)) by lra. apply sqrt_le_1_alt. pose proof (pow2_ge_0 e). nra.
Qed.

(** plane is P plus a small error, P of length 1. *)
Lemma turn_err : forall A (a : fl f) (B : Bivector3 O) (P dp : Bivector3 R), accurate_trig f A (2 * u) -> is_finite a = true -> Rabs (B2R a) <= 2 * A - 1 ->
  bfin B -> rb B = biv_add (O := RO) P dp -> blen P = 1 -> blen dp <= 5 * u ->
  rfin (rot_from_angle_plane (O := BO f) a B) /\ exists D : Rotor3 R, rr (rot_from_angle_plane (O := BO f) a B) = rot_add (O := RO) (turn (B2R a) P) D /\ rlen D <= 9 * u.
Proof.
  intros A a B P dp HA Fa Ba FB EB LP Ldp. destruct (trig_near A a HA Fa Ba) as [[Fs Es] [Fc Ec]].
  pose proof u_small as [Pu Su]. pose proof t_small as [Pt St]. pose proof (huge_big f wide) as Hh.
  unfold rot_from_angle_plane. cbv zeta. change (@osin O (@odiv O a (@c2 O))) with (f_sin f (Bdiv mode_NE a (fl_of f 2 0))).
  change (@ocos O (@odiv O a (@c2 O))) with (f_cos f (Bdiv mode_NE a (fl_of f 2 0))).
  revert Fs Es Fc Ec. generalize (f_sin f (Bdiv mode_NE a (fl_of f 2 0))) (f_cos f (Bdiv mode_NE a (fl_of f 2 0))). intros s c Fs Es Fc Ec.
  unfold turn. pose proof (SIN_bound (B2R a / 2)) as [S1 S2]. set (S := sin (B2R a / 2)) in *. set (C := cos (B2R a / 2)) in *.
  assert (Bs : Rabs (B2R s) <= 1002 / 1000).
  { replace (B2R s) with (S + (B2R s - S)) by ring. eapply Rle_trans; [apply Rabs_triang|]. assert (Rabs S <= 1) by (apply Rabs_le; lra). lra. }
  destruct B as [x y z]. destruct P as [px py pz], dp as [dx dy dz].
  unfold rb, biv_add in EB. cbn [b1 b2 b3 oadd RO] in EB. injection EB as Ex Ey Ez.
  destruct FB as (Fx & Fy & Fz). cbn [b1 b2 b3] in Fx, Fy, Fz.
  unfold biv_scale, rr, rb, rfin, bfin. cbn [scalar bivector b1 b2 b3 oneg omul BO].
  pose proof (blen_part (GA.B3 px py pz)) as (Q1 & Q2 & Q3). rewrite LP in Q1, Q2, Q3. cbn [b1 b2 b3] in Q1, Q2, Q3.
  pose proof (blen_part (GA.B3 dx dy dz)) as (R1 & R2 & R3). cbn [b1 b2 b3] in R1, R2, R3.
  assert (M : forall (w : fl f) p d, is_finite w = true -> B2R w = p + d -> Rabs p <= 1 -> Rabs d <= 5 * u ->
    is_finite (Bmult mode_NE w (Bopp s)) = true /\
    Rabs (B2R (Bmult mode_NE w (Bopp s)) - - S * p) <= 1002 / 1000 * u * Rabs (p + d) + (1002 / 1000 * Rabs d + (201 / 100 * u * Rabs p + u * t))).
  { intros w p d Fw Ew Bp Bd'. destruct (mul_ok f w (Bopp s) Fw) as (F & e1 & e2 & H1 & H2 & E).
    - now rewrite is_finite_Bopp.
    - rewrite B2R_Bopp. assert (Rabs (B2R w * - B2R s) <= 2 * 2).
      { rewrite Rabs_mult, Rabs_Ropp. apply Rmult_le_compat; try apply Rabs_pos; [|lra]. rewrite Ew. eapply Rle_trans; [apply Rabs_triang|]. lra. }
      assert (0 <= Rabs (B2R w * - B2R s)) by apply Rabs_pos. nra.
    - split; [exact F|]. rewrite E, B2R_Bopp, Ew.
      replace ((p + d) * - B2R s * (1 + e1) + e2 - - S * p) with ((p + d) * - B2R s * e1 + (- (B2R s) * d + (- (B2R s - S) * p + e2))) by ring.
      eapply Rle_trans; [apply Rabs_triang|]. apply Rplus_le_compat.
      + rewrite !Rabs_mult, Rabs_Ropp. replace (1002 / 1000 * u * Rabs (p + d)) with (Rabs (p + d) * (1002 / 1000) * u) by ring.
        apply Rmult_le_compat; try apply Rabs_pos; [apply Rmult_le_pos; apply Rabs_pos| |exact H1]. apply Rmult_le_compat_l; [apply Rabs_pos|exact Bs].
      + eapply Rle_trans; [apply Rabs_triang|]. apply Rplus_le_compat.
        * rewrite Rabs_mult, Rabs_Ropp. apply Rmult_le_compat_r; [apply Rabs_pos|exact Bs].
        * eapply Rle_trans; [apply Rabs_triang|]. apply Rplus_le_compat; [|exact H2]. rewrite Rabs_mult, Rabs_Ropp. apply Rmult_le_compat_r; [apply Rabs_pos|exact Es]. }
  destruct (M x px dx Fx Ex Q1 ltac:(lra)) as [G1 H1]. destruct (M y py dy Fy Ey Q2 ltac:(lra)) as [G2 H2]. destruct (M z pz dz Fz Ez Q3 ltac:(lra)) as [G3 H3]. clear M.
  split; [exact (conj Fc (conj G1 (conj G2 G3)))|].
  exists (Ro3 (B2R c - C) (GA.B3 (B2R (Bmult mode_NE x (Bopp s)) - - S * px) (B2R (Bmult mode_NE y (Bopp s)) - - S * py) (B2R (Bmult mode_NE z (Bopp s)) - - S * pz))).
  split; [exact (f_equal2 (@Ro3 R) (split_diff _ _) (f_equal3 (@GA.B3 R) (split_diff _ _) (split_diff _ _) (split_diff _ _)))|].
  match goal with |- rlen (Ro3 ?w ?b) <= _ => set (D0 := w) in *; set (DB := b) end.
  assert (LB : blen DB <= 81 / 10 * u).
  { eapply Rle_trans; [apply (blen_mono DB (biv_add (O := RO) (GA.B3 (1002 / 1000 * u * Rabs (px + dx)) (1002 / 1000 * u * Rabs (py + dy)) (1002 / 1000 * u * Rabs (pz + dz)))
      (biv_add (O := RO) (GA.B3 (1002 / 1000 * Rabs dx) (1002 / 1000 * Rabs dy) (1002 / 1000 * Rabs dz))
      (biv_add (O := RO) (GA.B3 (201 / 100 * u * Rabs px) (201 / 100 * u * Rabs py) (201 / 100 * u * Rabs pz)) (GA.B3 (u * t) (u * t) (u * t)))))); [exact H1|exact H2|exact H3]|].
    eapply Rle_trans; [apply blen_add|]. eapply Rle_trans; [apply Rplus_le_compat_l, blen_add|]. eapply Rle_trans; [apply Rplus_le_compat_l, Rplus_le_compat_l, blen_add|].
    rewrite !blen_k by lra. pose proof (blen_c (u * t) ltac:(nra)) as BC. rewrite LP.
    pose proof (blen_add (GA.B3 px py pz) (GA.B3 dx dy dz)) as BA. rewrite LP in BA. unfold biv_add in BA. cbn [b1 b2 b3 oadd RO] in BA.
    set (X := blen (GA.B3 (px + dx) (py + dy) (pz + dz))) in *. set (Y := blen (GA.B3 dx dy dz)) in *.
    assert (Y <= 5 * u) by exact Ldp. assert (X <= 1003 / 1000) by (apply Rle_trans with (1 + Y); [exact BA|lra]). assert (u * X <= u * (1003 / 1000)) by (apply Rmult_le_compat_l; lra). nra. }
  pose proof (blen_pos DB) as PB. pose proof (blen_sqr DB) as SB. unfold rlen. cbn [scalar bivector].
  rewrite <- (sqrt_pow2 (9 * u)) by lra. apply sqrt_le_1_alt.
  assert (D0 ^ 2 <= (201 / 100 * u) ^ 2) by (rewrite <- (Rsqr_pow2 D0), Rsqr_abs, Rsqr_pow2; apply pow_incr; split; [apply Rabs_pos|exact Ec]).
  assert (blen DB ^ 2 <= (81 / 10 * u) ^ 2) by (apply pow_incr; lra). nra.
Qed.

Lemma biv_norm_factor : forall v : Bivector3 O, bfin v -> let L := blen (rb v) in sized f L ->
  exists d, Rabs d <= 32 / 10 * u /\ B2R (biv_norm v) = L * (1 + d).
Proof.
  intros v Fv L HL. pose proof (blen_sqr (rb v)) as E. fold L in E. pose proof (sized_pos f wide L HL). destruct HL as (_ & H1 & H2).
  assert (V : bsq f v = L ^ 2) by (rewrite E; reflexivity). rewrite <- V in H1, H2. pose proof (bsq_near f wide v Fv H2) as N.
  destruct (root_near f wide _ _ H1 N) as (_ & _ & _ & d & Hd & Ed). exists d. split; [exact Hd|].
  rewrite V in Ed. rewrite sqrt_pow2 in Ed by lra. exact Ed.
Qed.
Lemma biv_normalize_err : forall v : Bivector3 O, bfin v -> sized f (blen (rb v)) ->
  bfin (biv_normalize v) /\ exists d : Bivector3 R, rb (biv_normalize v) = biv_add (O := RO) (bdir (rb v)) d /\ blen d <= 5 * u.
Proof.
  intros v Fv HL. pose proof (biv_norm_factor v Fv HL) as N. set (L := blen (rb v)) in *. pose proof (sized_pos f wide L HL) as PL.
  pose proof u_small as [Pu Su]. pose proof t_small as [Pt St].
  pose proof (blen_part (rb v)) as (P1 & P2 & P3). fold L in P1, P2, P3. cbn [rb b1 b2 b3] in P1, P2, P3.
  destruct Fv as (F1 & F2 & F3).
  destruct (over_len f wide (b1 v) _ L F1 HL P1 N) as [A1 B1]. destruct (over_len f wide (b2 v) _ L F2 HL P2 N) as [A2 B2]. destruct (over_len f wide (b3 v) _ L F3 HL P3 N) as [A3 B3].
  split; [exact (conj A1 (conj A2 A3))|].
  exists (GA.B3 (B2R (b1 (biv_normalize v)) - B2R (b1 v) / L) (B2R (b2 (biv_normalize v)) - B2R (b2 v) / L) (B2R (b3 (biv_normalize v)) - B2R (b3 v) / L)).
  split.
  - exact (f_equal3 (@GA.B3 R) (split_diff _ _) (split_diff _ _) (split_diff _ _)).
  - unfold blen. cbn [b1 b2 b3]. rewrite n4_3. replace 0 with (0 - 0 / L) by (field; lra).
    apply (unit_len f wide (B2R (b1 v)) (B2R (b2 v)) (B2R (b3 v)) 0); try assumption.
    + symmetry. exact (blen_n4 (rb v)).
    + replace (0 - 0 / L) with 0 by (field; lra). rewrite Rabs_R0. pose proof (Rabs_pos (0 / L)). nra.
Qed.
Lemma bdir_len : forall v, 0 < blen v -> blen (bdir v) = 1.
Proof.
  intros v P. unfold blen at 1. cbn [bdir b1 b2 b3]. pose proof (blen_sqr v) as S. set (L := blen v) in *.
  replace ((b1 v / L) ^ 2 + (b2 v / L) ^ 2 + (b3 v / L) ^ 2) with ((b1 v ^ 2 + b2 v ^ 2 + b3 v ^ 2) / L ^ 2) by (field; lra).
  rewrite <- S. replace (L ^ 2 / L ^ 2) with 1 by (field; lra). apply sqrt_1.
Qed.
Lemma turn_len : forall a P, blen P = 1 -> rlen (turn a P) = 1.
Proof.
  intros a P H. pose proof (blen_sqr P) as S. rewrite H in S. unfold rlen, turn. cbn [scalar bivector b1 b2 b3].
  pose proof (sin2_cos2 (a / 2)) as SC. unfold Rsqr in SC.
  replace (cos (a / 2) ^ 2 + (- sin (a / 2) * b1 P) ^ 2 + (- sin (a / 2) * b2 P) ^ 2 + (- sin (a / 2) * b3 P) ^ 2)
    with (cos (a / 2) * cos (a / 2) + sin (a / 2) * sin (a / 2) * (b1 P ^ 2 + b2 P ^ 2 + b3 P ^ 2)) by ring.
  rewrite <- S. transitivity (sqrt 1); [f_equal; cbn [pow]; lra|apply sqrt_1].
Qed.

(** A rotor close to a unit rotor R0. *)
Lemma near_unit_rotate : forall (r : Rotor3 O) (R0 D : Rotor3 R) (v : Vector3 O), rfin r -> rr r = rot_add (O := RO) R0 D -> rlen R0 = 1 -> rlen D <= 9 * u ->
  vfin v -> sized f (vlen (rv v)) ->
  veach (within (33 * u * vlen (rv v))) (rot_rotate r v) (rot_rotate (O := RO) R0 (rv v)).
Proof.
  intros r R0 d v Fr Ed L0 Dd Fv Hv.
  destruct (sized_t1 f wide _ Hv) as [T1 T2]. pose proof (sized_pos f wide _ Hv) as PV.
  pose proof u_small as [Pu Su]. pose proof t_small as [Pt St]. pose proof (huge_big f wide) as Hh.
  pose proof (rotate_diff R0 d (rv v)) as Df. rewrite L0 in Df. pose proof (rlen_pos d) as Pd. pose proof (rlen_pos (rr r)) as Pr.
  assert (L1 : rlen (rr r) <= 1 + 9 * u) by (rewrite Ed; pose proof (rlen_add R0 d); lra).
  set (L := rlen (rr r)) in *. set (V := vlen (rv v)) in *.
  assert (LV : 0 <= L * V <= V * (1 + 9 * u)) by (split; [apply Rmult_le_pos; lra|nra]).
  assert (QL : L * V + 3 * t <= V * (1008 / 1000)) by nra.
  assert (QL2 : 2 * L * (L * V + 3 * t) + 4 * t <= V * (2030 / 1000)).
  { assert (L * (L * V + 3 * t) <= (1 + 9 * u) * (V * (1008 / 1000))) by (apply Rmult_le_compat; lra). nra. }
  assert (QP : 0 <= 2 * L * (L * V + 3 * t) + 4 * t).
  { assert (0 <= L * (L * V + 3 * t)) by (apply Rmult_le_pos; lra). lra. }
  assert (B4 : (1 + u) ^ 4 <= 2) by (pose proof (p4 f wide); lra). assert (B7 : (1 + u) ^ 7 <= 2) by (pose proof (p7 f wide); lra).
  pose proof (pow1 f 4). pose proof (pow1 f 7).
  assert (N := rot_rotate_near f r v Fr Fv). fold L V in N. cbv zeta in N.
  assert (N1 : (1 + u) ^ 4 * (L * V + 3 * t) < huge f) by (apply Rle_lt_trans with (2 * (V * (1008 / 1000))); [apply Rmult_le_compat; lra|lra]).
  assert (N2 : (1 + u) ^ 7 * (2 * L * (L * V + 3 * t) + 4 * t) < huge f) by (apply Rle_lt_trans with (2 * (V * (2030 / 1000))); [apply Rmult_le_compat; lra|lra]).
  specialize (N N1 N2). clear N1 N2.
  assert (DV : vlen (vec_sub (O := RO) (rot_rotate (O := RO) (rr r) (rv v)) (rot_rotate (O := RO) R0 (rv v))) <= 181 / 10 * u * V).
  { rewrite Ed. eapply Rle_trans; [exact Df|]. apply Rle_trans with (9 * u * V * (2 * 1 + 9 * u)).
    - apply Rmult_le_compat; [apply Rmult_le_pos; lra|lra|apply Rmult_le_compat_r; lra|lra].
    - assert (0 < u * V) by (now apply Rmult_lt_0_compat). nra. }
  pose proof (vlen_part (vec_sub (O := RO) (rot_rotate (O := RO) (rr r) (rv v)) (rot_rotate (O := RO) R0 (rv v)))) as (D1 & D2 & D3).
  assert (G : forall (x : fl f) c c', near f 7 (2 * L * (L * V + 3 * t) + 4 * t) x c ->
    Rabs (c - c') <= vlen (vec_sub (O := RO) (rot_rotate (O := RO) (rr r) (rv v)) (rot_rotate (O := RO) R0 (rv v))) -> within (33 * u * V) x c').
  { intros x c c' M Hc. apply (within_mono f) with (702 / 100 * u * (V * (2030 / 1000)) + 181 / 10 * u * V).
    { pose proof (Rmult_lt_0_compat _ _ Pu PV). lra. }
    eapply within_trans; [apply (near_le f 7 (702 / 100 * u) (2 * L * (L * V + 3 * t) + 4 * t)); [exact (p7 f wide)|exact QL2|exact QP|exact M]|]. lra. }
  destruct N as (N1 & N2 & N3). split; [|split].
  - exact (G _ _ _ N1 D1). - exact (G _ _ _ N2 D2). - exact (G _ _ _ N3 D3).
Qed.

(** Components and length of a rotor close to a unit rotor. *)
Lemma near_unit_comps : forall (r : Rotor3 O) (R0 D : Rotor3 R), rfin r -> rr r = rot_add (O := RO) R0 D -> rlen R0 = 1 -> rlen D <= 9 * u ->
  reach (within (9 * u)) r R0 /\ Rabs (rlen (rr r) - 1) <= 9 * u.
Proof.
  intros r R0 D (F0 & F1 & F2 & F3) E L0 LD. split.
  - destruct r as [w [x y z]], R0 as [w' [x' y' z']], D as [dw [dx dy dz]]. pose proof (rlen_part (Ro3 dw (GA.B3 dx dy dz))) as (P0 & P1 & P2 & P3).
    cbn [scalar bivector b1 b2 b3] in *. unfold rr, rb, rot_add, biv_add in E. cbn [scalar bivector b1 b2 b3 oadd RO] in E. injection E as E0 E1 E2 E3.
    unfold reach, beach, within. cbn [scalar bivector b1 b2 b3].
    assert (G : forall a b d, a = b + d -> Rabs d <= rlen (Ro3 dw (GA.B3 dx dy dz)) -> Rabs (a - b) <= 9 * u) by (intros a b d -> G; replace (b + d - b) with d by ring; lra).
    repeat split; try assumption; eapply G; eauto.
  - apply Rabs_le. pose proof (rlen_add R0 D) as A1. rewrite <- E, L0 in A1.
    assert (A2 : rlen R0 <= rlen (rr r) + rlen D).
    { replace (rlen D) with (rlen (Ro3 (- scalar D) (GA.B3 (- b1 (bivector D)) (- b2 (bivector D)) (- b3 (bivector D))))).
      - replace R0 with (rot_add (O := RO) (rr r) (Ro3 (- scalar D) (GA.B3 (- b1 (bivector D)) (- b2 (bivector D)) (- b3 (bivector D))))) at 1; [apply rlen_add|].
        rewrite E. destruct R0 as [w' [x' y' z']], D as [dw [dx dy dz]]. unfold rot_add, biv_add. cbn [scalar bivector b1 b2 b3 oadd RO].
        apply (f_equal2 (@Ro3 R)); [ring|]. apply (f_equal3 (@GA.B3 R)); ring.
      - unfold rlen. cbn [scalar bivector b1 b2 b3]. f_equal. ring. }
    rewrite L0 in A2. lra.
Qed.
End Angle.

(** The exact rotations in the coordinate planes. *)
Lemma half_angle : forall a, cos (a / 2) * cos (a / 2) - sin (a / 2) * sin (a / 2) = cos a /\ 2 * (sin (a / 2) * cos (a / 2)) = sin a /\ cos (a / 2) * cos (a / 2) + sin (a / 2) * sin (a / 2) = 1.
Proof.
  intros a. pose proof (cos_2a (a / 2)) as C. pose proof (sin_2a (a / 2)) as S. pose proof (sin2_cos2 (a / 2)) as T. unfold Rsqr in T.
  replace (2 * (a / 2)) with a in C, S by field. repeat split; lra.
Qed.
Lemma turn_axis : forall a x y z : R,
  rot_rotate (O := RO) (turn a (B3 1 0 0)) (V3 x y z) = V3 (cos a * x - sin a * y) (sin a * x + cos a * y) z /\
  rot_rotate (O := RO) (turn a (B3 0 1 0)) (V3 x y z) = V3 (cos a * x - sin a * z) y (sin a * x + cos a * z) /\
  rot_rotate (O := RO) (turn a (B3 0 0 1)) (V3 x y z) = V3 x (cos a * y - sin a * z) (sin a * y + cos a * z).
Proof.
  intros a x y z. destruct (half_angle a) as (C & S & T). unfold rot_rotate, turn. cbn [scalar bivector b1 b2 b3 a1 a2 a3 oadd osub omul oneg RO].
  set (c := cos (a / 2)) in *. set (s := sin (a / 2)) in *. rewrite <- C, <- S.
  assert (T' : s * s = 1 - c * c) by lra.
  repeat split; apply (f_equal3 (@V3 R)); ring_simplify; replace (s ^ 2) with (1 - c ^ 2) by lra; try ring.
Qed.
