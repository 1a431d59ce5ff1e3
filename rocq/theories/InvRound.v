(** * inverse, angle, project, reflect and rotations of src/math with rounding. *)
From Coq Require Import ZArith Reals Lia Lra Psatz.
From Flocq Require Import Core.Core BinarySingleNaN.
From Verif Require Import Scalar GA Format RoundSpec Rounding GARound NormRound LenReal.
Local Open Scope R_scope.

Section Inv.
Variable f : Fmt.
Hypothesis wide : (11 <= prec f)%Z.
Local Notation O := (BO f).
Local Notation u := (ur f).
Local Notation t := (tiny f).
Local Notation u_small := (u_small f wide).
Local Notation t_small := (t_small f wide).

Lemma near_le : forall n k M M' (x : fl f) r, (1 + u) ^ n - 1 <= k -> M <= M' -> 0 <= M -> near f n M x r -> within (k * M') x r.
Proof.
  intros n k M M' x r Hk HM PM [F E]. split; [exact F|]. eapply Rle_trans; [exact E|].
  pose proof (pow1 f n). apply Rmult_le_compat; lra.
Qed.
Lemma p1 : (1 + u) ^ 1 - 1 <= 101 / 100 * u.
Proof. pose proof u_small. lra. Qed.
Lemma p2 : (1 + u) ^ 2 - 1 <= 201 / 100 * u.
Proof. pose proof u_small. nra. Qed.
Lemma p3 : (1 + u) ^ 3 - 1 <= 301 / 100 * u.
Proof. pose proof u_small. nra. Qed.
Lemma p4 : (1 + u) ^ 4 - 1 <= 401 / 100 * u.
Proof. pose proof u_small. nra. Qed.
Lemma p7 : (1 + u) ^ 7 - 1 <= 702 / 100 * u.
Proof.
  pose proof u_small. assert (A : (1 + u) ^ 3 <= 1 + 3005 / 1000 * u) by nra. assert (B : (1 + u) ^ 4 <= 1 + 401 / 100 * u) by nra.
  pose proof (pow1 f 3). pose proof (pow1 f 4). replace ((1 + u) ^ 7) with ((1 + u) ^ 3 * (1 + u) ^ 4) by ring.
  assert ((1 + u) ^ 3 * (1 + u) ^ 4 <= (1 + 3002 / 1000 * u) * (1 + 401 / 100 * u)).
  { apply Rmult_le_compat; [lra|lra| |lra]. nra. }
  nra.
Qed.
Lemma within_trans : forall e e' (x : fl f) r r', within e x r -> Rabs (r - r') <= e' -> within (e + e') x r'.
Proof.
  intros e e' x r r' [F E] H. split; [exact F|]. replace (B2R x - r') with ((B2R x - r) + (r - r')) by ring.
  eapply Rle_trans; [apply Rabs_triang|]. lra.
Qed.
Lemma within_mono : forall e e' (x : fl f) r, e <= e' -> within e x r -> within e' x r.
Proof. intros e e' x r H [F E]. split; [exact F|lra]. Qed.
Lemma room_ok : forall L, 0 <= L -> 4 * L <= huge f -> (1 + u) ^ 4 * (L + 4 * t) < huge f.
Proof. exact (room4 f wide). Qed.

(** Lengths of two objects in range. *)
Lemma sized_quot : forall L K, sized f L -> sized f K -> t * L <= K / 32 /\ K / L <= huge f / 64 /\ / L <= huge f / 64.
Proof.
  intros L K HL HK. pose proof (sized_pos f wide L HL) as PL. pose proof (sized_pos f wide K HK) as PK.
  destruct HL as (_ & L1 & L2), HK as (_ & K1 & K2). pose proof u_small as [Pu Su]. pose proof t_small as [Pt St].
  pose proof (t_huge f) as T. pose proof (huge_big f wide) as Hb.
  assert (PiL : 0 < / L) by now apply Rinv_0_lt_compat.
  assert (IL : (/ L) ^ 2 <= huge f / 8192).
  { assert (I : (/ L) ^ 2 * L ^ 2 = 1) by (field; lra). assert (P2 : 0 <= (/ L) ^ 2) by apply pow2_ge_0.
    assert (A : t <= (/ 2048) * L ^ 2) by (eapply Rle_trans; [exact L1|]; apply Rmult_le_compat_r; [apply pow2_ge_0|lra]).
    assert (B : t * (/ L) ^ 2 <= / 2048). { apply Rmult_le_compat_r with (r := (/ L) ^ 2) in A; [|exact P2]. lra. }
    assert (C : t * huge f * (/ L) ^ 2 <= huge f * / 2048). { rewrite (Rmult_comm t), Rmult_assoc. apply Rmult_le_compat_l; lra. }
    rewrite T in C. lra. }
  split; [|split].
  - assert (A : t <= / 2048 * K ^ 2) by (eapply Rle_trans; [exact K1|]; apply Rmult_le_compat_r; [apply pow2_ge_0|lra]).
    assert (Q : (t * L) ^ 2 <= (K / 32) ^ 2).
    { replace ((t * L) ^ 2) with (t * t * (L ^ 2)) by ring.
      apply Rle_trans with (t * t * (huge f / 4)); [apply Rmult_le_compat_l; nra|].
      replace (t * t * (huge f / 4)) with (t * (t * huge f) / 4) by field. rewrite T.
      replace ((K / 32) ^ 2) with (K ^ 2 * / 1024) by field. pose proof (pow2_ge_0 K). lra. }
    rewrite <- !Rsqr_pow2 in Q. apply Rsqr_incr_0_var in Q; lra.
  - assert (Q : (K / L) ^ 2 <= (huge f / 64) ^ 2).
    { replace ((K / L) ^ 2) with (K ^ 2 * (/ L) ^ 2) by (field; lra). replace ((huge f / 64) ^ 2) with (huge f / 4 * (huge f / 1024)) by field.
      apply Rmult_le_compat; try apply pow2_ge_0; lra. }
    rewrite <- !Rsqr_pow2 in Q. apply Rsqr_incr_0_var in Q; lra.
  - assert (Q : (/ L) ^ 2 <= (huge f / 64) ^ 2).
    { eapply Rle_trans; [exact IL|]. replace ((huge f / 64) ^ 2) with (huge f * (huge f / 4096)) by field. nra. }
    rewrite <- !Rsqr_pow2 in Q. apply Rsqr_incr_0_var in Q; lra.
Qed.

(** ** inverse *)
Lemma inv_over : forall (x s : fl f) L, is_finite x = true -> sized f L -> Rabs (B2R x) <= L ->
  0 < B2R s -> Rabs (B2R s - L ^ 2) <= 41 / 10 * u * L ^ 2 ->
  is_finite (Bdiv mode_NE x s) = true /\
  Rabs (B2R (Bdiv mode_NE x s) - B2R x / L ^ 2) <= 53 / 10 * u * Rabs (B2R x / L ^ 2) + u * t.
Proof.
  intros x s L Fx HL Hx Ps Es. pose proof u_small as [Pu Su]. pose proof t_small as [Pt St]. pose proof (huge_big f wide) as Hb.
  pose proof (sized_pos f wide L HL) as PL. destruct (sized_quot L L HL HL) as (_ & _ & HI).
  assert (PS : 0 < L ^ 2) by (apply pow_lt; exact PL).
  apply Rabs_le_inv in Es.
  pose (d := B2R s / L ^ 2 - 1). assert (Ed : B2R s = L ^ 2 * (1 + d)) by (unfold d; field; lra).
  assert (Hd : - (41 / 10 * u) <= d <= 41 / 10 * u).
  { assert (L ^ 2 * d = B2R s - L ^ 2) by (rewrite Ed; ring). split; apply Rmult_le_reg_l with (L ^ 2); lra. }
  set (c := B2R x / L ^ 2).
  assert (Q : B2R x / B2R s = c * / (1 + d)). { unfold c. rewrite Ed. field. split; [lra|]. intros E. rewrite E in PL. lra. }
  assert (I : exists g, Rabs g <= 42 / 10 * u /\ / (1 + d) = 1 + g).
  { exists (/ (1 + d) - 1). split; [|ring]. replace (/ (1 + d) - 1) with (- d / (1 + d)) by (field; lra).
    unfold Rdiv. rewrite Rabs_mult, Rabs_Ropp, Rabs_inv, (Rabs_pos_eq (1 + d)) by lra.
    apply Rmult_le_reg_r with (1 + d); [lra|]. rewrite Rmult_assoc, Rinv_l, Rmult_1_r by lra.
    apply Rle_trans with (41 / 10 * u); [apply Rabs_le; lra|]. nra. }
  destruct I as (g & Hg & Eg). rewrite Eg in Q. apply Rabs_le_inv in Hg.
  assert (C1 : Rabs c <= / L).
  { unfold c, Rdiv. rewrite Rabs_mult, (Rabs_pos_eq (/ L ^ 2)) by (left; now apply Rinv_0_lt_compat).
    replace (/ L) with (L * / L ^ 2) by (field; lra). apply Rmult_le_compat_r; [left; now apply Rinv_0_lt_compat|exact Hx]. }
  pose proof (Rabs_pos c) as Pc.
  assert (K : Rabs (c * (1 + g)) <= 2 * / L).
  { rewrite Rabs_mult, (Rabs_pos_eq (1 + g)) by lra. nra. }
  destruct (div_ok f x s Fx) as (F & d' & e & Hd' & He & V); [lra|rewrite Q; nra|].
  split; [exact F|]. rewrite V, Q. apply Rabs_le_inv in Hd'.
  replace (c * (1 + g) * (1 + d') + e - c) with (c * (g + d' + g * d') + e) by ring.
  eapply Rle_trans; [apply Rabs_triang|]. apply Rplus_le_compat; [|exact He].
  rewrite Rabs_mult, Rmult_comm. apply Rmult_le_compat_r; [exact Pc|].
  assert (Bd : Rabs (g * d') <= 42 / 10 * u * u) by (rewrite Rabs_mult; apply Rmult_le_compat; try apply Rabs_pos; apply Rabs_le; lra).
  apply Rabs_le_inv in Bd. assert (42 / 10 * u * u <= / 10 * u) by nra. apply Rabs_le. lra.
Qed.

(** The error of the inverse as a vector. *)
Lemma inv_len : forall (x1 x2 x3 y1 y2 y3 L : R), sized f L -> n4 x1 x2 x3 0 = L ->
  Rabs (y1 - x1 / L ^ 2) <= 53 / 10 * u * Rabs (x1 / L ^ 2) + u * t ->
  Rabs (y2 - x2 / L ^ 2) <= 53 / 10 * u * Rabs (x2 / L ^ 2) + u * t ->
  Rabs (y3 - x3 / L ^ 2) <= 53 / 10 * u * Rabs (x3 / L ^ 2) + u * t ->
  n4 (y1 - x1 / L ^ 2) (y2 - x2 / L ^ 2) (y3 - x3 / L ^ 2) 0 <= 54 / 10 * u / L.
Proof.
  intros x1 x2 x3 y1 y2 y3 L HL EL H1 H2 H3. pose proof u_small as [Pu Su]. pose proof t_small as [Pt St].
  pose proof (sized_pos f wide L HL) as PL. pose proof (sized_t f wide L HL) as TL.
  assert (H4 : Rabs 0 <= 53 / 10 * u * Rabs (0 / L ^ 2) + u * t).
  { rewrite Rabs_R0. pose proof (Rabs_pos (0 / L ^ 2)). nra. }
  eapply Rle_trans; [apply (n4_err (x1 / L ^ 2) (x2 / L ^ 2) (x3 / L ^ 2) (0 / L ^ 2) _ _ _ _ (53 / 10 * u) (u * t)); try assumption; nra|].
  assert (E : n4 (x1 / L ^ 2) (x2 / L ^ 2) (x3 / L ^ 2) (0 / L ^ 2) = / L).
  { assert (S : x1 ^ 2 + x2 ^ 2 + x3 ^ 2 + 0 ^ 2 = L ^ 2) by (rewrite <- EL; symmetry; apply n4_sq).
    unfold n4. rewrite <- (sqrt_pow2 (/ L)) by (left; now apply Rinv_0_lt_compat). f_equal.
    replace ((x1 / L ^ 2) ^ 2 + (x2 / L ^ 2) ^ 2 + (x3 / L ^ 2) ^ 2 + (0 / L ^ 2) ^ 2) with ((x1 ^ 2 + x2 ^ 2 + x3 ^ 2 + 0 ^ 2) / (L ^ 2) ^ 2) by (field; lra).
    rewrite S. field. lra. }
  rewrite E. apply Rmult_le_reg_r with L; [exact PL|].
  replace (54 / 10 * u / L * L) with (54 / 10 * u) by (field; lra).
  replace ((53 / 10 * u * / L + 2 * (u * t)) * L) with (53 / 10 * u + 2 * u * (t * L)) by (field; lra). nra.
Qed.

Lemma n4_3 : forall a b c, sqrt (a ^ 2 + b ^ 2 + c ^ 2) = n4 a b c 0.
Proof. intros. unfold n4. f_equal. ring. Qed.
Lemma vinv_len : forall v, 0 < vlen v -> vlen (vinv v) = / vlen v.
Proof.
  intros v P. unfold vlen at 1. cbn [vinv a1 a2 a3]. rewrite <- (sqrt_pow2 (/ vlen v)) by (left; now apply Rinv_0_lt_compat). f_equal.
  pose proof (vlen_sqr v) as Q. set (L := vlen v) in *.
  replace ((a1 v / L ^ 2) ^ 2 + (a2 v / L ^ 2) ^ 2 + (a3 v / L ^ 2) ^ 2) with ((a1 v ^ 2 + a2 v ^ 2 + a3 v ^ 2) / (L ^ 2) ^ 2) by (field; lra).
  rewrite <- Q. field. lra.
Qed.
Lemma vec_norm_sq : forall v : Vector3 O, vfin v -> let L := vlen (rv v) in sized f L ->
  0 < B2R (vec_norm_squared v) /\ Rabs (B2R (vec_norm_squared v) - L ^ 2) <= 41 / 10 * u * L ^ 2.
Proof.
  intros v Fv L HL. pose proof (vlen_sqr (rv v)) as E. fold L in E. destruct HL as (_ & H1 & H2).
  assert (V : vsq f v = L ^ 2) by (rewrite E; reflexivity). rewrite <- V in *. pose proof (vsq_near f wide v Fv H2) as N.
  destruct (root_near f wide _ _ H1 N) as (_ & A & B & _). now split.
Qed.
Lemma split_diff : forall a b : R, a = b + (a - b).
Proof. intros. ring. Qed.
Lemma err_eq : forall x c d e : R, x = c + d -> Rabs d <= e -> Rabs (x - c) <= e.
Proof. intros x c d e -> H. now replace (c + d - c) with d by ring. Qed.
(** The computed inverse, as an exact vector plus a small error. *)
Lemma vec_inverse_err : forall v : Vector3 O, vfin v -> let L := vlen (rv v) in sized f L ->
  vfin (vec_inverse v) /\ exists d : Vector3 R, rv (vec_inverse v) = vec_add (O := RO) (vinv (rv v)) d /\ vlen d <= 54 / 10 * u / L.
Proof.
  intros v Fv L HL. destruct (vec_norm_sq v Fv HL) as [P E]. fold L in E.
  pose proof (vlen_part (rv v)) as (P1 & P2 & P3). fold L in P1, P2, P3. cbn [rv a1 a2 a3] in P1, P2, P3.
  destruct Fv as (F1 & F2 & F3).
  destruct (inv_over (a1 v) _ L F1 HL P1 P E) as [A1 B1]. destruct (inv_over (a2 v) _ L F2 HL P2 P E) as [A2 B2]. destruct (inv_over (a3 v) _ L F3 HL P3 P E) as [A3 B3].
  split; [exact (conj A1 (conj A2 A3))|].
  exists (V3 (B2R (a1 (vec_inverse v)) - B2R (a1 v) / L ^ 2) (B2R (a2 (vec_inverse v)) - B2R (a2 v) / L ^ 2) (B2R (a3 (vec_inverse v)) - B2R (a3 v) / L ^ 2)).
  split.
  - exact (f_equal3 (@V3 R) (split_diff _ _) (split_diff _ _) (split_diff _ _)).
  - unfold vlen. cbn [a1 a2 a3]. rewrite n4_3. apply (inv_len (B2R (a1 v)) (B2R (a2 v)) (B2R (a3 v))); try assumption.
    unfold L. rewrite vlen_n4. reflexivity.
Qed.
Lemma vec_inverse_near : forall v : Vector3 O, vfin v -> let L := vlen (rv v) in sized f L ->
  veach (within (54 / 10 * u / L)) (vec_inverse v) (vinv (rv v)) /\
  within (9 * u) (scalar (vec_mul (vec_inverse v) v)) 1 /\
  beach (within (9 * u)) (bivector (vec_mul (vec_inverse v) v)) (B3 0 0 0).
Proof.
  intros v Fv L HL. destruct (vec_inverse_err v Fv HL) as (Fi & d & E & Hd). fold L in Hd.
  pose proof u_small as [Pu Su]. pose proof t_small as [Pt St]. pose proof (sized_pos f wide L HL) as PL. pose proof (huge_big f wide).
  pose proof (vlen_part d) as (D1 & D2 & D3).
  split.
  { assert (Q1 : B2R (a1 (vec_inverse v)) = a1 (vinv (rv v)) + a1 d) by (change (a1 (rv (vec_inverse v)) = a1 (vec_add (O := RO) (vinv (rv v)) d)); now rewrite E).
    assert (Q2 : B2R (a2 (vec_inverse v)) = a2 (vinv (rv v)) + a2 d) by (change (a2 (rv (vec_inverse v)) = a2 (vec_add (O := RO) (vinv (rv v)) d)); now rewrite E).
    assert (Q3 : B2R (a3 (vec_inverse v)) = a3 (vinv (rv v)) + a3 d) by (change (a3 (rv (vec_inverse v)) = a3 (vec_add (O := RO) (vinv (rv v)) d)); now rewrite E).
    destruct Fi as (F1 & F2 & F3).
    split; [split; [exact F1|]|split; (split; [assumption|])].
    - exact (err_eq _ _ _ _ Q1 (Rle_trans _ _ _ D1 Hd)).
    - exact (err_eq _ _ _ _ Q2 (Rle_trans _ _ _ D2 Hd)).
    - exact (err_eq _ _ _ _ Q3 (Rle_trans _ _ _ D3 Hd)). }
  assert (LY : vlen (rv (vec_inverse v)) * L <= 1 + 54 / 10 * u).
  { rewrite E. pose proof (vlen_add (vinv (rv v)) d) as A. rewrite vinv_len in A by exact PL. fold L in A.
    apply Rle_trans with ((/ L + 54 / 10 * u / L) * L); [apply Rmult_le_compat_r; lra|]. right. field. lra. }
  pose proof (vlen_pos (rv (vec_inverse v))) as PY. pose proof (Rmult_le_pos _ _ PY (Rlt_le _ _ PL)) as PYL.
  destruct (vec_products f (vec_inverse v) v Fi Fv) as [Nd Nw]; fold L.
  { apply room_ok; lra. }
  fold L in Nd, Nw.
  (* the exact product of the computed inverse and v *)
  pose (M := vec_mul (O := RO) d (rv v)).
  assert (LM : rlen M <= 54 / 10 * u).
  { unfold M. rewrite rlen_vec_mul. fold L. apply Rle_trans with (54 / 10 * u / L * L); [apply Rmult_le_compat_r; lra|]. right. field. lra. }
  assert (EM : vec_mul (O := RO) (rv (vec_inverse v)) (rv v) = rot_add (O := RO) (Ro3 1 (B3 0 0 0)) M).
  { rewrite E. unfold M. pose proof (vlen_sqr (rv v)) as S. fold L in S. unfold vinv. fold L.
    destruct (rv v) as [x y z], d as [p q r]. unfold vec_mul, vec_dot, vec_wedge, vec_add, rot_add, biv_add.
    cbn [a1 a2 a3 b1 b2 b3 scalar bivector oadd omul osub RO] in *.
    refine (f_equal2 (@Ro3 R) _ (f_equal3 (@B3 R) _ _ _)); [|field; lra..].
    replace ((x / L ^ 2 + p) * x + (y / L ^ 2 + q) * y + (z / L ^ 2 + r) * z) with ((x ^ 2 + y ^ 2 + z ^ 2) / L ^ 2 + (p * x + q * y + r * z)) by (field; lra).
    rewrite <- S. field. lra. }
  pose proof (rlen_part M) as (M0 & M1 & M2 & M3).
  assert (W : forall n k m (x : fl f) r, (1 + u) ^ n - 1 <= k * u -> 0 <= k <= 301 / 100 -> 0 <= m <= 3 ->
    near f n (vlen (rv (vec_inverse v)) * L + m * t) x r -> within (k * u * (1 + 54 / 10 * u + 3 * t)) x r).
  { intros n k m x r Hk Rk Rm N. eapply near_le; [exact Hk| | |exact N]; nra. }
  assert (S3 : 301 / 100 * u * (1 + 54 / 10 * u + 3 * t) + 54 / 10 * u <= 9 * u) by nra.
  assert (S2 : 201 / 100 * u * (1 + 54 / 10 * u + 3 * t) + 54 / 10 * u <= 9 * u) by nra.
  assert (Ed : vec_dot (O := RO) (rv (vec_inverse v)) (rv v) = 1 + scalar M) by (change (scalar (vec_mul (O := RO) (rv (vec_inverse v)) (rv v)) = 1 + scalar M); rewrite EM; reflexivity).
  assert (Ew : vec_wedge (O := RO) (rv (vec_inverse v)) (rv v) = biv_add (O := RO) (B3 0 0 0) (bivector M)) by (change (bivector (vec_mul (O := RO) (rv (vec_inverse v)) (rv v)) = biv_add (O := RO) (B3 0 0 0) (bivector M)); rewrite EM; reflexivity).
  split.
  - apply within_mono with (1 := S3). apply within_trans with (vec_dot (O := RO) (rv (vec_inverse v)) (rv v)).
    + apply (W 3%nat _ 3 _ _ p3); [lra|lra|exact Nd].
    + exact (err_eq _ _ _ _ Ed (Rle_trans _ _ _ M0 LM)).
  - rewrite Ew in Nw. destruct Nw as (N1 & N2 & N3).
    split; [|split]; apply within_mono with (1 := S2).
    + eapply within_trans; [apply (W 2%nat _ 2 _ _ p2); [lra|lra|exact N1]|]. exact (err_eq _ 0 _ _ eq_refl (Rle_trans _ _ _ M1 LM)).
    + eapply within_trans; [apply (W 2%nat _ 2 _ _ p2); [lra|lra|exact N2]|]. exact (err_eq _ 0 _ _ eq_refl (Rle_trans _ _ _ M2 LM)).
    + eapply within_trans; [apply (W 2%nat _ 2 _ _ p2); [lra|lra|exact N3]|]. exact (err_eq _ 0 _ _ eq_refl (Rle_trans _ _ _ M3 LM)).
Qed.

Lemma n4_neg : forall a b c, n4 (- a) (- b) (- c) 0 = n4 a b c 0.
Proof. intros. unfold n4. f_equal. ring. Qed.
Lemma binv_len : forall v, 0 < blen v -> blen (binv v) = / blen v.
Proof.
  intros v P. unfold blen at 1. cbn [binv b1 b2 b3]. rewrite <- (sqrt_pow2 (/ blen v)) by (left; now apply Rinv_0_lt_compat). f_equal.
  pose proof (blen_sqr v) as Q. set (L := blen v) in *.
  replace ((- b1 v / L ^ 2) ^ 2 + (- b2 v / L ^ 2) ^ 2 + (- b3 v / L ^ 2) ^ 2) with ((b1 v ^ 2 + b2 v ^ 2 + b3 v ^ 2) / (L ^ 2) ^ 2) by (field; lra).
  rewrite <- Q. field. lra.
Qed.
Lemma biv_norm_sq : forall v : Bivector3 O, bfin v -> let L := blen (rb v) in sized f L ->
  0 < B2R (biv_norm_squared v) /\ Rabs (B2R (biv_norm_squared v) - L ^ 2) <= 41 / 10 * u * L ^ 2.
Proof.
  intros v Fv L HL. pose proof (blen_sqr (rb v)) as E. fold L in E. destruct HL as (_ & H1 & H2).
  assert (V : bsq f v = L ^ 2) by (rewrite E; reflexivity). rewrite <- V in *. pose proof (bsq_near f wide v Fv H2) as N.
  destruct (root_near f wide _ _ H1 N) as (_ & A & B & _). now split.
Qed.
Lemma neg_over : forall (x s : fl f) L, is_finite x = true -> sized f L -> Rabs (B2R x) <= L ->
  0 < B2R s -> Rabs (B2R s - L ^ 2) <= 41 / 10 * u * L ^ 2 ->
  is_finite (Bdiv mode_NE (Bopp x) s) = true /\
  Rabs (B2R (Bdiv mode_NE (Bopp x) s) - - B2R x / L ^ 2) <= 53 / 10 * u * Rabs (- B2R x / L ^ 2) + u * t.
Proof.
  intros x s L F HL Hx Ps E. rewrite <- B2R_Bopp. apply inv_over; auto.
  - now rewrite is_finite_Bopp. - now rewrite B2R_Bopp, Rabs_Ropp.
Qed.
Lemma biv_inverse_err : forall v : Bivector3 O, bfin v -> let L := blen (rb v) in sized f L ->
  bfin (biv_inverse v) /\ exists d : Bivector3 R, rb (biv_inverse v) = biv_add (O := RO) (binv (rb v)) d /\ blen d <= 54 / 10 * u / L.
Proof.
  intros v Fv L HL. destruct (biv_norm_sq v Fv HL) as [P E]. fold L in E.
  pose proof (blen_part (rb v)) as (P1 & P2 & P3). fold L in P1, P2, P3. cbn [rb b1 b2 b3] in P1, P2, P3.
  destruct Fv as (F1 & F2 & F3).
  destruct (neg_over (b1 v) _ L F1 HL P1 P E) as [A1 B1]. destruct (neg_over (b2 v) _ L F2 HL P2 P E) as [A2 B2]. destruct (neg_over (b3 v) _ L F3 HL P3 P E) as [A3 B3].
  split; [exact (conj A1 (conj A2 A3))|].
  exists (GA.B3 (B2R (b1 (biv_inverse v)) - - B2R (b1 v) / L ^ 2) (B2R (b2 (biv_inverse v)) - - B2R (b2 v) / L ^ 2) (B2R (b3 (biv_inverse v)) - - B2R (b3 v) / L ^ 2)).
  split.
  - exact (f_equal3 (@GA.B3 R) (split_diff _ _) (split_diff _ _) (split_diff _ _)).
  - unfold blen. cbn [b1 b2 b3]. rewrite n4_3. apply (inv_len (- B2R (b1 v)) (- B2R (b2 v)) (- B2R (b3 v))); try assumption.
    etransitivity; [apply n4_neg|]. symmetry. exact (blen_n4 (rb v)).
Qed.
Lemma biv_inverse_near : forall v : Bivector3 O, bfin v -> let L := blen (rb v) in sized f L ->
  beach (within (54 / 10 * u / L)) (biv_inverse v) (binv (rb v)) /\
  within (9 * u) (scalar (biv_mul (biv_inverse v) v)) 1 /\
  beach (within (9 * u)) (bivector (biv_mul (biv_inverse v) v)) (B3 0 0 0).
Proof.
  intros v Fv L HL. destruct (biv_inverse_err v Fv HL) as (Fi & d & E & Hd). fold L in Hd.
  pose proof u_small as [Pu Su]. pose proof t_small as [Pt St]. pose proof (sized_pos f wide L HL) as PL. pose proof (huge_big f wide).
  pose proof (blen_part d) as (D1 & D2 & D3).
  split.
  { assert (Q1 : B2R (b1 (biv_inverse v)) = b1 (binv (rb v)) + b1 d) by (change (b1 (rb (biv_inverse v)) = b1 (biv_add (O := RO) (binv (rb v)) d)); now rewrite E).
    assert (Q2 : B2R (b2 (biv_inverse v)) = b2 (binv (rb v)) + b2 d) by (change (b2 (rb (biv_inverse v)) = b2 (biv_add (O := RO) (binv (rb v)) d)); now rewrite E).
    assert (Q3 : B2R (b3 (biv_inverse v)) = b3 (binv (rb v)) + b3 d) by (change (b3 (rb (biv_inverse v)) = b3 (biv_add (O := RO) (binv (rb v)) d)); now rewrite E).
    destruct Fi as (F1 & F2 & F3).
    split; [split; [exact F1|]|split; (split; [assumption|])].
    - exact (err_eq _ _ _ _ Q1 (Rle_trans _ _ _ D1 Hd)).
    - exact (err_eq _ _ _ _ Q2 (Rle_trans _ _ _ D2 Hd)).
    - exact (err_eq _ _ _ _ Q3 (Rle_trans _ _ _ D3 Hd)). }
  assert (LY : blen (rb (biv_inverse v)) * L <= 1 + 54 / 10 * u).
  { rewrite E. pose proof (blen_add (binv (rb v)) d) as A. rewrite binv_len in A by exact PL. fold L in A.
    apply Rle_trans with ((/ L + 54 / 10 * u / L) * L); [apply Rmult_le_compat_r; lra|]. right. field. lra. }
  pose proof (blen_pos (rb (biv_inverse v))) as PY. pose proof (Rmult_le_pos _ _ PY (Rlt_le _ _ PL)) as PYL.
  destruct (biv_products f (biv_inverse v) v Fi Fv) as (_ & _ & Nd & Nw); fold L.
  { apply room_ok; lra. }
  fold L in Nd, Nw.
  (* the exact product of the computed inverse and v *)
  pose (M := biv_mul (O := RO) d (rb v)).
  assert (LM : rlen M <= 54 / 10 * u).
  { unfold M. rewrite rlen_biv_mul. fold L. apply Rle_trans with (54 / 10 * u / L * L); [apply Rmult_le_compat_r; lra|]. right. field. lra. }
  assert (EM : biv_mul (O := RO) (rb (biv_inverse v)) (rb v) = rot_add (O := RO) (Ro3 1 (B3 0 0 0)) M).
  { rewrite E. unfold M. pose proof (blen_sqr (rb v)) as S. fold L in S. unfold binv. fold L.
    destruct (rb v) as [x y z], d as [p q r]. unfold biv_mul, biv_add, rot_add, biv_add.
    cbn [b1 b2 b3 scalar bivector oadd omul osub oneg RO] in *.
    refine (f_equal2 (@Ro3 R) _ (f_equal3 (@B3 R) _ _ _)); [|field; lra..].
    replace (- ((- x / L ^ 2 + p) * x + (- y / L ^ 2 + q) * y + (- z / L ^ 2 + r) * z)) with ((x ^ 2 + y ^ 2 + z ^ 2) / L ^ 2 + - (p * x + q * y + r * z)) by (field; lra).
    rewrite <- S. field. lra. }
  pose proof (rlen_part M) as (M0 & M1 & M2 & M3).
  assert (W : forall n k m (x : fl f) r, (1 + u) ^ n - 1 <= k * u -> 0 <= k <= 301 / 100 -> 0 <= m <= 3 ->
    near f n (blen (rb (biv_inverse v)) * L + m * t) x r -> within (k * u * (1 + 54 / 10 * u + 3 * t)) x r).
  { intros n k m x r Hk Rk Rm N. eapply near_le; [exact Hk| | |exact N]; nra. }
  assert (S3 : 301 / 100 * u * (1 + 54 / 10 * u + 3 * t) + 54 / 10 * u <= 9 * u) by nra.
  assert (S2 : 201 / 100 * u * (1 + 54 / 10 * u + 3 * t) + 54 / 10 * u <= 9 * u) by nra.
  assert (Ed : scalar (biv_mul (O := RO) (rb (biv_inverse v)) (rb v)) = 1 + scalar M) by (rewrite EM; reflexivity).
  split.
  - apply within_mono with (1 := S3). eapply within_trans.
    + apply (W 3%nat _ 3 _ _ p3); [lra|lra|exact Nd].
    + exact (err_eq _ _ _ _ Ed (Rle_trans _ _ _ M0 LM)).
  - rewrite EM in Nw. destruct Nw as (N1 & N2 & N3).
    split; [|split]; apply within_mono with (1 := S2).
    + eapply within_trans; [apply (W 2%nat _ 2 _ _ p2); [lra|lra|exact N1]|]. exact (err_eq _ 0 _ _ eq_refl (Rle_trans _ _ _ M1 LM)).
    + eapply within_trans; [apply (W 2%nat _ 2 _ _ p2); [lra|lra|exact N2]|]. exact (err_eq _ 0 _ _ eq_refl (Rle_trans _ _ _ M2 LM)).
    + eapply within_trans; [apply (W 2%nat _ 2 _ _ p2); [lra|lra|exact N3]|]. exact (err_eq _ 0 _ _ eq_refl (Rle_trans _ _ _ M3 LM)).
Qed.
Lemma tri_inverse_near : forall v : Trivector3 O, tfin v -> let L := tlen (rt v) in sized f L ->
  teach (within (54 / 10 * u / L)) (tri_inverse v) (tinv (rt v)) /\ within (9 * u) (tri_mul (tri_inverse v) v) 1.
Proof.
  intros [x] Fv L HL. unfold tfin in Fv. cbn [t1] in Fv.
  pose proof u_small as [Pu Su]. pose proof t_small as [Pt St]. pose proof (sized_pos f wide L HL) as PL. pose proof (huge_big f wide).
  pose proof (sized_t f wide L HL) as TL.
  assert (EL : L = Rabs (B2R x)) by reflexivity. assert (EL2 : L ^ 2 = B2R x ^ 2) by (rewrite EL, <- !Rsqr_pow2, <- Rsqr_abs; reflexivity).
  assert (N : 0 < B2R (tri_norm_squared (T3 x : Trivector3 O)) /\ Rabs (B2R (tri_norm_squared (T3 x : Trivector3 O)) - L ^ 2) <= 41 / 10 * u * L ^ 2).
  { destruct HL as (_ & H1 & H2). rewrite EL2 in *. pose proof (tsq_near f wide (T3 x : Trivector3 O) Fv H2) as N.
    destruct (root_near f wide _ _ H1 N) as (_ & A & B & _). now split. }
  destruct N as [P E]. destruct (neg_over x _ L Fv HL ltac:(rewrite EL; lra) P E) as [A B].
  set (y := Bdiv mode_NE (Bopp x) (tri_norm_squared (T3 x : Trivector3 O))) in *.
  assert (AL : Rabs (- B2R x / L ^ 2) = / L).
  { unfold Rdiv. rewrite Rabs_mult, Rabs_Ropp, <- EL, Rabs_pos_eq by (left; apply Rinv_0_lt_compat; now apply pow_lt). field. lra. }
  assert (B' : Rabs (B2R y - - B2R x / L ^ 2) <= 54 / 10 * u / L).
  { eapply Rle_trans; [exact B|]. rewrite AL. apply Rmult_le_reg_r with L; [exact PL|].
    replace (54 / 10 * u / L * L) with (54 / 10 * u) by (field; lra).
    replace ((53 / 10 * u * / L + u * t) * L) with (53 / 10 * u + u * (t * L)) by (field; lra). nra. }
  split; [exact (conj A B')|].
  assert (LY : Rabs (B2R y) * L <= 1 + 54 / 10 * u).
  { replace (B2R y) with (- B2R x / L ^ 2 + (B2R y - - B2R x / L ^ 2)) by ring.
    apply Rle_trans with ((/ L + 54 / 10 * u / L) * L); [apply Rmult_le_compat_r; [lra|]; eapply Rle_trans; [apply Rabs_triang|lra]|]. right. field. lra. }
  pose proof (Rmult_le_pos _ _ (Rabs_pos (B2R y)) (Rlt_le _ _ PL)) as PYL.
  assert (Rm : (1 + u) ^ 4 * (tlen (rt (T3 y : Trivector3 O)) * tlen (rt (T3 x : Trivector3 O)) + 4 * t) < huge f).
  { change (tlen (rt (T3 x : Trivector3 O))) with L. change (tlen (rt (T3 y : Trivector3 O))) with (Rabs (B2R y)). apply room_ok; lra. }
  destruct (tri_products f (T3 y : Trivector3 O) (T3 x) A Fv Rm) as [_ N]. change (tri_mul (tri_inverse (T3 x)) (T3 x)) with (tri_mul (T3 y : Trivector3 O) (T3 x)).
  assert (N' : within (101 / 100 * u * (1 + 54 / 10 * u + t)) (tri_mul (T3 y : Trivector3 O) (T3 x)) (tri_mul (O := RO) (rt (T3 y : Trivector3 O)) (rt (T3 x : Trivector3 O)))).
  { eapply near_le; [exact p1| | |exact N]; change (tlen (rt (T3 x : Trivector3 O))) with L; change (tlen (rt (T3 y : Trivector3 O))) with (Rabs (B2R y)); lra. }
  apply within_mono with (101 / 100 * u * (1 + 54 / 10 * u + t) + 54 / 10 * u); [nra|]. eapply within_trans; [exact N'|].
  change (tri_mul (O := RO) (rt (T3 y : Trivector3 O)) (rt (T3 x : Trivector3 O))) with (- B2R y * B2R x).
  assert (X : - B2R x * B2R x / L ^ 2 = - 1). { replace (- B2R x * B2R x) with (- L ^ 2) by (rewrite EL2; ring). field. lra. }
  replace (- B2R y * B2R x - 1) with (- (B2R y - - B2R x / L ^ 2) * B2R x) by (replace (- (B2R y - - B2R x / L ^ 2) * B2R x) with (- B2R y * B2R x + - B2R x * B2R x / L ^ 2) by (field; lra); rewrite X; ring).
  rewrite Rabs_mult, Rabs_Ropp, <- EL. apply Rle_trans with (54 / 10 * u / L * L); [apply Rmult_le_compat_r; lra|]. right. field. lra.
Qed.
End Inv.
