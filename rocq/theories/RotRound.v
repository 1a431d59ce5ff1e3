(** * Angles, projections, reflections and rotations of src/math with rounding. *)
From Coq Require Import ZArith Reals Lia Lra Psatz.
From Flocq Require Import Core.Core BinarySingleNaN.
From Verif Require Import Scalar GA Format RoundSpec Rounding GARound NormRound LenReal InvRound.
Local Open Scope R_scope.

Section Rot.
Variable f : Fmt.
Hypothesis wide : (11 <= prec f)%Z.
Local Notation O := (BO f).
Local Notation u := (ur f).
Local Notation t := (tiny f).
Local Notation u_small := (u_small f wide).
Local Notation t_small := (t_small f wide).

(** The computed unit vectors and rotors as exact ones plus a small error. *)
Lemma over_len : forall (x n : fl f) L, is_finite x = true -> sized f L -> Rabs (B2R x) <= L ->
  (exists d, Rabs d <= 32 / 10 * u /\ B2R n = L * (1 + d)) ->
  is_finite (Bdiv mode_NE x n) = true /\ Rabs (B2R (Bdiv mode_NE x n) - B2R x / L) <= 45 / 10 * u * Rabs (B2R x / L) + u * t.
Proof.
  intros x n L Fx HL Hx Hn. pose proof (sized_pos f wide L HL) as PL. destruct HL as (_ & H1 & _).
  assert (EL : sqrt (L ^ 2) = L) by (apply sqrt_pow2; lra).
  destruct (over_root f wide x n (L ^ 2) Fx H1) as (A & B & _); rewrite ?EL in *; auto.
  rewrite <- Rsqr_pow2, Rsqr_abs, Rsqr_pow2. apply pow_incr. split; [apply Rabs_pos|exact Hx].
Qed.
Lemma unit_len : forall a b c d x y z w L, 0 < L -> n4 a b c d = L ->
  Rabs (x - a / L) <= 45 / 10 * u * Rabs (a / L) + u * t -> Rabs (y - b / L) <= 45 / 10 * u * Rabs (b / L) + u * t ->
  Rabs (z - c / L) <= 45 / 10 * u * Rabs (c / L) + u * t -> Rabs (w - d / L) <= 45 / 10 * u * Rabs (d / L) + u * t ->
  n4 (x - a / L) (y - b / L) (z - c / L) (w - d / L) <= 5 * u.
Proof.
  intros a b c d x y z w L PL EL H1 H2 H3 H4. pose proof u_small as [Pu Su]. pose proof t_small as [Pt St].
  eapply Rle_trans; [apply (n4_err (a / L) (b / L) (c / L) (d / L) _ _ _ _ (45 / 10 * u) (u * t)); try assumption; nra|].
  assert (E : n4 (a / L) (b / L) (c / L) (d / L) = 1).
  { pose proof (n4_sq a b c d) as S. rewrite EL in S. unfold n4.
    replace ((a / L) ^ 2 + (b / L) ^ 2 + (c / L) ^ 2 + (d / L) ^ 2) with ((a ^ 2 + b ^ 2 + c ^ 2 + d ^ 2) / L ^ 2) by (field; lra).
    rewrite <- S. replace (L ^ 2 / L ^ 2) with 1 by (field; lra). apply sqrt_1. }
  rewrite E. nra.
Qed.
Lemma vdir_len : forall v, 0 < vlen v -> vlen (vdir v) = 1.
Proof.
  intros v P. unfold vlen at 1. cbn [vdir a1 a2 a3]. pose proof (vlen_sqr v) as S. set (L := vlen v) in *.
  replace ((a1 v / L) ^ 2 + (a2 v / L) ^ 2 + (a3 v / L) ^ 2) with ((a1 v ^ 2 + a2 v ^ 2 + a3 v ^ 2) / L ^ 2) by (field; lra).
  rewrite <- S. replace (L ^ 2 / L ^ 2) with 1 by (field; lra). apply sqrt_1.
Qed.
Lemma rdir_len : forall v, 0 < rlen v -> rlen (rdir v) = 1.
Proof.
  intros v P. unfold rlen at 1. cbn [rdir scalar bivector b1 b2 b3]. pose proof (rlen_sqr v) as S. set (L := rlen v) in *.
  replace ((scalar v / L) ^ 2 + (b1 (bivector v) / L) ^ 2 + (b2 (bivector v) / L) ^ 2 + (b3 (bivector v) / L) ^ 2)
    with ((scalar v ^ 2 + b1 (bivector v) ^ 2 + b2 (bivector v) ^ 2 + b3 (bivector v) ^ 2) / L ^ 2) by (field; lra).
  rewrite <- S. replace (L ^ 2 / L ^ 2) with 1 by (field; lra). apply sqrt_1.
Qed.
Lemma vec_norm_factor : forall v : Vector3 O, vfin v -> let L := vlen (rv v) in sized f L ->
  exists d, Rabs d <= 32 / 10 * u /\ B2R (vec_norm v) = L * (1 + d).
Proof.
  intros v Fv L HL. pose proof (vlen_sqr (rv v)) as E. fold L in E. pose proof (sized_pos f wide L HL). destruct HL as (_ & H1 & H2).
  assert (V : vsq f v = L ^ 2) by (rewrite E; reflexivity). rewrite <- V in H1, H2. pose proof (vsq_near f wide v Fv H2) as N.
  destruct (root_near f wide _ _ H1 N) as (_ & _ & _ & d & Hd & Ed). exists d. split; [exact Hd|].
  rewrite V in Ed. rewrite sqrt_pow2 in Ed by lra. exact Ed.
Qed.
Lemma rot_norm_factor : forall v : Rotor3 O, rfin v -> let L := rlen (rr v) in sized f L ->
  exists d, Rabs d <= 32 / 10 * u /\ B2R (rot_norm v) = L * (1 + d).
Proof.
  intros v Fv L HL. pose proof (rlen_sqr (rr v)) as E. fold L in E. pose proof (sized_pos f wide L HL). destruct HL as (_ & H1 & H2).
  assert (V : rsq f v = L ^ 2) by (rewrite E; reflexivity). rewrite <- V in H1, H2. pose proof (rsq_near f wide v Fv H2) as N.
  destruct (root_near f wide _ _ H1 N) as (_ & _ & _ & d & Hd & Ed). exists d. split; [exact Hd|].
  rewrite V in Ed. rewrite sqrt_pow2 in Ed by lra. exact Ed.
Qed.
Lemma vec_normalize_err : forall v : Vector3 O, vfin v -> sized f (vlen (rv v)) ->
  vfin (vec_normalize v) /\ exists d : Vector3 R, rv (vec_normalize v) = vec_add (O := RO) (vdir (rv v)) d /\ vlen d <= 5 * u.
Proof.
  intros v Fv HL. pose proof (vec_norm_factor v Fv HL) as N. set (L := vlen (rv v)) in *. pose proof (sized_pos f wide L HL) as PL.
  pose proof u_small as [Pu Su]. pose proof t_small as [Pt St].
  pose proof (vlen_part (rv v)) as (P1 & P2 & P3). fold L in P1, P2, P3. cbn [rv a1 a2 a3] in P1, P2, P3.
  destruct Fv as (F1 & F2 & F3).
  destruct (over_len (a1 v) _ L F1 HL P1 N) as [A1 B1]. destruct (over_len (a2 v) _ L F2 HL P2 N) as [A2 B2]. destruct (over_len (a3 v) _ L F3 HL P3 N) as [A3 B3].
  split; [exact (conj A1 (conj A2 A3))|].
  exists (V3 (B2R (a1 (vec_normalize v)) - B2R (a1 v) / L) (B2R (a2 (vec_normalize v)) - B2R (a2 v) / L) (B2R (a3 (vec_normalize v)) - B2R (a3 v) / L)).
  split.
  - exact (f_equal3 (@V3 R) (split_diff _ _) (split_diff _ _) (split_diff _ _)).
  - unfold vlen. cbn [a1 a2 a3]. rewrite n4_3. replace 0 with (0 - 0 / L) by (field; lra).
    apply (unit_len (B2R (a1 v)) (B2R (a2 v)) (B2R (a3 v)) 0); try assumption.
    + symmetry. exact (vlen_n4 (rv v)).
    + replace (0 - 0 / L) with 0 by (field; lra). rewrite Rabs_R0. pose proof (Rabs_pos (0 / L)). nra.
Qed.
Lemma rot_normalize_err : forall v : Rotor3 O, rfin v -> sized f (rlen (rr v)) ->
  rfin (rot_normalize v) /\ exists d : Rotor3 R, rr (rot_normalize v) = rot_add (O := RO) (rdir (rr v)) d /\ rlen d <= 5 * u.
Proof.
  intros v Fv HL. pose proof (rot_norm_factor v Fv HL) as N. set (L := rlen (rr v)) in *. pose proof (sized_pos f wide L HL) as PL.
  pose proof (rlen_part (rr v)) as (P0 & P1 & P2 & P3). fold L in P0, P1, P2, P3. cbn [rr rb scalar bivector b1 b2 b3] in P0, P1, P2, P3.
  destruct Fv as (F0 & F1 & F2 & F3).
  destruct (over_len (scalar v) _ L F0 HL P0 N) as [A0 B0]. destruct (over_len (b1 (bivector v)) _ L F1 HL P1 N) as [A1 B1].
  destruct (over_len (b2 (bivector v)) _ L F2 HL P2 N) as [A2 B2]. destruct (over_len (b3 (bivector v)) _ L F3 HL P3 N) as [A3 B3].
  split; [exact (conj A0 (conj A1 (conj A2 A3)))|].
  exists (Ro3 (B2R (scalar (rot_normalize v)) - B2R (scalar v) / L)
    (GA.B3 (B2R (b1 (bivector (rot_normalize v))) - B2R (b1 (bivector v)) / L) (B2R (b2 (bivector (rot_normalize v))) - B2R (b2 (bivector v)) / L)
       (B2R (b3 (bivector (rot_normalize v))) - B2R (b3 (bivector v)) / L))).
  split.
  - exact (f_equal2 (@Ro3 R) (split_diff _ _) (f_equal3 (@GA.B3 R) (split_diff _ _) (split_diff _ _) (split_diff _ _))).
  - apply (unit_len (B2R (scalar v)) (B2R (b1 (bivector v))) (B2R (b2 (bivector v))) (B2R (b3 (bivector v)))); try assumption.
    symmetry. exact (rlen_n4 (rr v)).
Qed.

Lemma sized_t1 : forall L, sized f L -> t <= L / 1024 /\ L <= huge f / 64.
Proof.
  intros L HL. pose proof (sized_pos f wide L HL) as PL. destruct HL as (_ & H1 & H2).
  pose proof u_small as [Pu Su]. pose proof t_small as [Pt St]. pose proof (huge_big f wide) as Hb. split.
  - destruct (Rle_or_lt L 1).
    + eapply Rle_trans; [exact H1|]. assert (L ^ 2 <= L) by nra. assert (0 <= L ^ 2) by apply pow2_ge_0. nra.
    + nra.
  - assert (Q : L ^ 2 <= (huge f / 64) ^ 2).
    { replace ((huge f / 64) ^ 2) with (huge f * (huge f / 4096)) by field. nra. }
    rewrite <- !Rsqr_pow2 in Q. apply Rsqr_incr_0_var in Q; lra.
Qed.

(** ** The argument of acos in [angle] *)
Lemma vec_dot_add : forall a b c d : Vector3 R,
  vec_dot (O := RO) (vec_add (O := RO) a b) (vec_add (O := RO) c d) =
  vec_dot (O := RO) a c + (vec_dot (O := RO) b c + vec_dot (O := RO) a d + vec_dot (O := RO) b d).
Proof. intros [x y z] [x' y' z'] [p q r] [p' q' r']. unfold vec_dot, vec_add. cbn [a1 a2 a3 oadd omul RO]. rring. Qed.
Lemma angle_arg : forall a b : Vector3 O, vfin a -> vfin b -> sized f (vlen (rv a)) -> sized f (vlen (rv b)) ->
  within (14 * u) (vec_dot (vec_normalize a) (vec_normalize b)) (vec_dot (O := RO) (vdir (rv a)) (vdir (rv b))).
Proof.
  intros a b Fa Fb Ha Hb. destruct (vec_normalize_err a Fa Ha) as (Na & da & Ea & Da). destruct (vec_normalize_err b Fb Hb) as (Nb & db & Eb & Db).
  pose proof u_small as [Pu Su]. pose proof t_small as [Pt St]. pose proof (huge_big f wide) as Hh.
  pose proof (sized_pos f wide _ Ha) as Pa. pose proof (sized_pos f wide _ Hb) as Pb.
  pose proof (vlen_add (vdir (rv a)) da) as La. rewrite <- Ea, vdir_len in La by exact Pa.
  pose proof (vlen_add (vdir (rv b)) db) as Lb. rewrite <- Eb, vdir_len in Lb by exact Pb.
  pose proof (vlen_pos (rv (vec_normalize a))) as Pna. pose proof (vlen_pos (rv (vec_normalize b))) as Pnb.
  set (A := vlen (rv (vec_normalize a))) in *. set (B := vlen (rv (vec_normalize b))) in *.
  assert (AB : A * B <= 1 + 11 * u).
  { apply Rle_trans with ((1 + 5 * u) * (1 + 5 * u)); [apply Rmult_le_compat; lra|nra]. }
  pose proof (Rmult_le_pos _ _ Pna Pnb) as PAB.
  destruct (vec_products f (vec_normalize a) (vec_normalize b) Na Nb ltac:(fold A B; apply (room_ok f wide); lra)) as [N _]; fold A B in N.
  assert (W : within (301 / 100 * u * (1 + 11 * u + 3 * t)) (vec_dot (vec_normalize a) (vec_normalize b)) (vec_dot (O := RO) (rv (vec_normalize a)) (rv (vec_normalize b)))).
  { apply (near_le f 3 (301 / 100 * u) (A * B + 3 * t)); [exact (p3 f wide)|lra|lra|exact N]. }
  apply (within_mono f) with (301 / 100 * u * (1 + 11 * u + 3 * t) + (10 * u + 25 * u ^ 2)); [nra|].
  eapply within_trans; [exact W|]. rewrite Ea, Eb, vec_dot_add.
  pose proof (vec_dot_le da (vdir (rv b))) as X1. pose proof (vec_dot_le (vdir (rv a)) db) as X2. pose proof (vec_dot_le da db) as X3.
  rewrite vdir_len in X1 by exact Pb. rewrite vdir_len in X2 by exact Pa.
  assert (X4 : vlen da * vlen db <= 25 * u ^ 2).
  { apply Rle_trans with ((5 * u) * (5 * u)); [apply Rmult_le_compat; try apply vlen_pos; lra|right; ring]. }
  apply Rabs_le_inv in X1. apply Rabs_le_inv in X2. apply Rabs_le_inv in X3. apply Rabs_le. lra.
Qed.

(** ** project *)
Lemma vproj_scale : forall s r : Vector3 R, vproj s r = vec_scale (O := RO) (vinv r) (vec_dot (O := RO) s r).
Proof.
  intros [x y z] [p q r]. unfold vproj, vec_scale, vinv, vec_dot. cbn [a1 a2 a3 oadd omul RO]. apply (f_equal3 (@V3 R)); unfold Rdiv; ring.
Qed.
Lemma vec_project_near : forall s r : Vector3 O, vfin s -> vfin r -> sized f (vlen (rv s)) -> sized f (vlen (rv r)) ->
  veach (within (10 * u * vlen (rv s))) (vec_project s r) (vproj (rv s) (rv r)).
Proof.
  intros s r Fs Fr Hs Hr. destruct (vec_inverse_err f wide r Fr Hr) as (Fi & d & Ed & Dd).
  destruct (sized_mul f wide _ _ Hs Hr) as [M1 M2]. destruct (sized_t1 _ Hs) as [T1 T2].
  pose proof (sized_pos f wide _ Hs) as PK. pose proof (sized_pos f wide _ Hr) as PL.
  pose proof (vinv_len _ PL) as LC. pose proof (vlen_part (vinv (rv r))) as (C1 & C2 & C3). rewrite LC in C1, C2, C3.
  pose proof (vlen_part d) as (D1 & D2 & D3). pose proof (vec_dot_le (rv s) (rv r)) as DD.
  assert (EC : vproj (rv s) (rv r) = vec_scale (O := RO) (vinv (rv r)) (vec_dot (O := RO) (rv s) (rv r))).
  { apply vproj_scale. }
  pose proof u_small as [Pu Su]. pose proof t_small as [Pt St]. pose proof (huge_big f wide) as Hh.
  set (K := vlen (rv s)) in *. set (L := vlen (rv r)) in *. pose proof (Rmult_lt_0_compat _ _ PK PL) as PKL.
  destruct (vec_products f s r Fs Fr ltac:(fold K L; apply (room_ok f wide); lra)) as [N _]; fold K L in N.
  set (D := vec_dot (O := RO) (rv s) (rv r)) in *. set (D' := vec_dot s r : fl f) in *.
  assert (W : within (302 / 100 * u * (K * L)) D' D).
  { apply (within_mono f) with (301 / 100 * u * (K * L + 3 * (u * (K * L)))); [nra|].
    apply (near_le f 3 (301 / 100 * u) (K * L + 3 * t)); [exact (p3 f wide)|lra|lra|exact N]. }
  destruct W as [FD ED]. clear N M1 M2.
  assert (AD : Rabs (B2R D') <= K * L * (1 + 302 / 100 * u)).
  { replace (B2R D') with (D + (B2R D' - D)) by ring. eapply Rle_trans; [apply Rabs_triang|]. lra. }
  assert (IL : / L * L = 1) by (field; lra).
  assert (PIL : 0 < / L) by now apply Rinv_0_lt_compat.
  assert (Dd' : 54 / 10 * u / L = 54 / 10 * u * / L) by reflexivity. rewrite Dd' in Dd. clear Dd'.
  assert (G : forall (y : fl f) c e, is_finite y = true -> B2R y = c + e -> Rabs c <= / L -> Rabs e <= vlen d ->
     within (10 * u * K) (Bmult mode_NE y D') (c * D)).
  { intros y c e Fy Ey Hc He.
    assert (Ay : Rabs (B2R y) <= / L * (1 + 54 / 10 * u)).
    { rewrite Ey. eapply Rle_trans; [apply Rabs_triang|]. lra. }
    assert (AyD : Rabs (B2R y * B2R D') <= K * (1 + 9 * u)).
    { rewrite Rabs_mult. apply Rle_trans with ((/ L * (1 + 54 / 10 * u)) * (K * L * (1 + 302 / 100 * u))).
      - apply Rmult_le_compat; try apply Rabs_pos; assumption.
      - replace ((/ L * (1 + 54 / 10 * u)) * (K * L * (1 + 302 / 100 * u))) with (K * ((1 + 54 / 10 * u) * (1 + 302 / 100 * u))) by (field; lra).
        apply Rmult_le_compat_l; [lra|nra]. }
    assert (AyD2 : Rabs (B2R y * B2R D') <= 2 * K) by (eapply Rle_trans; [exact AyD|]; nra).
    assert (AyD3 : Rabs (B2R y * B2R D') * (1 + u) <= 2 * K * 2) by (apply Rmult_le_compat; [apply Rabs_pos|lra|exact AyD2|lra]).
    assert (UT : u * t <= 1 * 1) by (apply Rmult_le_compat; lra).
    destruct (mul_ok f y D' Fy FD) as (F & g & h & Hg & Hh' & V); [lra|]. split; [exact F|]. rewrite V.
    replace (B2R y * B2R D' * (1 + g) + h - c * D) with (c * (B2R D' - D) + e * B2R D' + B2R y * B2R D' * g + h) by (rewrite Ey; ring).
    assert (Q1 : Rabs (c * (B2R D' - D)) <= 302 / 100 * u * K).
    { rewrite Rabs_mult. apply Rle_trans with (/ L * (302 / 100 * u * (K * L))); [apply Rmult_le_compat; try apply Rabs_pos; assumption|]. right. field. lra. }
    assert (Q2 : Rabs (e * B2R D') <= 542 / 100 * u * K).
    { rewrite Rabs_mult. apply Rle_trans with ((54 / 10 * u * / L) * (K * L * (1 + 302 / 100 * u))); [apply Rmult_le_compat; try apply Rabs_pos; lra|].
      replace ((54 / 10 * u * / L) * (K * L * (1 + 302 / 100 * u))) with (K * u * (54 / 10 * (1 + 302 / 100 * u))) by (field; lra).
      replace (542 / 100 * u * K) with (K * u * (542 / 100)) by ring. apply Rmult_le_compat_l; [apply Rmult_le_pos; lra|lra]. }
    assert (Q3 : Rabs (B2R y * B2R D' * g) <= 101 / 100 * u * K).
    { rewrite Rabs_mult. apply Rle_trans with (K * (1 + 9 * u) * u); [apply Rmult_le_compat; try apply Rabs_pos; assumption|].
      replace (K * (1 + 9 * u) * u) with (K * u * (1 + 9 * u)) by ring. replace (101 / 100 * u * K) with (K * u * (101 / 100)) by ring.
      apply Rmult_le_compat_l; [apply Rmult_le_pos; lra|lra]. }
    assert (Q4 : Rabs h <= / 1024 * u * K) by (eapply Rle_trans; [exact Hh'|]; nra).
    eapply Rle_trans; [apply Rabs_triang|]. eapply Rle_trans; [apply Rplus_le_compat_r; eapply Rle_trans; [apply Rabs_triang|]; apply Rplus_le_compat_r; apply Rabs_triang|].
    assert (0 < u * K) by now apply Rmult_lt_0_compat. lra. }
  rewrite EC. destruct Fi as (F1 & F2 & F3).
  split; [|split].
  - refine (G (a1 (vec_inverse r)) (a1 (vinv (rv r))) (a1 d) F1 _ C1 D1). exact (f_equal (@a1 R) Ed).
  - refine (G (a2 (vec_inverse r)) (a2 (vinv (rv r))) (a2 d) F2 _ C2 D2). exact (f_equal (@a2 R) Ed).
  - refine (G (a3 (vec_inverse r)) (a3 (vinv (rv r))) (a3 d) F3 _ C3 D3). exact (f_equal (@a3 R) Ed).
Qed.

(** ** reflect *)
Lemma vec_mul_add_l : forall a b c : Vector3 R, vec_mul (O := RO) (vec_add (O := RO) a b) c = rot_add (O := RO) (vec_mul (O := RO) a c) (vec_mul (O := RO) b c).
Proof.
  intros [x y z] [x' y' z'] [p q r]. unfold vec_mul, vec_dot, vec_wedge, vec_add, rot_add, biv_add. cbn [a1 a2 a3 b1 b2 b3 scalar bivector oadd omul osub RO].
  apply (f_equal2 (@Ro3 R)); [ring|]. apply (f_equal3 (@B3 R)); ring.
Qed.
Lemma rot_mul_vec_add_l : forall (a b : Rotor3 R) (c : Vector3 R),
  fst (rot_mul_vec (O := RO) (rot_add (O := RO) a b) c) = vec_add (O := RO) (fst (rot_mul_vec (O := RO) a c)) (fst (rot_mul_vec (O := RO) b c)).
Proof.
  intros [w [x y z]] [w' [x' y' z']] [p q r]. unfold rot_mul_vec, vec_add, rot_add, biv_add. cbn [fst a1 a2 a3 b1 b2 b3 scalar bivector oadd omul osub RO].
  apply (f_equal3 (@V3 R)); ring.
Qed.
Lemma reflect_exact : forall s r : Vector3 R, 0 < vlen r -> fst (rot_mul_vec (O := RO) (vec_mul (O := RO) (vinv r) s) r) = vrefl s r.
Proof.
  intros s r P. pose proof (vlen_sqr r) as S. unfold vrefl, vinv. set (L := vlen r) in *. destruct s as [x y z], r as [a b c].
  unfold rot_mul_vec, vec_mul, vec_dot, vec_wedge, vproj. cbn [fst a1 a2 a3 b1 b2 b3 scalar bivector oadd omul osub RO] in *.
  fold L. unfold vec_dot. cbn [fst a1 a2 a3 b1 b2 b3 scalar bivector oadd omul osub RO] in *.
  assert (N : L <> 0) by lra. assert (A : a ^ 2 = L ^ 2 - b ^ 2 - c ^ 2) by lra.
  apply (f_equal3 (@V3 R)).
  - transitivity ((a * x + b * y + c * z) * a / L ^ 2 + (a * y - b * x) / L ^ 2 * b + (a * z - c * x) / L ^ 2 * c); [field; exact N|].
    transitivity (2 * ((x * a + y * b + z * c) * a / L ^ 2) - x * (a ^ 2 + b ^ 2 + c ^ 2) / L ^ 2); [field; exact N|]. rewrite <- S. field. exact N.
  - transitivity (2 * ((x * a + y * b + z * c) * b / L ^ 2) - y * (a ^ 2 + b ^ 2 + c ^ 2) / L ^ 2); [field; exact N|]. rewrite <- S. field. exact N.
  - transitivity (2 * ((x * a + y * b + z * c) * c / L ^ 2) - z * (a ^ 2 + b ^ 2 + c ^ 2) / L ^ 2); [field; exact N|]. rewrite <- S. field. exact N.
Qed.
Lemma vec_reflect_near : forall s r : Vector3 O, vfin s -> vfin r -> sized f (vlen (rv s)) -> sized f (vlen (rv r)) ->
  veach (within (16 * u * vlen (rv s))) (vec_reflect s r) (vrefl (rv s) (rv r)).
Proof.
  intros s r Fs Fr Hs Hr. destruct (vec_inverse_err f wide r Fr Hr) as (Fi & d & Ed & Dd).
  destruct (sized_t1 _ Hs) as [T1 T2]. destruct (sized_quot f wide _ _ Hr Hs) as (Q1 & Q2 & _).
  pose proof (sized_pos f wide _ Hs) as PK. pose proof (sized_pos f wide _ Hr) as PL.
  pose proof (vinv_len _ PL) as LC. rewrite <- reflect_exact by exact PL.
  pose proof (vlen_add (vinv (rv r)) d) as LY. rewrite <- Ed, LC in LY. pose proof (vlen_pos (rv (vec_inverse r))) as PY.
  pose proof u_small as [Pu Su]. pose proof t_small as [Pt St]. pose proof (huge_big f wide) as Hh.
  set (K := vlen (rv s)) in *. set (L := vlen (rv r)) in *. set (Y := vlen (rv (vec_inverse r))) in *.
  assert (PIL : 0 < / L) by now apply Rinv_0_lt_compat. assert (PKL : 0 < K / L) by (apply Rmult_lt_0_compat; assumption).
  assert (YK : Y * K <= K / L * (1 + 54 / 10 * u)).
  { apply Rle_trans with ((/ L + 54 / 10 * u / L) * K); [apply Rmult_le_compat_r; lra|]. right. field. lra. }
  assert (PYK : 0 <= Y * K) by (apply Rmult_le_pos; lra).
  assert (TKL : t <= K / L / 32).
  { apply Rmult_le_reg_r with L; [exact PL|]. replace (K / L / 32 * L) with (K / 32) by (field; lra). exact Q1. }
  (* the rotor *)
  destruct (vec_products f (vec_inverse r) s Fi Fs ltac:(fold Y K; apply (room_ok f wide); nra)) as [Nd Nw]; fold Y K in Nd , Nw.
  set (p := vec_mul (vec_inverse r) s) in *.
  assert (YT : Y * K + 3 * t <= K / L * (11 / 10)) by nra.
  assert (W : exists e : Rotor3 R, rr p = rot_add (O := RO) (vec_mul (O := RO) (rv (vec_inverse r)) (rv s)) e /\ rfin p /\ rlen e <= 67 / 10 * u * (K / L)).
  { exists (Ro3 (B2R (scalar p) - vec_dot (O := RO) (rv (vec_inverse r)) (rv s))
       (B3 (B2R (b1 (bivector p)) - b1 (vec_wedge (O := RO) (rv (vec_inverse r)) (rv s))) (B2R (b2 (bivector p)) - b2 (vec_wedge (O := RO) (rv (vec_inverse r)) (rv s)))
           (B2R (b3 (bivector p)) - b3 (vec_wedge (O := RO) (rv (vec_inverse r)) (rv s))))).
    split; [exact (f_equal2 (@Ro3 R) (split_diff _ _) (f_equal3 (@B3 R) (split_diff _ _) (split_diff _ _) (split_diff _ _)))|].
    destruct Nw as (N1 & N2 & N3).
    assert (B3' : forall (x : fl f) c, near f 2 (Y * K + 2 * t) x c -> within (301 / 100 * u * (K / L * (11 / 10))) x c).
    { intros x c N. apply (near_le f 2 (301 / 100 * u) (Y * K + 2 * t)); [pose proof (p2 f wide); lra|lra|lra|exact N]. }
    assert (B0 : within (301 / 100 * u * (K / L * (11 / 10))) (scalar p) (vec_dot (O := RO) (rv (vec_inverse r)) (rv s))).
    { apply (near_le f 3 (301 / 100 * u) (Y * K + 3 * t)); [exact (p3 f wide)|lra|lra|exact Nd]. }
    apply B3' in N1. apply B3' in N2. apply B3' in N3. destruct B0 as [F0 E0], N1 as [F1 E1], N2 as [F2 E2], N3 as [F3 E3].
    split; [exact (conj F0 (conj F1 (conj F2 F3)))|].
    rewrite rlen_n4. cbn [scalar bivector b1 b2 b3].
    eapply Rle_trans; [apply (n4_err 0 0 0 0 _ _ _ _ 0 (301 / 100 * u * (K / L * (11 / 10)))); [lra|nra| | | |]; rewrite Rmult_0_l, Rplus_0_l; assumption|].
    rewrite Rmult_0_l, Rplus_0_l. nra. }
  destruct W as (e & Ep & Fp & Le).
  rewrite Ed, vec_mul_add_l in Ep.
  pose (E := rot_add (O := RO) (vec_mul (O := RO) d (rv s)) e).
  assert (Ep' : rr p = rot_add (O := RO) (vec_mul (O := RO) (vinv (rv r)) (rv s)) E).
  { rewrite Ep. unfold E. generalize (vec_mul (O := RO) (vinv (rv r)) (rv s)) (vec_mul (O := RO) d (rv s)). clear.
    intros [w [x y z]] [w' [x' y' z']]. destruct e as [w'' [x'' y'' z'']]. unfold rot_add, biv_add. cbn [scalar bivector b1 b2 b3 oadd RO].
    apply (f_equal2 (@Ro3 R)); [ring|]. apply (f_equal3 (@B3 R)); ring. }
  assert (LE : rlen E <= 122 / 10 * u * (K / L)).
  { eapply Rle_trans; [apply rlen_add|]. rewrite rlen_vec_mul. fold K.
    assert (vlen d * K <= 54 / 10 * u / L * K) by (apply Rmult_le_compat_r; lra).
    replace (54 / 10 * u / L * K) with (54 / 10 * u * (K / L)) in H by (field; lra). nra. }
  assert (Lp : rlen (rr p) <= K / L * (1 + 122 / 10 * u)).
  { rewrite Ep'. eapply Rle_trans; [apply rlen_add|]. rewrite rlen_vec_mul, LC. fold K.
    replace (/ L * K) with (K / L) by (field; lra). lra. }
  pose proof (rlen_pos (rr p)) as Pp.
  assert (LpL : rlen (rr p) * L <= K * (1 + 122 / 10 * u)).
  { apply Rle_trans with (K / L * (1 + 122 / 10 * u) * L); [apply Rmult_le_compat_r; lra|]. right. field. lra. }
  assert (PpL : 0 <= rlen (rr p) * L) by (apply Rmult_le_pos; lra).
  destruct (rot_vec_product f p r Fp Fr ltac:(fold L; apply (room_ok f wide); nra)) as [Nv _]; fold L in Nv.
  rewrite Ep', rot_mul_vec_add_l in Nv.
  assert (V3' : vlen (fst (rot_mul_vec (O := RO) E (rv r))) <= 122 / 10 * u * K).
  { eapply Rle_trans; [apply vlen_rot_mul_vec|]. fold L. apply Rle_trans with (122 / 10 * u * (K / L) * L); [apply Rmult_le_compat_r; lra|]. right. field. lra. }
  pose proof (vlen_part (fst (rot_mul_vec (O := RO) E (rv r)))) as (V1 & V2 & V3).
  assert (G : forall (x : fl f) c g, near f 3 (rlen (rr p) * L + 3 * t) x (c + g) -> Rabs g <= vlen (fst (rot_mul_vec (O := RO) E (rv r))) ->
    within (16 * u * K) x c).
  { intros x c g N Hg. apply (within_mono f) with (301 / 100 * u * (K * (1 + 122 / 10 * u) + 3 * t) + 122 / 10 * u * K).
    { assert (KU : K * u <= K * / 2048) by (apply Rmult_le_compat_l; lra).
      assert (X : 301 / 100 * (K * (1 + 122 / 10 * u) + 3 * t) <= 38 / 10 * K) by lra.
      apply Rmult_le_compat_l with (r := u) in X; lra. }
    eapply within_trans; [apply (near_le f 3 (301 / 100 * u) (rlen (rr p) * L + 3 * t)); [exact (p3 f wide)| | |exact N]; lra|].
    replace (c + g - c) with g by ring. lra. }
  destruct Nv as (N1 & N2 & N3). rewrite <- Ep' in N1, N2, N3.
  split; [|split].
  - exact (G _ _ _ N1 V1). - exact (G _ _ _ N2 V2). - exact (G _ _ _ N3 V3).
Qed.

(** ** rotors *)
Lemma rlen_inverse : forall q : Rotor3 R, rlen (rot_inverse (O := RO) q) = rlen q.
Proof. intros [w [x y z]]. unfold rlen, rot_inverse, biv_neg. cbn [scalar bivector b1 b2 b3 oneg RO]. f_equal. ring. Qed.
Lemma rot_unit_inverse : forall q : Rotor3 O, rfin q -> sized f (rlen (rr q)) -> let r := rot_normalize q in
  within (15 * u) (scalar (rot_mul r (rot_inverse r))) 1 /\ beach (within (5 * u)) (bivector (rot_mul r (rot_inverse r))) (B3 0 0 0).
Proof.
  intros q Fq Hq r. destruct (rot_normalize_near f wide q Fq Hq) as (_ & _ & L1). destruct (rot_normalize_err q Fq Hq) as (Fr & _). fold r in L1, Fr.
  assert (Fi : rfin (rot_inverse r)).
  { destruct Fr as (F0 & F1 & F2 & F3). unfold rfin, bfin. cbn [rot_inverse biv_neg scalar bivector b1 b2 b3 oneg BO]. rewrite !is_finite_Bopp. tauto. }
  assert (Ei : rr (rot_inverse r) = rot_inverse (O := RO) (rr r)).
  { unfold rot_inverse, rr, rb, biv_neg. cbn [scalar bivector b1 b2 b3 oneg BO RO]. now rewrite !B2R_Bopp. }
  assert (Li : rlen (rr (rot_inverse r)) = rlen (rr r)).
  { rewrite Ei. apply rlen_inverse. }
  pose proof u_small as [Pu Su]. pose proof t_small as [Pt St]. pose proof (huge_big f wide) as Hh. apply Rabs_le_inv in L1.
  pose proof (rlen_pos (rr r)) as Pr. set (L := rlen (rr r)) in *.
  assert (L2 : L * L <= 1 + 11 * u) by nra. assert (L2' : 1 - 11 * u <= L * L) by nra.
  destruct (rot_products f r (rot_inverse r) Fr Fi ltac:(rewrite Li; fold L; apply (room_ok f wide); nra)) as [_ N]; rewrite Li in N; fold L in N.
  assert (E : rot_mul (O := RO) (rr r) (rr (rot_inverse r)) = Ro3 (L ^ 2) (B3 0 0 0)).
  { rewrite Ei. unfold L. rewrite rlen_sqr. destruct (rr r) as [w [x y z]]. unfold rot_mul, rot_inverse, biv_neg. cbn [scalar bivector b1 b2 b3 oneg oadd osub omul RO].
    apply (f_equal2 (@Ro3 R)); [ring|]. apply (f_equal3 (@B3 R)); ring. }
  rewrite E in N. destruct N as (N0 & N1 & N2 & N3). cbn [scalar bivector b1 b2 b3] in N0, N1, N2, N3.
  assert (W : forall (x : fl f) c, near f 4 (L * L + 4 * t) x c -> within (45 / 10 * u) x c).
  { intros x c N. apply (within_mono f) with (401 / 100 * u * (1 + 11 * u + 4 * t)); [nra|].
    apply (near_le f 4 (401 / 100 * u) (L * L + 4 * t)); [exact (p4 f wide)|lra|nra|exact N]. }
  split.
  - apply (within_mono f) with (45 / 10 * u + (10 * u + 25 * u ^ 2)); [nra|]. eapply within_trans; [apply W; exact N0|]. apply Rabs_le. nra.
  - assert (M : forall (x : fl f) c, within (45 / 10 * u) x c -> within (5 * u) x c) by (intros x c; apply (within_mono f); lra).
    split; [|split]; apply M, W; assumption.
Qed.
Lemma rot_rotate_unit : forall (q : Rotor3 O) (v : Vector3 O), rfin q -> sized f (rlen (rr q)) -> vfin v -> sized f (vlen (rv v)) ->
  veach (within (25 * u * vlen (rv v))) (rot_rotate (rot_normalize q) v) (rot_rotate (O := RO) (rdir (rr q)) (rv v)).
Proof.
  intros q v Fq Hq Fv Hv. destruct (rot_normalize_err q Fq Hq) as (Fr & d & Ed & Dd). destruct (rot_normalize_near f wide q Fq Hq) as (_ & _ & L1).
  destruct (sized_t1 _ Hv) as [T1 T2]. pose proof (sized_pos f wide _ Hv) as PV. pose proof (sized_pos f wide _ Hq) as PQ.
  pose proof u_small as [Pu Su]. pose proof t_small as [Pt St]. pose proof (huge_big f wide) as Hh. apply Rabs_le_inv in L1.
  pose proof (rotate_diff (rdir (rr q)) d (rv v)) as Df. rewrite rdir_len in Df by exact PQ. pose proof (rlen_pos d) as Pd.
  set (r := rot_normalize q) in *. set (L := rlen (rr r)) in *. set (V := vlen (rv v)) in *.
  assert (LV : 0 <= L * V <= V * (1 + 5 * u)) by (split; [apply Rmult_le_pos; lra|nra]).
  assert (QL : L * V + 3 * t <= V * (1006 / 1000)) by nra.
  assert (QL2 : 2 * L * (L * V + 3 * t) + 4 * t <= V * (2022 / 1000)).
  { assert (L * (L * V + 3 * t) <= (1 + 5 * u) * (V * (1006 / 1000))) by (apply Rmult_le_compat; lra). nra. }
  assert (QP : 0 <= 2 * L * (L * V + 3 * t) + 4 * t).
  { assert (0 <= L * (L * V + 3 * t)) by (apply Rmult_le_pos; lra). lra. }
  assert (B4 : (1 + u) ^ 4 <= 2) by (pose proof (p4 f wide); lra). assert (B7 : (1 + u) ^ 7 <= 2) by (pose proof (p7 f wide); lra).
  pose proof (pow1 f 4). pose proof (pow1 f 7).
  assert (N := rot_rotate_near f r v Fr Fv). fold L V in N. cbv zeta in N.
  specialize (N ltac:(nra) ltac:(nra)).
  assert (DV : vlen (vec_sub (O := RO) (rot_rotate (O := RO) (rr r) (rv v)) (rot_rotate (O := RO) (rdir (rr q)) (rv v))) <= 1004 / 100 * u * V).
  { rewrite Ed. eapply Rle_trans; [exact Df|]. apply Rle_trans with (5 * u * V * (2 * 1 + 5 * u)).
    - apply Rmult_le_compat; [apply Rmult_le_pos; lra|lra|apply Rmult_le_compat_r; lra|lra].
    - nra. }
  pose proof (vlen_part (vec_sub (O := RO) (rot_rotate (O := RO) (rr r) (rv v)) (rot_rotate (O := RO) (rdir (rr q)) (rv v)))) as (D1 & D2 & D3).
  assert (G : forall (x : fl f) c c', near f 7 (2 * L * (L * V + 3 * t) + 4 * t) x c ->
    Rabs (c - c') <= vlen (vec_sub (O := RO) (rot_rotate (O := RO) (rr r) (rv v)) (rot_rotate (O := RO) (rdir (rr q)) (rv v))) -> within (25 * u * V) x c').
  { intros x c c' M Hc. apply (within_mono f) with (702 / 100 * u * (V * (2022 / 1000)) + 1004 / 100 * u * V).
    { pose proof (Rmult_lt_0_compat _ _ Pu PV). lra. }
    eapply within_trans; [apply (near_le f 7 (702 / 100 * u) (2 * L * (L * V + 3 * t) + 4 * t)); [exact (p7 f wide)|exact QL2|exact QP|exact M]|]. lra. }
  destruct N as (N1 & N2 & N3). split; [|split].
  - exact (G _ _ _ N1 D1). - exact (G _ _ _ N2 D2). - exact (G _ _ _ N3 D3).
Qed.
End Rot.
