(** * Facts about the f32 instance (Flocq binary32), used by the other proof files. *)
From Coq Require Import ZArith Reals Bool Lia Lra Psatz.
From Flocq Require Import Core.Core IEEE754.BinarySingleNaN.
From Verif Require Import Scalar.
Local Open Scope R_scope.

Notation rnd32 := (round radix2 (SpecFloat.fexp 24 128) (round_mode mode_NE)).
Notation fexp32 := (SpecFloat.fexp 24 128).

#[global] Instance fexp32_valid : Valid_exp fexp32 :=
  fexp_correct 24 128 prec32_gt_0.

#[global] Instance rnd32_valid : Valid_rnd (round_mode mode_NE) :=
  valid_rnd_round_mode mode_NE.

(** Order-preserving value of a non-NaN float: infinities are sent to +-2^128. *)
Definition ext (x : f32) : R :=
  match x with
  | B754_infinity s => if s then - bpow radix2 128 else bpow radix2 128
  | _ => B2R x
  end.

Lemma ext_finite : forall x : f32, is_finite x = true -> ext x = B2R x.
Proof. intros [s|s| |s m e H]; simpl; congruence. Qed.

Lemma finite_bound : forall x : f32, - bpow radix2 128 < B2R x < bpow radix2 128.
Proof. intros x. apply Rabs_lt_inv. apply (abs_B2R_lt_emax 24 128 x). Qed.

Lemma bpow128_pos : 0 < bpow radix2 128.
Proof. apply bpow_gt_0. Qed.

Ltac rbool :=
  repeat match goal with
  | |- context [Rlt_bool ?a ?b] => destruct (Rlt_bool_spec a b)
  | |- context [Rle_bool ?a ?b] => destruct (Rle_bool_spec a b)
  | |- context [Req_bool ?a ?b] => destruct (Req_bool_spec a b)
  end; try reflexivity; try (exfalso; lra).

Lemma Bltb_ext : forall x y : f32, is_nan x = false -> is_nan y = false ->
  Bltb x y = Rlt_bool (ext x) (ext y).
Proof.
  intros x y Hx Hy.
  destruct (is_finite x) eqn:Fx, (is_finite y) eqn:Fy.
  - rewrite !ext_finite by assumption. now apply Bltb_correct.
  - rewrite (ext_finite x Fx). pose proof (finite_bound x) as B.
    destruct y as [s|[|]| |s m e H]; try discriminate;
      destruct x as [sx|sx| |sx mx ex Hx']; try discriminate;
      try (destruct sx); unfold Bltb, ext; simpl SpecFloat.SFltb;
      cbn [B2SF SpecFloat.SFltb SpecFloat.SFcompare]; rbool.
  - rewrite (ext_finite y Fy). pose proof (finite_bound y) as B.
    destruct x as [s|[|]| |s m e H]; try discriminate;
      destruct y as [sx|sx| |sx mx ex Hx']; try discriminate;
      try (destruct sx); unfold Bltb, ext;
      cbn [B2SF SpecFloat.SFltb SpecFloat.SFcompare]; rbool.
  - pose proof bpow128_pos.
    destruct x as [s|[|]| |s m e H']; try discriminate;
      destruct y as [sx|[|]| |sx mx ex Hx']; try discriminate;
      unfold Bltb, ext; cbn [B2SF SpecFloat.SFltb SpecFloat.SFcompare]; rbool.
Qed.

Lemma Bleb_ext : forall x y : f32, is_nan x = false -> is_nan y = false ->
  Bleb x y = Rle_bool (ext x) (ext y).
Proof.
  intros x y Hx Hy.
  destruct (is_finite x) eqn:Fx, (is_finite y) eqn:Fy.
  - rewrite !ext_finite by assumption. now apply Bleb_correct.
  - rewrite (ext_finite x Fx). pose proof (finite_bound x) as B.
    destruct y as [s|[|]| |s m e H]; try discriminate;
      destruct x as [sx|sx| |sx mx ex Hx']; try discriminate;
      try (destruct sx); unfold Bleb, ext;
      cbn [B2SF SpecFloat.SFleb SpecFloat.SFcompare]; rbool.
  - rewrite (ext_finite y Fy). pose proof (finite_bound y) as B.
    destruct x as [s|[|]| |s m e H]; try discriminate;
      destruct y as [sx|sx| |sx mx ex Hx']; try discriminate;
      try (destruct sx); unfold Bleb, ext;
      cbn [B2SF SpecFloat.SFleb SpecFloat.SFcompare]; rbool.
  - pose proof bpow128_pos.
    destruct x as [s|[|]| |s m e H']; try discriminate;
      destruct y as [sx|[|]| |sx mx ex Hx']; try discriminate;
      unfold Bleb, ext; cbn [B2SF SpecFloat.SFleb SpecFloat.SFcompare]; rbool.
Qed.

Lemma Beqb_ext : forall x y : f32, is_nan x = false -> is_nan y = false ->
  Beqb x y = Req_bool (ext x) (ext y).
Proof.
  intros x y Hx Hy.
  destruct (is_finite x) eqn:Fx, (is_finite y) eqn:Fy.
  - rewrite !ext_finite by assumption. now apply Beqb_correct.
  - rewrite (ext_finite x Fx). pose proof (finite_bound x) as B.
    destruct y as [s|[|]| |s m e H]; try discriminate;
      destruct x as [sx|sx| |sx mx ex Hx']; try discriminate;
      try (destruct sx); unfold Beqb, ext;
      cbn [B2SF SpecFloat.SFeqb SpecFloat.SFcompare]; rbool.
  - rewrite (ext_finite y Fy). pose proof (finite_bound y) as B.
    destruct x as [s|[|]| |s m e H]; try discriminate;
      destruct y as [sx|sx| |sx mx ex Hx']; try discriminate;
      try (destruct sx); unfold Beqb, ext;
      cbn [B2SF SpecFloat.SFeqb SpecFloat.SFcompare]; rbool.
  - pose proof bpow128_pos.
    destruct x as [s|[|]| |s m e H']; try discriminate;
      destruct y as [sx|[|]| |sx mx ex Hx']; try discriminate;
      unfold Beqb, ext; cbn [B2SF SpecFloat.SFeqb SpecFloat.SFcompare]; rbool.
Qed.

Lemma cmp_nan : forall x y : f32, is_nan x = true \/ is_nan y = true ->
  Bltb x y = false /\ Bleb x y = false /\ Beqb x y = false.
Proof.
  intros x y [H|H]; [destruct x|destruct y]; try discriminate; [easy|].
  destruct x; easy.
Qed.

Lemma Bltb_true : forall x y : f32, Bltb x y = true ->
  is_nan x = false /\ is_nan y = false /\ ext x < ext y.
Proof.
  intros x y H.
  destruct (is_nan x) eqn:Nx; [rewrite (proj1 (cmp_nan x y (or_introl Nx))) in H; discriminate|].
  destruct (is_nan y) eqn:Ny; [rewrite (proj1 (cmp_nan x y (or_intror Ny))) in H; discriminate|].
  rewrite Bltb_ext in H by assumption. repeat split.
  now destruct (Rlt_bool_spec (ext x) (ext y)).
Qed.

Lemma Bleb_true : forall x y : f32, Bleb x y = true ->
  is_nan x = false /\ is_nan y = false /\ ext x <= ext y.
Proof.
  intros x y H.
  destruct (is_nan x) eqn:Nx;
    [rewrite (proj1 (proj2 (cmp_nan x y (or_introl Nx)))) in H; discriminate|].
  destruct (is_nan y) eqn:Ny;
    [rewrite (proj1 (proj2 (cmp_nan x y (or_intror Ny)))) in H; discriminate|].
  rewrite Bleb_ext in H by assumption. repeat split.
  now destruct (Rle_bool_spec (ext x) (ext y)).
Qed.

Lemma Beqb_true : forall x y : f32, Beqb x y = true ->
  is_nan x = false /\ is_nan y = false /\ ext x = ext y.
Proof.
  intros x y H.
  destruct (is_nan x) eqn:Nx;
    [rewrite (proj2 (proj2 (cmp_nan x y (or_introl Nx)))) in H; discriminate|].
  destruct (is_nan y) eqn:Ny;
    [rewrite (proj2 (proj2 (cmp_nan x y (or_intror Ny)))) in H; discriminate|].
  rewrite Beqb_ext in H by assumption. repeat split.
  now destruct (Req_bool_spec (ext x) (ext y)).
Qed.

Lemma Beqb_refl : forall x : f32, Beqb x x = negb (is_nan x).
Proof.
  intros x. destruct (is_nan x) eqn:N.
  - now rewrite (proj2 (proj2 (cmp_nan x x (or_introl N)))).
  - rewrite Beqb_ext by assumption. rbool.
Qed.

(** ** Commutativity and antisymmetry, bit for bit *)

Lemma Bmult_comm : forall x y : f32, Bmult mode_NE x y = Bmult mode_NE y x.
Proof.
  intros [sx|sx| |sx mx ex Hx] [sy|sy| |sy my ey Hy]; try reflexivity;
    try (simpl; now rewrite xorb_comm).
  apply B2SF_inj. unfold Bmult. rewrite !B2SF_SF2B.
  now rewrite xorb_comm, Pos.mul_comm, Z.add_comm.
Qed.

Lemma Bplus_comm : forall x y : f32, Bplus mode_NE x y = Bplus mode_NE y x.
Proof.
  intros [sx|sx| |sx mx ex Hx] [sy|sy| |sy my ey Hy]; try reflexivity;
    try (destruct sx, sy; reflexivity).
  unfold Bplus. rewrite (Z.min_comm ey ex). f_equal.
  unfold Fplus_naive. apply Z.add_comm.
Qed.

Lemma F2R_NE_opp : forall x, rnd32 (- x) = - rnd32 x.
Proof. intros. apply round_NE_opp. Qed.

Lemma Babs_eq_finite : forall x y : f32, is_finite x = true -> is_finite y = true ->
  Rabs (B2R x) = Rabs (B2R y) -> Babs x = Babs y.
Proof.
  intros x y Fx Fy H. apply B2R_Bsign_inj.
  - now rewrite is_finite_Babs.
  - now rewrite is_finite_Babs.
  - now rewrite !B2R_Babs.
  - now rewrite !Bsign_Babs.
Qed.

Lemma Babs_inf : forall (z : f32) s, B2SF z = binary_overflow 24 128 mode_NE s ->
  z = B754_infinity s.
Proof.
  intros z s H. apply B2SF_inj. rewrite H. reflexivity.
Qed.

Lemma Babs_minus_sym : forall x y : f32,
  Babs (Bminus mode_NE x y) = Babs (Bminus mode_NE y x).
Proof.
  intros x y.
  destruct (is_finite x) eqn:Fx, (is_finite y) eqn:Fy.
  - pose proof (Bminus_correct 24 128 _ _ mode_NE x y Fx Fy) as H1.
    pose proof (Bminus_correct 24 128 _ _ mode_NE y x Fy Fx) as H2.
    replace (B2R y - B2R x) with (- (B2R x - B2R y)) in H2 by ring.
    rewrite F2R_NE_opp, Rabs_Ropp in H2.
    destruct (Rlt_bool _ _) in H1, H2.
    + destruct H1 as (H1 & F1 & _), H2 as (H2 & F2 & _).
      apply Babs_eq_finite; try assumption.
      rewrite H1, H2. now rewrite Rabs_Ropp.
    + destruct H1 as (H1 & _), H2 as (H2 & _).
      apply Babs_inf in H1. apply Babs_inf in H2. now rewrite H1, H2.
  - destruct x as [sx|sx| |sx mx ex Hx], y as [sy|sy| |sy my ey Hy]; try discriminate; reflexivity.
  - destruct x as [sx|sx| |sx mx ex Hx], y as [sy|sy| |sy my ey Hy]; try discriminate; reflexivity.
  - destruct x as [sx|[|]| |sx mx ex Hx], y as [sy|[|]| |sy my ey Hy]; try discriminate; reflexivity.
Qed.

Lemma Bsqr_abs : forall x : f32, Bmult mode_NE (Babs x) (Babs x) = Bmult mode_NE x x.
Proof.
  intros [sx|[|]| |sx mx ex Hx]; try reflexivity.
  - simpl. now rewrite xorb_nilpotent.
  - apply B2SF_inj. unfold Babs, Bmult. rewrite !B2SF_SF2B. now rewrite !xorb_nilpotent.
Qed.

Lemma Bsqr_minus_sym : forall x y : f32,
  Bmult mode_NE (Bminus mode_NE x y) (Bminus mode_NE x y) =
  Bmult mode_NE (Bminus mode_NE y x) (Bminus mode_NE y x).
Proof.
  intros. rewrite <- (Bsqr_abs (Bminus mode_NE x y)), <- (Bsqr_abs (Bminus mode_NE y x)).
  now rewrite Babs_minus_sym.
Qed.

Lemma Bminus_diag : forall x : f32,
  Bminus mode_NE x x = B754_zero false \/ Bminus mode_NE x x = B754_nan.
Proof.
  intros x. destruct (is_finite x) eqn:Fx.
  - left. pose proof (Bminus_correct 24 128 _ _ mode_NE x x Fx Fx) as H.
    replace (B2R x - B2R x) with 0 in H by ring.
    rewrite (round_0 radix2 fexp32 (round_mode mode_NE)), Rabs_R0 in H.
    rewrite Rlt_bool_true in H by apply bpow_gt_0.
    destruct H as (H1 & H2 & H3).
    apply B2R_Bsign_inj; try easy.
    rewrite H3, Rcompare_Eq by reflexivity. simpl. now rewrite andb_negb_r.
  - right. destruct x as [s|[|]| |s m e H]; easy.
Qed.
