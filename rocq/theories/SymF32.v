(** * The f32 graph and polygon code under the eight symmetries of the square. *)
From Coq Require Import ZArith Reals List Bool Lra Lia.
From Flocq Require Import Core.Core IEEE754.BinarySingleNaN.
From Flocq Require Import Plus_error.
From Verif Require Import Scalar Utils Polygon Graph GraphSpec PlaneSpec SimSpec F32 GAF32 IsoSpec MoveSim.
Import ListNotations.
Local Open Scope R_scope.

Local Notation "x ⊕ y" := (Bplus mode_NE x y) (at level 50, left associativity).
Local Notation "x ⊖ y" := (Bminus mode_NE x y) (at level 50, left associativity).
Local Notation "x ⊗ y" := (Bmult mode_NE x y) (at level 40, left associativity).
Local Notation "x ⊘ y" := (Bdiv mode_NE x y) (at level 40, left associativity).

(** Equal up to the sign of zero, with the sign changed if [b]. *)
Definition eqs (b : bool) (x y : f32) : Prop := signed false x = signed b y.

Lemma signed_signed : forall b c x, signed b (signed c x) = signed (xorb b c) x.
Proof. intros [|] [|] [s|s| |s m e H]; cbn [signed xorb Bopp]; try reflexivity; now rewrite negb_involutive. Qed.
Lemma eqs_signed : forall b x, eqs b (signed b x) x.
Proof. intros b x. unfold eqs. rewrite signed_signed. now destruct b. Qed.
Lemma eqs_refl : forall x, eqs false x x.
Proof. reflexivity. Qed.
Lemma eqs_sym : forall b x y, eqs b x y -> eqs b y x.
Proof.
  intros b x y H. unfold eqs in *. assert (E : signed b (signed false x) = signed b (signed b y)) by now rewrite H.
  rewrite !signed_signed in E. destruct b; cbn [xorb] in E; now symmetry.
Qed.
Lemma eqs_trans : forall b c x y z, eqs b x y -> eqs c y z -> eqs (xorb b c) x z.
Proof.
  intros b c x y z H1 H2. unfold eqs in *. rewrite H1. assert (E : signed b (signed false y) = signed b (signed c z)) by now rewrite H2.
  rewrite !signed_signed in E. rewrite xorb_false_r in E. exact E.
Qed.
Lemma eqs_trans0 : forall b x y z, eqs false x y -> eqs b y z -> eqs b x z.
Proof. intros b x y z H1 H2. pose proof (eqs_trans false b x y z H1 H2) as E. now rewrite xorb_false_l in E. Qed.
Lemma opp_signed : forall b x, signed b (Bopp x) = signed (negb b) x.
Proof. intros [|] [s|s| |s m e H]; cbn [signed negb Bopp]; try reflexivity; now rewrite negb_involutive. Qed.
Lemma eqs_opp : forall b x y, eqs b x y -> eqs b (Bopp x) (Bopp y).
Proof.
  intros b x y H. unfold eqs in *. rewrite !opp_signed. cbn [negb].
  assert (E : signed true (signed false x) = signed true (signed b y)) by now rewrite H.
  rewrite !signed_signed in E. cbn [xorb] in E. rewrite E. now destruct b.
Qed.
Lemma eqs_neg : forall x, eqs true (Bopp x) x.
Proof. intros x. unfold eqs. now rewrite opp_signed. Qed.
Lemma eqs_neg' : forall x, eqs true x (Bopp x).
Proof. intros x. unfold eqs. now rewrite opp_signed. Qed.

(** Two finite values of the same real value. *)
Lemma signed_ext : forall x y : f32, is_finite x = true -> is_finite y = true -> B2R x = B2R y ->
  signed false x = signed false y.
Proof.
  intros x y Fx Fy E. destruct (is_finite_strict x) eqn:Sx.
  - assert (Sy : is_finite_strict y = true).
    { destruct y as [s|s| |s m e H]; try discriminate; [|reflexivity]. exfalso. cbn [B2R] in E.
      destruct x as [s'|s'| |s' m e H]; try discriminate. cbn [B2R] in E.
      apply eq_0_F2R in E. destruct s'; discriminate. }
    f_equal. now apply B2R_inj.
  - destruct x as [s|s| |s m e H]; try discriminate. cbn [B2R] in E.
    destruct y as [s'|s'| |s' m e H]; try discriminate; [reflexivity|]. exfalso. cbn [B2R] in E.
    symmetry in E. apply eq_0_F2R in E. destruct s'; discriminate.
Qed.
Lemma eqs_ext : forall (b : bool) (x y : f32), is_finite x = true -> is_finite y = true -> B2R x = (if b then - B2R y else B2R y) -> eqs b x y.
Proof.
  intros b x y Fx Fy E. unfold eqs. destruct b.
  - rewrite <- (negb_involutive true), <- opp_signed. apply signed_ext; [exact Fx|now rewrite is_finite_Bopp|now rewrite B2R_Bopp].
  - now apply signed_ext.
Qed.
Lemma eqs_inf : forall b s s', eqs b (B754_infinity s) (B754_infinity s') <-> s = xorb b s'.
Proof.
  intros [|] [|] [|]; unfold eqs; cbn [signed Bopp xorb negb]; split; congruence.
Qed.

(** ** Sums *)
Lemma minus_plus : forall x y : f32, x ⊖ y = x ⊕ Bopp y.
Proof. intros [s|s| |s m e H] [s'|s'| |s' m' e' H']; reflexivity. Qed.

Lemma plus_zero_l : forall x y : f32, eqs false (x ⊕ y) (signed false x ⊕ y).
Proof.
  intros [s|s| |s m e H] y; try (cbn [signed]; apply eqs_refl).
  destruct y as [s'|s'| |s' m' e' H']; try reflexivity. destruct s, s'; reflexivity.
Qed.
Lemma plus_zero : forall x y : f32, eqs false (x ⊕ y) (signed false x ⊕ signed false y).
Proof.
  intros x y. apply (eqs_trans0 false _ _ _ (plus_zero_l x y)).
  rewrite (Bplus_comm _ y), (Bplus_comm _ (signed false y)). apply plus_zero_l.
Qed.
Lemma plus_opp : forall x y : f32, eqs true (Bopp x ⊕ Bopp y) (x ⊕ y).
Proof.
  intros x y. destruct (is_finite x) eqn:Fx, (is_finite y) eqn:Fy.
  - pose proof (Bplus_correct 24 128 _ _ mode_NE x y Fx Fy) as H1.
    assert (Fx' : is_finite (Bopp x) = true) by now rewrite is_finite_Bopp.
    assert (Fy' : is_finite (Bopp y) = true) by now rewrite is_finite_Bopp.
    pose proof (Bplus_correct 24 128 _ _ mode_NE (Bopp x) (Bopp y) Fx' Fy') as H2.
    rewrite !B2R_Bopp in H2. replace (- B2R x + - B2R y) with (- (B2R x + B2R y)) in H2 by ring.
    rewrite F2R_NE_opp, Rabs_Ropp in H2.
    destruct (Rlt_bool _ _) in H1, H2.
    + destruct H1 as (H1 & F1 & _), H2 as (H2 & F2 & _). apply eqs_ext; [exact F2|exact F1|].
      rewrite H1, H2. reflexivity.
    + destruct H1 as (H1 & _), H2 as (H2 & _). apply Babs_inf in H1, H2. rewrite H1, H2. apply eqs_inf.
      rewrite Bsign_Bopp; [now destruct (Bsign x)|]. destruct x; easy.
  - destruct x as [sx|sx| |sx mx ex Hx], y as [sy|sy| |sy my ey Hy]; try discriminate; reflexivity.
  - destruct x as [sx|sx| |sx mx ex Hx], y as [sy|sy| |sy my ey Hy]; try discriminate; reflexivity.
  - destruct x as [sx|[|]| |sx mx ex Hx], y as [sy|[|]| |sy my ey Hy]; try discriminate; reflexivity.
Qed.
Lemma eqs_add : forall b x x' y y', eqs b x x' -> eqs b y y' -> eqs b (x ⊕ y) (x' ⊕ y').
Proof.
  intros b x x' y y' H1 H2. apply (eqs_trans0 b _ _ _ (plus_zero x y)). unfold eqs in H1, H2. rewrite H1, H2.
  destruct b; [|apply eqs_sym; apply plus_zero].
  assert (E : forall z, signed true z = signed false (Bopp z)) by (intros z; now rewrite opp_signed).
  rewrite !E. apply (eqs_trans0 true _ (Bopp x' ⊕ Bopp y')); [apply eqs_sym, plus_zero|apply plus_opp].
Qed.
Lemma eqs_sub : forall b x x' y y', eqs b x x' -> eqs b y y' -> eqs b (x ⊖ y) (x' ⊖ y').
Proof. intros b x x' y y' H1 H2. rewrite !minus_plus. apply eqs_add; [exact H1|now apply eqs_opp]. Qed.

(** ** Products and quotients *)
Lemma mult_zero_l : forall x y : f32, eqs false (x ⊗ y) (signed false x ⊗ y).
Proof. intros [s|s| |s m e H] y; try (cbn [signed]; apply eqs_refl). destruct y as [s'|s'| |s' m' e' H']; reflexivity. Qed.
Lemma mult_zero : forall x y : f32, eqs false (x ⊗ y) (signed false x ⊗ signed false y).
Proof.
  intros x y. apply (eqs_trans0 false _ _ _ (mult_zero_l x y)).
  rewrite (Bmult_comm _ y), (Bmult_comm _ (signed false y)). apply mult_zero_l.
Qed.
Lemma mult_opp : forall x y : f32, eqs true (Bopp x ⊗ y) (x ⊗ y).
Proof.
  intros x y. destruct (is_finite x) eqn:Fx, (is_finite y) eqn:Fy.
  - pose proof (Bmult_correct 24 128 _ _ mode_NE x y) as H1. pose proof (Bmult_correct 24 128 _ _ mode_NE (Bopp x) y) as H2.
    rewrite B2R_Bopp in H2. replace (- B2R x * B2R y) with (- (B2R x * B2R y)) in H2 by ring.
    rewrite F2R_NE_opp, Rabs_Ropp in H2. rewrite is_finite_Bopp, Fx, Fy in H2. rewrite Fx, Fy in H1.
    destruct (Rlt_bool _ _) in H1, H2.
    + destruct H1 as (H1 & F1 & _), H2 as (H2 & F2 & _). apply eqs_ext; [exact F2|exact F1|]. rewrite H1, H2. reflexivity.
    + apply Babs_inf in H1, H2. rewrite H1, H2. apply eqs_inf.
      rewrite Bsign_Bopp; [now destruct (Bsign x), (Bsign y)|]. destruct x; easy.
  - destruct x as [sx|sx| |sx mx ex Hx], y as [sy|sy| |sy my ey Hy]; try discriminate; try reflexivity; destruct sx, sy; reflexivity.
  - destruct x as [sx|sx| |sx mx ex Hx], y as [sy|sy| |sy my ey Hy]; try discriminate; try reflexivity; destruct sx, sy; reflexivity.
  - destruct x as [sx|sx| |sx mx ex Hx], y as [sy|sy| |sy my ey Hy]; try discriminate; try reflexivity; destruct sx, sy; reflexivity.
Qed.
Lemma eqs_mul_l : forall b x x' y, eqs b x x' -> eqs b (x ⊗ y) (x' ⊗ y).
Proof.
  intros b x x' y H. apply (eqs_trans0 b _ _ _ (mult_zero_l x y)). unfold eqs in H. rewrite H.
  destruct b; [|apply eqs_sym; apply mult_zero_l].
  replace (signed true x') with (signed false (Bopp x')) by now rewrite opp_signed.
  apply (eqs_trans0 true _ (Bopp x' ⊗ y)); [apply eqs_sym, mult_zero_l|apply mult_opp].
Qed.
Lemma eqs_mul : forall b c x x' y y', eqs b x x' -> eqs c y y' -> eqs (xorb b c) (x ⊗ y) (x' ⊗ y').
Proof.
  intros b c x x' y y' H1 H2. apply (eqs_trans b c _ (x' ⊗ y)); [now apply eqs_mul_l|].
  rewrite (Bmult_comm x' y), (Bmult_comm x' y'). now apply eqs_mul_l.
Qed.

Definition zero (x : f32) : bool := match x with B754_zero _ => true | _ => false end.
Lemma zero_real : forall x : f32, is_finite x = true -> zero x = false -> B2R x <> 0.
Proof. intros [s|s| |s m e H] F Z E; try discriminate. cbn [B2R] in E. apply eq_0_F2R in E. destruct s; discriminate. Qed.

Lemma div_opp_l : forall x y : f32, eqs true (Bopp x ⊘ y) (x ⊘ y).
Proof.
  intros x y. destruct (is_finite x) eqn:Fx, (is_finite y) eqn:Fy.
  - destruct (zero y) eqn:Zy.
    { destruct y as [sy|sy| |sy my ey Hy]; try discriminate.
      destruct x as [sx|sx| |sx mx ex Hx]; try discriminate; try reflexivity; destruct sx, sy; reflexivity. }
    pose proof (zero_real y Fy Zy) as N.
    pose proof (Bdiv_correct 24 128 _ _ mode_NE x y N) as H1. pose proof (Bdiv_correct 24 128 _ _ mode_NE (Bopp x) y N) as H2.
    rewrite B2R_Bopp in H2. replace (- B2R x / B2R y) with (- (B2R x / B2R y)) in H2 by (field; exact N).
    rewrite F2R_NE_opp, Rabs_Ropp in H2. rewrite is_finite_Bopp, Fx in H2. rewrite Fx in H1.
    destruct (Rlt_bool _ _) in H1, H2.
    + destruct H1 as (H1 & F1 & _), H2 as (H2 & F2 & _). apply eqs_ext; [exact F2|exact F1|]. rewrite H1, H2. reflexivity.
    + apply Babs_inf in H1, H2. rewrite H1, H2. apply eqs_inf.
      rewrite Bsign_Bopp; [now destruct (Bsign x), (Bsign y)|]. destruct x; easy.
  - destruct x as [sx|sx| |sx mx ex Hx], y as [sy|sy| |sy my ey Hy]; try discriminate; try reflexivity; destruct sx, sy; reflexivity.
  - destruct x as [sx|sx| |sx mx ex Hx], y as [sy|sy| |sy my ey Hy]; try discriminate; try reflexivity; destruct sx, sy; reflexivity.
  - destruct x as [sx|sx| |sx mx ex Hx], y as [sy|sy| |sy my ey Hy]; try discriminate; try reflexivity; destruct sx, sy; reflexivity.
Qed.
Lemma div_opp_r : forall x y : f32, eqs true (x ⊘ Bopp y) (x ⊘ y).
Proof.
  intros x y. destruct (is_finite x) eqn:Fx, (is_finite y) eqn:Fy.
  - destruct (zero y) eqn:Zy.
    { destruct y as [sy|sy| |sy my ey Hy]; try discriminate.
      destruct x as [sx|sx| |sx mx ex Hx]; try discriminate; try reflexivity; destruct sx, sy; reflexivity. }
    pose proof (zero_real y Fy Zy) as N. assert (N' : B2R (Bopp y) <> 0) by (rewrite B2R_Bopp; lra).
    pose proof (Bdiv_correct 24 128 _ _ mode_NE x y N) as H1. pose proof (Bdiv_correct 24 128 _ _ mode_NE x (Bopp y) N') as H2.
    rewrite B2R_Bopp in H2. replace (B2R x / - B2R y) with (- (B2R x / B2R y)) in H2 by (field; exact N).
    rewrite F2R_NE_opp, Rabs_Ropp in H2. rewrite Fx in H1, H2.
    destruct (Rlt_bool _ _) in H1, H2.
    + destruct H1 as (H1 & F1 & _), H2 as (H2 & F2 & _). apply eqs_ext; [exact F2|exact F1|]. rewrite H1, H2. reflexivity.
    + apply Babs_inf in H1, H2. rewrite H1, H2. apply eqs_inf.
      rewrite Bsign_Bopp; [now destruct (Bsign x), (Bsign y)|]. destruct y; easy.
  - destruct x as [sx|sx| |sx mx ex Hx], y as [sy|sy| |sy my ey Hy]; try discriminate; try reflexivity; destruct sx, sy; reflexivity.
  - destruct x as [sx|sx| |sx mx ex Hx], y as [sy|sy| |sy my ey Hy]; try discriminate; try reflexivity; destruct sx, sy; reflexivity.
  - destruct x as [sx|sx| |sx mx ex Hx], y as [sy|sy| |sy my ey Hy]; try discriminate; try reflexivity; destruct sx, sy; reflexivity.
Qed.
Lemma div_zero_l : forall x y : f32, eqs false (x ⊘ y) (signed false x ⊘ y).
Proof. intros [s|s| |s m e H] y; try (cbn [signed]; apply eqs_refl). destruct y as [s'|s'| |s' m' e' H']; reflexivity. Qed.
Lemma eqs_div_l : forall b x x' y, eqs b x x' -> eqs b (x ⊘ y) (x' ⊘ y).
Proof.
  intros b x x' y H. apply (eqs_trans0 b _ _ _ (div_zero_l x y)). unfold eqs in H. rewrite H.
  destruct b; [|apply eqs_sym; apply div_zero_l].
  replace (signed true x') with (signed false (Bopp x')) by now rewrite opp_signed.
  apply (eqs_trans0 true _ (Bopp x' ⊘ y)); [apply eqs_sym, div_zero_l|apply div_opp_l].
Qed.
Lemma eqs_nonzero : forall b x y, eqs b x y -> zero y = false -> x = if b then Bopp y else y.
Proof.
  intros b x y H Z. unfold eqs in H. destruct y as [s|s| |s m e Hy]; try discriminate; destruct x as [s'|s'| |s' m' e' Hx], b;
    cbn [signed Bopp] in *; try discriminate; congruence.
Qed.
Lemma eqs_div : forall b c x x' y y', eqs b x x' -> eqs c y y' -> zero y' = false -> eqs (xorb b c) (x ⊘ y) (x' ⊘ y').
Proof.
  intros b c x x' y y' H1 H2 Z. rewrite (eqs_nonzero c y y' H2 Z). apply (eqs_trans b c _ (x' ⊘ (if c then Bopp y' else y'))); [now apply eqs_div_l|].
  destruct c; [apply div_opp_r|apply eqs_refl].
Qed.
Lemma eqs_zero : forall b x y, eqs b x y -> zero x = zero y.
Proof. intros [|] [s|s| |s m e H] [s'|s'| |s' m' e' H'] E; unfold eqs in E; cbn [signed Bopp] in E; try discriminate; reflexivity. Qed.

(** ** Comparisons *)
Lemma le_signed_l : forall x y : f32, Bleb x y = Bleb (signed false x) y.
Proof. intros [s|s| |s m e H] y; try reflexivity; destruct s; reflexivity. Qed.
Lemma le_signed_r : forall x y : f32, Bleb x y = Bleb x (signed false y).
Proof. intros x [s|s| |s m e H]; try reflexivity; destruct s; reflexivity. Qed.
Lemma eqs_le : forall x x' y y', eqs false x x' -> eqs false y y' -> Bleb x y = Bleb x' y'.
Proof.
  intros x x' y y' H1 H2. rewrite le_signed_l, le_signed_r, (le_signed_l x'), (le_signed_r _ y'). unfold eqs in *. now rewrite H1, H2.
Qed.
Lemma lt_signed_l : forall x y : f32, Bltb x y = Bltb (signed false x) y.
Proof. intros [s|s| |s m e H] y; try reflexivity; destruct s; reflexivity. Qed.
Lemma lt_signed_r : forall x y : f32, Bltb x y = Bltb x (signed false y).
Proof. intros x [s|s| |s m e H]; try reflexivity; destruct s; reflexivity. Qed.
Lemma eqs_lt : forall x x' y y', eqs false x x' -> eqs false y y' -> Bltb x y = Bltb x' y'.
Proof.
  intros x x' y y' H1 H2. rewrite lt_signed_l, lt_signed_r, (lt_signed_l x'), (lt_signed_r _ y'). unfold eqs in *. now rewrite H1, H2.
Qed.
Lemma eq_signed_l : forall x y : f32, Beqb x y = Beqb (signed false x) y.
Proof. intros [s|s| |s m e H] y; try reflexivity; destruct s; reflexivity. Qed.
Lemma eq_signed_r : forall x y : f32, Beqb x y = Beqb x (signed false y).
Proof. intros x [s|s| |s m e H]; try reflexivity; destruct s; reflexivity. Qed.
Lemma eqs_eq : forall x x' y y', eqs false x x' -> eqs false y y' -> Beqb x y = Beqb x' y'.
Proof.
  intros x x' y y' H1 H2. rewrite eq_signed_l, eq_signed_r, (eq_signed_l x'), (eq_signed_r _ y'). unfold eqs in *. now rewrite H1, H2.
Qed.

(** ** A sum is -0 only if both summands are, a square never is *)
Lemma plus_not_neg0 : forall x y : f32, signed false x = x -> signed false (x ⊕ y) = x ⊕ y.
Proof.
  intros x y N. destruct (zero (x ⊕ y)) eqn:Z.
  2:{ destruct (x ⊕ y) as [s|s| |s m e H]; try discriminate; reflexivity. }
  assert (S : Bsign (x ⊕ y) = false).
  2:{ destruct (x ⊕ y) as [s|s| |s m e H]; try discriminate. cbn [Bsign] in S. now rewrite S. }
  destruct (is_finite x) eqn:Fx, (is_finite y) eqn:Fy;
    try (destruct x as [sx|[|]| |sx mx ex Hx], y as [sy|[|]| |sy my ey Hy]; discriminate).
  pose proof (Bplus_correct 24 128 _ _ mode_NE x y Fx Fy) as H.
  destruct (Rlt_bool _ _) in H.
  2:{ destruct H as (H & _). apply Babs_inf in H. rewrite H in Z. discriminate. }
  destruct H as (H1 & _ & H2). rewrite H2.
  assert (E : B2R x + B2R y = 0).
  { destruct (Req_dec (B2R x + B2R y) 0) as [E|E]; [exact E|]. exfalso.
    apply (round_plus_neq_0 radix2 (SpecFloat.fexp 24 128) (round_mode mode_NE) (B2R x) (B2R y)).
    - apply generic_format_B2R. - apply generic_format_B2R. - exact E.
    - rewrite <- H1. destruct (x ⊕ y) as [s|s| |s m e H]; try discriminate. reflexivity. }
  rewrite E, Rcompare_Eq by reflexivity.
  destruct x as [sx|sx| |sx mx ex Hx]; try discriminate.
  - cbn [signed] in N. injection N as <-. reflexivity.
  - destruct y as [sy|sy| |sy my ey Hy]; try discriminate.
    cbn [Bsign]. destruct sx, sy; try reflexivity. exfalso. cbn [B2R] in E.
      assert (forall m e, F2R (Float radix2 (cond_Zopp true (Zpos m)) e) < 0) by (intros m e; apply F2R_lt_0; reflexivity).
      pose proof (H mx ex). pose proof (H my ey). lra.
Qed.
Lemma sq_not_neg0 : forall x : f32, signed false (x ⊗ x) = x ⊗ x.
Proof.
  intros x. destruct (zero (x ⊗ x)) eqn:Z.
  2:{ destruct (x ⊗ x) as [s|s| |s m e H]; try discriminate; reflexivity. }
  assert (S : Bsign (x ⊗ x) = false).
  2:{ destruct (x ⊗ x) as [s|s| |s m e H]; try discriminate. cbn [Bsign] in S. now rewrite S. }
  pose proof (Bmult_correct 24 128 _ _ mode_NE x x) as H. destruct (Rlt_bool _ _) in H.
  - destruct H as (_ & _ & H). rewrite H; [apply xorb_nilpotent|]. destruct (x ⊗ x); easy.
  - apply Babs_inf in H. rewrite H in Z. discriminate.
Qed.
Lemma eqs_sq : forall b x y, eqs b x y -> x ⊗ x = y ⊗ y.
Proof.
  intros b x y H. rewrite <- (sq_not_neg0 x), <- (sq_not_neg0 y). pose proof (eqs_mul b b x y x y H H) as E.
  rewrite xorb_nilpotent in E. exact E.
Qed.
