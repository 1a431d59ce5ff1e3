(** * Proofs about geometry/utils.rs in f32. *)
From Coq Require Import ZArith Reals List Bool Lia Lra.
From Flocq Require Import Core.Core IEEE754.BinarySingleNaN.
From Verif Require Import Scalar Utils F32 Laws.
Import ListNotations.

Lemma f32_zero : f32_Z 0 = B754_zero false.
Proof. reflexivity. Qed.

Lemma is_zero_eq : forall d : f32, Beqb d (f32_Z 0) = true -> exists s, d = B754_zero s.
Proof.
  rewrite f32_zero. intros [s|s| |s m e H] K; try discriminate; try (now exists s).
  destruct s; discriminate. destruct s; discriminate.
Qed.

(** A quotient by zero is not in [0,1]. *)
Lemma div_zero_range : forall n d : f32, Beqb d (f32_Z 0) = true ->
  Bleb (f32_Z 0) (Bdiv mode_NE n d) && Bleb (Bdiv mode_NE n d) (f32_Z 1) = false.
Proof.
  intros n d H. destruct (is_zero_eq d H) as [s ->].
  destruct n as [sn|sn| |sn m e K]; try reflexivity;
    simpl Bdiv; destruct (xorb sn s); vm_compute; reflexivity.
Qed.

Theorem segment_intersection_zero_denominator : forall lm (a b c d : Vec2 (FO lm)),
  oeq (- (vx d - vx c) * (vy b - vy a) + (vx b - vx a) * (vy d - vy c))%ops c0 = true ->
  calculate_line_segment_intersection a b c d = None.
Proof.
  intros lm a b c d H. unfold calculate_line_segment_intersection.
  match goal with |- context [(?n / ?den)%ops] =>
    pose proof (div_zero_range n den H) as K end.
  change (andb (@ole (FO lm) ?x ?y) ?z) with (andb (Bleb x y) z).
  change (@ole (FO lm)) with (@Bleb 24 128). change (@c0 (FO lm)) with (f32_Z 0).
  change (@c1 (FO lm)) with (f32_Z 1). change (@odiv (FO lm)) with (@Bdiv 24 128 _ _ mode_NE).
  now rewrite K.
Qed.

(** ** Not-finite values propagate *)
Definition nf (x : f32) : Prop := is_finite x = false.

Lemma nf_add_r : forall x y : f32, nf y -> nf (Bplus mode_NE x y).
Proof.
  unfold nf. intros [s|s| |s m e H] [t|t| |t m' e' H'] K; try discriminate; try reflexivity.
  simpl. now destruct (Bool.eqb s t).
Qed.
Lemma nf_sub_r : forall x y : f32, nf y -> nf (Bminus mode_NE x y).
Proof.
  unfold nf. intros [s|s| |s m e H] [t|t| |t m' e' H'] K; try discriminate; try reflexivity.
  simpl. now destruct (Bool.eqb s (negb t)).
Qed.
Lemma nf_mul_l : forall x y : f32, nf x -> nf (Bmult mode_NE x y).
Proof.
  unfold nf. intros [s|s| |s m e H] [t|t| |t m' e' H'] K; try discriminate; reflexivity.
Qed.

Lemma nan_add_l : forall x : f32, Bplus mode_NE B754_nan x = B754_nan.
Proof. now intros []. Qed.
Lemma nan_add_r : forall x : f32, Bplus mode_NE x B754_nan = B754_nan.
Proof. now intros []. Qed.
Lemma nan_sub_l : forall x : f32, Bminus mode_NE B754_nan x = B754_nan.
Proof. now intros []. Qed.
Lemma nan_sub_r : forall x : f32, Bminus mode_NE x B754_nan = B754_nan.
Proof. now intros []. Qed.
Lemma nan_mul_l : forall x : f32, Bmult mode_NE B754_nan x = B754_nan.
Proof. now intros []. Qed.
Lemma nan_mul_r : forall x : f32, Bmult mode_NE x B754_nan = B754_nan.
Proof. now intros []. Qed.
Lemma nan_div_l : forall x : f32, Bdiv mode_NE B754_nan x = B754_nan.
Proof. now intros []. Qed.
Lemma nan_div_r : forall x : f32, Bdiv mode_NE x B754_nan = B754_nan.
Proof. now intros []. Qed.
#[global] Hint Rewrite nan_add_l nan_add_r nan_sub_l nan_sub_r nan_mul_l nan_mul_r nan_div_l nan_div_r : nan.

(** ** a = b *)
Theorem perpendicular_point_degenerate : forall lm (a p : Vec2 (FO lm)),
  vx (calculate_perpendicular_point a a p) = (B754_nan : f32) /\
  vy (calculate_perpendicular_point a a p) = (B754_nan : f32).
Proof.
  intros lm [ax ay] [px py]. unfold calculate_perpendicular_point, powf2.
  cbn [vx vy].
  change (@osub (FO lm)) with (@Bminus 24 128 _ _ mode_NE).
  change (@omul (FO lm)) with (@Bmult 24 128 _ _ mode_NE).
  change (@odiv (FO lm)) with (@Bdiv 24 128 _ _ mode_NE).
  change (@oadd (FO lm)) with (@Bplus 24 128 _ _ mode_NE).
  change (car (FO lm)) with f32 in *.
  assert (D : forall k : f32, nf k ->
    Bmult mode_NE k (B754_zero false : f32) = B754_nan).
  { intros [s|s| |s m e H] K; try discriminate; reflexivity. }
  assert (Q : forall n : f32, nf (Bdiv mode_NE n (B754_zero false))).
  { intros [s|s| |s m e H]; reflexivity. }
  destruct (Bminus_diag ax) as [Ex|Ex], (Bminus_diag ay) as [Ey|Ey]; rewrite Ex, Ey.
  - change (Bplus mode_NE (Bmult mode_NE (B754_zero false) (B754_zero false))
             (Bmult mode_NE (B754_zero false) (B754_zero false))) with (B754_zero false : f32).
    rewrite !D by apply Q. now autorewrite with nan.
  - autorewrite with nan; easy.
  - autorewrite with nan; easy.
  - autorewrite with nan; easy.
Qed.

(** ** Horizontal segments have no finite bisector point *)
Theorem bisector_horizontal : forall lm (a b : Vec2 (FO lm)) off,
  oeq (vy b - vy a)%ops c0 = true -> is_finite (vx b - vx a : f32)%ops = true ->
  oeq (vx b - vx a)%ops c0 = false ->
  is_finite (vy (snd (calculate_perpendicular_bisector a b off)) : f32) = false.
Proof.
  intros lm a b off Hy Hf Hx. unfold calculate_perpendicular_bisector; cbn [snd vx vy].
  set (mid := calculate_midpoint a b).
  assert (S : nf ((- c1) / ((vy b - vy a) / (vx b - vx a)))%ops).
  { destruct (is_zero_eq (vy b - vy a)%ops Hy) as [s E]. rewrite E. clear E Hy.
    revert Hf Hx. generalize (vx b - vx a)%ops. intros dx. change (f32) in dx. intros Hf Hx.
    assert (Z : exists t, Bdiv mode_NE (B754_zero s) dx = B754_zero t).
    { destruct dx as [t|t| |t m e K]; try discriminate.
      - eexists. reflexivity. }
    destruct Z as [t Z]. change (nf (Bdiv mode_NE (Bopp (f32_Z 1)) (Bdiv mode_NE (B754_zero s) dx))).
    rewrite Z. destruct t; vm_compute; reflexivity. }
  revert S. generalize ((- c1) / ((vy b - vy a) / (vx b - vx a)))%ops. intros sl S.
  apply nf_add_r, nf_sub_r, nf_mul_l, S.
Qed.

(** ** parallel on a degenerate segment *)
Theorem parallel_degenerate : forall lm (a c d : Vec2 (FO lm)),
  parallel a a c d = false /\ parallel c d a a = false.
Proof.
  intros lm a c d.
  assert (Z : exists q : Vec2 (FO lm), p_div (p_sub a a) (p_norm (p_sub a a)) = q /\
     ((vx q : f32) = B754_nan) /\ ((vy q : f32) = B754_nan)).
  { eexists. split; [reflexivity|]. destruct a as [ax ay].
    unfold p_div, p_norm, p_dot, p_sub; cbn [vx vy].
    change (@osub (FO lm)) with (@Bminus 24 128 _ _ mode_NE).
    destruct (Bminus_diag ax) as [Ex|Ex], (Bminus_diag ay) as [Ey|Ey]; rewrite Ex, Ey; split; reflexivity. }
  destruct Z as (q & E & Qx & Qy). unfold parallel, normalize_dot. rewrite E.
  unfold p_dot. rewrite Qx, Qy.
  set (u := p_div (p_sub d c) (p_norm (p_sub d c))). split.
  - match goal with |- (if ?b then true else false) = false => assert (B : b = false) end.
    { change (@omul (FO lm)) with (@Bmult 24 128 _ _ mode_NE). rewrite (nan_mul_l (vx u)). reflexivity. }
    now rewrite B.
  - match goal with |- (if ?b then true else false) = false => assert (B : b = false) end.
    { change (@omul (FO lm)) with (@Bmult 24 128 _ _ mode_NE). rewrite (nan_mul_r (vx u)). reflexivity. }
    now rewrite B.
Qed.

Theorem parallel_symmetric : forall lm (a b c d : Vec2 (FO lm)),
  parallel a b c d = parallel c d a b.
Proof.
  intros lm a b c d. unfold parallel, normalize_dot, p_dot.
  change (@omul (FO lm)) with (@Bmult 24 128 _ _ mode_NE).
  rewrite (Bmult_comm (vx (p_div (p_sub b a) (p_norm (p_sub b a))))).
  rewrite (Bmult_comm (vy (p_div (p_sub b a) (p_norm (p_sub b a))))). reflexivity.
Qed.
