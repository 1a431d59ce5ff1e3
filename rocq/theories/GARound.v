(** * Rounding errors of the products of src/math, in any binary format. *)
From Coq Require Import ZArith Reals Lia Lra Psatz.
From Flocq Require Import Core.Core BinarySingleNaN.
From Verif Require Import Scalar GA Format RoundSpec Rounding.
Local Open Scope R_scope.

Section Flat.
Variable f : Fmt.
Local Notation u := (ur f).

Fixpoint fin (a : expr f) : Prop :=
  match a with
  | Val _ x => is_finite x = true
  | Neg _ a => fin a
  | Add _ a b | Sub _ a b | Mul _ a b => fin a /\ fin b
  end.
Fixpoint leaf (a : expr f) : Prop := match a with Val _ _ => True | Neg _ a => leaf a | _ => False end.
Fixpoint flat (a : expr f) : Prop :=
  match a with
  | Val _ _ => True
  | Neg _ a => flat a
  | Add _ a b | Sub _ a b => flat a /\ flat b
  | Mul _ a b => leaf a /\ leaf b
  end.
Lemma leaf_safe : forall a, leaf a -> fin a -> safe f a.
Proof. induction a; cbn; tauto. Qed.
Lemma flat_safe : forall n M a, flat a -> fin a -> (ops f a <= n)%nat -> mag f a <= M -> (1 + u) ^ n * M < huge f -> safe f a.
Proof.
  intros n M a. pose proof (ur_pos f) as Pu.
  assert (St : forall k m, (k <= n)%nat -> 0 <= m <= M -> (1 + u) ^ n * M < huge f -> (1 + u) ^ k * m < huge f).
  { intros k m Hk Hm H. eapply Rle_lt_trans; [|exact H].
    apply Rmult_le_compat; [|lra|apply pow_mono; exact Hk|lra]. pose proof (pow1 f k). lra. }
  induction a as [x|a IH|a IHa b IHb|a IHa b IHb|a IHa b IHb]; cbn [flat fin ops mag safe].
  - auto.
  - auto.
  - intros [Fa Fb] [La Lb] Hn HM H. pose proof (mag_pos f a). pose proof (mag_pos f b).
    split; [apply IHa; auto; [lia|lra]|]. split; [apply IHb; auto; [lia|lra]|]. apply St; auto. lra.
  - intros [Fa Fb] [La Lb] Hn HM H. pose proof (mag_pos f a). pose proof (mag_pos f b).
    split; [apply IHa; auto; [lia|lra]|]. split; [apply IHb; auto; [lia|lra]|]. apply St; auto. lra.
  - intros [Fa Fb] [La Lb] Hn HM H. split; [now apply leaf_safe|]. split; [now apply leaf_safe|].
    pose proof (mag_pos f (Mul f a b)). cbn [mag] in H0. apply St; auto.
Qed.

Lemma near_run : forall a n M, safe f a -> (ops f a <= n)%nat -> mag f a <= M -> near f n M (run f a) (ex f a).
Proof.
  intros a n M S Hn HM. destruct (run_error f a S) as [F E]. split; [exact F|].
  eapply Rle_trans; [exact E|]. pose proof (mag_pos f a). pose proof (pow1 f (ops f a)). pose proof (pow_mono f _ _ Hn).
  apply Rmult_le_compat; lra.
Qed.
Lemma near_flat : forall a n M, flat a -> fin a -> (ops f a <= n)%nat -> mag f a <= M -> (1 + u) ^ n * M < huge f ->
  near f n M (run f a) (ex f a).
Proof. intros a n M F L Hn HM H. apply near_run; auto. eapply flat_safe; eauto. Qed.

End Flat.

Ltac reif f t :=
  lazymatch t with
  | @oadd _ ?a ?b => let a' := reif f a in let b' := reif f b in constr:(Add f a' b')
  | @osub _ ?a ?b => let a' := reif f a in let b' := reif f b in constr:(Sub f a' b')
  | @omul _ ?a ?b => let a' := reif f a in let b' := reif f b in constr:(Mul f a' b')
  | @oneg _ ?a => let a' := reif f a in constr:(Neg f a')
  | _ => constr:(Val f t)
  end.
Ltac reify_near :=
  lazymatch goal with
  | |- near ?f ?n ?M ?x ?r => let e := reif f x in change (near f n M (run f e) (ex f e))
  end.
(** ** Cauchy's inequality *)
Lemma cs4 : forall a b c d x y z w,
  (a * x + b * y + c * z + d * w) ^ 2 <= (a ^ 2 + b ^ 2 + c ^ 2 + d ^ 2) * (x ^ 2 + y ^ 2 + z ^ 2 + w ^ 2).
Proof.
  intros.
  assert (0 <= (a * y - b * x) ^ 2 + (a * z - c * x) ^ 2 + (a * w - d * x) ^ 2 + (b * z - c * y) ^ 2 + (b * w - d * y) ^ 2 + (c * w - d * z) ^ 2).
  { pose proof (pow2_ge_0 (a * y - b * x)). pose proof (pow2_ge_0 (a * z - c * x)). pose proof (pow2_ge_0 (a * w - d * x)).
    pose proof (pow2_ge_0 (b * z - c * y)). pose proof (pow2_ge_0 (b * w - d * y)). pose proof (pow2_ge_0 (c * w - d * z)). lra. }
  lra.
Qed.
Lemma cs_len : forall a b c d x y z w,
  Rabs a * Rabs x + Rabs b * Rabs y + Rabs c * Rabs z + Rabs d * Rabs w <=
  sqrt (a ^ 2 + b ^ 2 + c ^ 2 + d ^ 2) * sqrt (x ^ 2 + y ^ 2 + z ^ 2 + w ^ 2).
Proof.
  intros.
  assert (P : forall a b c d, 0 <= a ^ 2 + b ^ 2 + c ^ 2 + d ^ 2).
  { intros p q r s. pose proof (pow2_ge_0 p). pose proof (pow2_ge_0 q). pose proof (pow2_ge_0 r). pose proof (pow2_ge_0 s). lra. }
  rewrite <- sqrt_mult by apply P.
  apply Rsqr_incr_0_var; [|apply sqrt_pos]. rewrite Rsqr_sqrt by (apply Rmult_le_pos; apply P).
  pose proof (cs4 (Rabs a) (Rabs b) (Rabs c) (Rabs d) (Rabs x) (Rabs y) (Rabs z) (Rabs w)) as C.
  assert (Q : forall r, Rabs r ^ 2 = r ^ 2) by (intros r; rewrite <- !Rsqr_pow2, <- Rsqr_abs; reflexivity).
  rewrite !Q in C. rewrite Rsqr_pow2. exact C.
Qed.
Lemma cs_v : forall a b c x y z,
  Rabs a * Rabs x + Rabs b * Rabs y + Rabs c * Rabs z <= sqrt (a ^ 2 + b ^ 2 + c ^ 2) * sqrt (x ^ 2 + y ^ 2 + z ^ 2).
Proof.
  intros. pose proof (cs_len a b c 0 x y z 0) as C. rewrite Rabs_R0 in C.
  replace (a ^ 2 + b ^ 2 + c ^ 2 + 0 ^ 2) with (a ^ 2 + b ^ 2 + c ^ 2) in C by ring.
  replace (x ^ 2 + y ^ 2 + z ^ 2 + 0 ^ 2) with (x ^ 2 + y ^ 2 + z ^ 2) in C by ring. lra.
Qed.
Ltac parts := repeat match goal with |- _ /\ _ => split end.

Lemma cs_v' : forall a b c x y z N, x ^ 2 + y ^ 2 + z ^ 2 = N ->
  Rabs a * Rabs x + Rabs b * Rabs y + Rabs c * Rabs z <= sqrt (a ^ 2 + b ^ 2 + c ^ 2) * sqrt N.
Proof. intros a b c x y z N <-. apply cs_v. Qed.
Lemma cs_r' : forall a b c d x y z w N, x ^ 2 + y ^ 2 + z ^ 2 + w ^ 2 = N ->
  Rabs a * Rabs x + Rabs b * Rabs y + Rabs c * Rabs z + Rabs d * Rabs w <= sqrt (a ^ 2 + b ^ 2 + c ^ 2 + d ^ 2) * sqrt N.
Proof. intros a b c d x y z w N <-. apply cs_len. Qed.
Lemma abs2_pos : forall x y, 0 <= Rabs x * Rabs y.
Proof. intros. apply Rmult_le_pos; apply Rabs_pos. Qed.
(** All ways to pair three numbers with three. *)
Ltac pairs3 x1 x2 x3 y1 y2 y3 :=
  let N := constr:(y1 ^ 2 + y2 ^ 2 + y3 ^ 2) in
  pose proof (cs_v' x1 x2 x3 y1 y2 y3 N ltac:(ring)); pose proof (cs_v' x1 x2 x3 y1 y3 y2 N ltac:(ring));
  pose proof (cs_v' x1 x2 x3 y2 y1 y3 N ltac:(ring)); pose proof (cs_v' x1 x2 x3 y2 y3 y1 N ltac:(ring));
  pose proof (cs_v' x1 x2 x3 y3 y1 y2 N ltac:(ring)); pose proof (cs_v' x1 x2 x3 y3 y2 y1 N ltac:(ring));
  pose proof (abs2_pos x1 y1); pose proof (abs2_pos x1 y2); pose proof (abs2_pos x1 y3);
  pose proof (abs2_pos x2 y1); pose proof (abs2_pos x2 y2); pose proof (abs2_pos x2 y3);
  pose proof (abs2_pos x3 y1); pose proof (abs2_pos x3 y2); pose proof (abs2_pos x3 y3).
Ltac near_len :=
  reify_near; apply near_flat; [cbn; tauto|cbn; tauto|cbn; lia|cbn [mag]; lra|assumption].

Section Products.
Variable f : Fmt.
Local Notation O := (BO f).
Local Notation t := (tiny f).
Local Notation u := (ur f).

Lemma room_n : forall L n k, 0 <= L -> (1 + u) ^ 4 * (L + 4 * t) < huge f -> (n <= 4)%nat -> 0 <= k <= 4 -> (1 + u) ^ n * (L + k * t) < huge f.
Proof.
  intros L n k PL room Hn Hk. eapply Rle_lt_trans; [|exact room]. pose proof (tiny_pos f).
  pose proof (pow1 f n). assert (0 <= k * t <= 4 * t) by (split; [apply Rmult_le_pos|apply Rmult_le_compat_r]; lra).
  apply Rmult_le_compat; [lra|lra|apply pow_mono; exact Hn|lra].
Qed.
Ltac rooms H L :=
  let P := fresh in assert (P : 0 <= L) by (apply Rmult_le_pos; apply sqrt_pos);
  pose proof (room_n L 2 2 P H ltac:(lia) ltac:(lra));
  pose proof (room_n L 3 3 P H ltac:(lia) ltac:(lra)); pose proof (tiny_pos f).

Lemma vec_products : forall x y : Vector3 O, vfin x -> vfin y -> let L := vlen (rv x) * vlen (rv y) in
  (1 + u) ^ 4 * (L + 4 * t) < huge f ->
  near f 3 (L + 3 * t) (vec_dot x y) (vec_dot (O := RO) (rv x) (rv y)) /\
  beach (near f 2 (L + 2 * t)) (vec_wedge x y) (vec_wedge (O := RO) (rv x) (rv y)).
Proof.
  intros [x1 x2 x3] [y1 y2 y3] (X1 & X2 & X3) (Y1 & Y2 & Y3) L H. unfold vlen, rv in *. cbn [a1 a2 a3] in *.
  rooms H L. pairs3 (B2R x1) (B2R x2) (B2R x3) (B2R y1) (B2R y2) (B2R y3). repeat match goal with C : _ <= sqrt _ * sqrt _ |- _ => fold L in C end.
  unfold beach; parts; cbn [vec_wedge a1 a2 a3 b1 b2 b3]; unfold vec_dot; cbn [a1 a2 a3]; near_len.
Qed.
Lemma vec_biv_product : forall (x : Vector3 O) (y : Bivector3 O), vfin x -> bfin y -> let L := vlen (rv x) * blen (rb y) in
  (1 + u) ^ 4 * (L + 4 * t) < huge f ->
  veach (near f 2 (L + 2 * t)) (fst (vec_mul_biv x y)) (fst (vec_mul_biv (O := RO) (rv x) (rb y))) /\
  teach (near f 3 (L + 3 * t)) (snd (vec_mul_biv x y)) (snd (vec_mul_biv (O := RO) (rv x) (rb y))).
Proof.
  intros [x1 x2 x3] [y1 y2 y3] (X1 & X2 & X3) (Y1 & Y2 & Y3) L H. unfold vlen, blen, rv, rb in *. cbn [a1 a2 a3 b1 b2 b3] in *.
  rooms H L. pairs3 (B2R x1) (B2R x2) (B2R x3) (B2R y1) (B2R y2) (B2R y3). repeat match goal with C : _ <= sqrt _ * sqrt _ |- _ => fold L in C end.
  unfold veach, teach; parts; cbn [vec_mul_biv a1 a2 a3 b1 b2 b3 t1 fst snd]; near_len.
Qed.
Lemma biv_products : forall x y : Bivector3 O, bfin x -> bfin y -> let L := blen (rb x) * blen (rb y) in
  (1 + u) ^ 4 * (L + 4 * t) < huge f ->
  near f 3 (L + 3 * t) (biv_dot x y) (biv_dot (O := RO) (rb x) (rb y)) /\
  beach (near f 2 (L + 2 * t)) (biv_wedge x y) (biv_wedge (O := RO) (rb x) (rb y)) /\
  near f 3 (L + 3 * t) (scalar (biv_mul x y)) (scalar (biv_mul (O := RO) (rb x) (rb y))) /\
  beach (near f 2 (L + 2 * t)) (bivector (biv_mul x y)) (bivector (biv_mul (O := RO) (rb x) (rb y))).
Proof.
  intros [x1 x2 x3] [y1 y2 y3] (X1 & X2 & X3) (Y1 & Y2 & Y3) L H. unfold blen, rb in *. cbn [b1 b2 b3] in *.
  rooms H L. pairs3 (B2R x1) (B2R x2) (B2R x3) (B2R y1) (B2R y2) (B2R y3). repeat match goal with C : _ <= sqrt _ * sqrt _ |- _ => fold L in C end.
  unfold beach; parts; cbn [biv_mul biv_wedge scalar bivector b1 b2 b3]; unfold biv_dot; cbn [b1 b2 b3]; near_len.
Qed.
Lemma biv_vec_wedge : forall (x : Bivector3 O) (y : Vector3 O), bfin x -> vfin y -> let L := blen (rb x) * vlen (rv y) in
  (1 + u) ^ 4 * (L + 4 * t) < huge f ->
  teach (near f 3 (L + 3 * t)) (biv_wedge_vec x y) (biv_wedge_vec (O := RO) (rb x) (rv y)).
Proof.
  intros [x1 x2 x3] [y1 y2 y3] (X1 & X2 & X3) (Y1 & Y2 & Y3) L H. unfold vlen, blen, rv, rb in *. cbn [a1 a2 a3 b1 b2 b3] in *.
  rooms H L. pairs3 (B2R x1) (B2R x2) (B2R x3) (B2R y1) (B2R y2) (B2R y3). repeat match goal with C : _ <= sqrt _ * sqrt _ |- _ => fold L in C end.
  unfold teach; cbn [biv_wedge_vec a1 a2 a3 b1 b2 b3 t1]; near_len.
Qed.
Lemma tri_products : forall x y : Trivector3 O, tfin x -> tfin y -> let L := tlen (rt x) * tlen (rt y) in
  (1 + u) ^ 4 * (L + 4 * t) < huge f ->
  near f 1 (L + t) (tri_dot x y) (tri_dot (O := RO) (rt x) (rt y)) /\
  near f 1 (L + t) (tri_mul x y) (tri_mul (O := RO) (rt x) (rt y)).
Proof.
  intros [x] [y] X Y L H. unfold tfin, tlen, rt in *. cbn [t1] in *.
  pose proof (room_n L 1 1 (abs2_pos _ _) H ltac:(lia) ltac:(lra)) as H1. rewrite Rmult_1_l in H1.
  split; unfold tri_mul, tri_dot; cbn [t1]; (reify_near; apply near_flat; [cbn; tauto|cbn; tauto|cbn; lia|cbn [mag]; unfold L; lra|assumption]).
Qed.
Lemma rot_products : forall x y : Rotor3 O, rfin x -> rfin y -> let L := rlen (rr x) * rlen (rr y) in
  (1 + u) ^ 4 * (L + 4 * t) < huge f ->
  near f 4 (L + 4 * t) (rot_dot x y) (rot_dot (O := RO) (rr x) (rr y)) /\
  reach (near f 4 (L + 4 * t)) (rot_mul x y) (rot_mul (O := RO) (rr x) (rr y)).
Proof.
  intros [x0 [x1 x2 x3]] [y0 [y1 y2 y3]] (X0 & X1 & X2 & X3) (Y0 & Y1 & Y2 & Y3) L H. unfold rlen, rr, rb in *. cbn [scalar bivector b1 b2 b3] in *.
  pose proof (cs_r' (B2R x0) (B2R x1) (B2R x2) (B2R x3) (B2R y0) (B2R y1) (B2R y2) (B2R y3) (B2R y0 ^ 2 + B2R y1 ^ 2 + B2R y2 ^ 2 + B2R y3 ^ 2) ltac:(ring)).
  pose proof (cs_r' (B2R x0) (B2R x1) (B2R x2) (B2R x3) (B2R y1) (B2R y0) (B2R y3) (B2R y2) (B2R y0 ^ 2 + B2R y1 ^ 2 + B2R y2 ^ 2 + B2R y3 ^ 2) ltac:(ring)).
  pose proof (cs_r' (B2R x0) (B2R x1) (B2R x2) (B2R x3) (B2R y2) (B2R y3) (B2R y0) (B2R y1) (B2R y0 ^ 2 + B2R y1 ^ 2 + B2R y2 ^ 2 + B2R y3 ^ 2) ltac:(ring)).
  pose proof (cs_r' (B2R x0) (B2R x1) (B2R x2) (B2R x3) (B2R y3) (B2R y2) (B2R y1) (B2R y0) (B2R y0 ^ 2 + B2R y1 ^ 2 + B2R y2 ^ 2 + B2R y3 ^ 2) ltac:(ring)).
  repeat match goal with C : _ <= sqrt _ * sqrt _ |- _ => fold L in C end.
  unfold reach, beach; parts; cbn [rot_mul scalar bivector b1 b2 b3]; unfold rot_dot, biv_dot; cbn [scalar bivector b1 b2 b3]; near_len.
Qed.
Lemma rot_vec_product : forall (x : Rotor3 O) (y : Vector3 O), rfin x -> vfin y -> let L := rlen (rr x) * vlen (rv y) in
  (1 + u) ^ 4 * (L + 4 * t) < huge f ->
  veach (near f 3 (L + 3 * t)) (fst (rot_mul_vec x y)) (fst (rot_mul_vec (O := RO) (rr x) (rv y))) /\
  teach (near f 3 (L + 3 * t)) (snd (rot_mul_vec x y)) (snd (rot_mul_vec (O := RO) (rr x) (rv y))).
Proof.
  intros [x0 [x1 x2 x3]] [y1 y2 y3] (X0 & X1 & X2 & X3) (Y1 & Y2 & Y3) L H. unfold rlen, vlen, rr, rb, rv in *. cbn [a1 a2 a3 b1 b2 b3 scalar bivector] in *.
  pose proof (cs_r' (B2R x0) (B2R x1) (B2R x2) (B2R x3) (B2R y1) (B2R y2) (B2R y3) 0 (B2R y1 ^ 2 + B2R y2 ^ 2 + B2R y3 ^ 2) ltac:(ring)).
  pose proof (cs_r' (B2R x0) (B2R x1) (B2R x2) (B2R x3) (B2R y2) (B2R y1) 0 (B2R y3) (B2R y1 ^ 2 + B2R y2 ^ 2 + B2R y3 ^ 2) ltac:(ring)).
  pose proof (cs_r' (B2R x0) (B2R x1) (B2R x2) (B2R x3) (B2R y3) 0 (B2R y1) (B2R y2) (B2R y1 ^ 2 + B2R y2 ^ 2 + B2R y3 ^ 2) ltac:(ring)).
  pose proof (cs_r' (B2R x0) (B2R x1) (B2R x2) (B2R x3) 0 (B2R y3) (B2R y2) (B2R y1) (B2R y1 ^ 2 + B2R y2 ^ 2 + B2R y3 ^ 2) ltac:(ring)).
  rewrite ?Rabs_R0 in *. rooms H L. repeat match goal with C : _ <= sqrt _ * sqrt _ |- _ => fold L in C end.
  unfold veach, teach; parts; cbn [rot_mul_vec scalar bivector a1 a2 a3 b1 b2 b3 t1 fst snd]; near_len.
Qed.

(** ** rotate *)
Lemma rot_rotate_near : forall (r : Rotor3 O) (v : Vector3 O), rfin r -> vfin v ->
  let L := rlen (rr r) in let Q := L * vlen (rv v) + 3 * t in
  (1 + u) ^ 4 * Q < huge f -> (1 + u) ^ 7 * (2 * L * Q + 4 * t) < huge f ->
  veach (near f 7 (2 * L * Q + 4 * t)) (rot_rotate r v) (rot_rotate (O := RO) (rr r) (rv v)).
Proof.
  intros [x0 [x1 x2 x3]] [y1 y2 y3] (X0 & X1 & X2 & X3) (Y1 & Y2 & Y3) L Q H4 H7. unfold rlen, vlen, rr, rb, rv in *.
  cbn [a1 a2 a3 b1 b2 b3 scalar bivector] in *.
  pose proof (cs_r' (B2R x0) (B2R x1) (B2R x2) (B2R x3) (B2R y1) (B2R y2) (B2R y3) 0 (B2R y1 ^ 2 + B2R y2 ^ 2 + B2R y3 ^ 2) ltac:(ring)) as C1.
  pose proof (cs_r' (B2R x0) (B2R x1) (B2R x2) (B2R x3) (B2R y2) (B2R y1) 0 (B2R y3) (B2R y1 ^ 2 + B2R y2 ^ 2 + B2R y3 ^ 2) ltac:(ring)) as C2.
  pose proof (cs_r' (B2R x0) (B2R x1) (B2R x2) (B2R x3) (B2R y3) 0 (B2R y1) (B2R y2) (B2R y1 ^ 2 + B2R y2 ^ 2 + B2R y3 ^ 2) ltac:(ring)) as C3.
  pose proof (cs_r' (B2R x0) (B2R x1) (B2R x2) (B2R x3) 0 (B2R y3) (B2R y2) (B2R y1) (B2R y1 ^ 2 + B2R y2 ^ 2 + B2R y3 ^ 2) ltac:(ring)) as C4.
  rewrite Rabs_R0 in *. fold L in C1, C2, C3, C4. pose proof (tiny_pos f) as Pt.
  assert (PL : 0 <= L) by apply sqrt_pos.
  pose proof (sqrt_pos (B2R y1 ^ 2 + B2R y2 ^ 2 + B2R y3 ^ 2)) as PV.
  assert (PQ : 0 <= Q) by (unfold Q; pose proof (Rmult_le_pos _ _ PL PV); lra).
  assert (AL : forall x, x = x0 \/ x = x1 \/ x = x2 \/ x = x3 -> Rabs (B2R x) <= L).
  { clear - f. intros x Hx. unfold L. rewrite <- sqrt_Rsqr_abs. apply sqrt_le_1_alt. rewrite Rsqr_pow2.
    pose proof (pow2_ge_0 (B2R x0)). pose proof (pow2_ge_0 (B2R x1)). pose proof (pow2_ge_0 (B2R x2)). pose proof (pow2_ge_0 (B2R x3)).
    destruct Hx as [-> |[-> |[-> | ->]]]; lra. }
  assert (SL : Rabs (B2R x0) + Rabs (B2R x1) + Rabs (B2R x2) + Rabs (B2R x3) <= 2 * L).
  { pose proof (cs_r' (B2R x0) (B2R x1) (B2R x2) (B2R x3) 1 1 1 1 (2 ^ 2) ltac:(ring)) as C. rewrite Rabs_R1 in C.
    rewrite sqrt_pow2 in C by lra. fold L in C. lra. }
  assert (F4 : forall x, x = x0 \/ x = x1 \/ x = x2 \/ x = x3 -> is_finite x = true) by (intros x [-> |[-> |[-> | ->]]]; assumption).
  pose (e1 := Add f (Add f (Mul f (Val f x0) (Val f y1)) (Mul f (Val f x1) (Val f y2))) (Mul f (Val f x2) (Val f y3))).
  pose (e2 := Add f (Sub f (Mul f (Val f x0) (Val f y2)) (Mul f (Val f x1) (Val f y1))) (Mul f (Val f x3) (Val f y3))).
  pose (e3 := Sub f (Sub f (Mul f (Val f x0) (Val f y3)) (Mul f (Val f x2) (Val f y1))) (Mul f (Val f x3) (Val f y2))).
  pose (e4 := Sub f (Add f (Mul f (Neg f (Val f x1)) (Val f y3)) (Mul f (Val f x2) (Val f y2))) (Mul f (Val f x3) (Val f y1))).
  assert (E : forall q, q = e1 \/ q = e2 \/ q = e3 \/ q = e4 -> safe f q /\ (ops f q <= 3)%nat /\ mag f q <= Q).
  { intros q Hq. assert (mag f q <= Q /\ (ops f q <= 3)%nat /\ flat f q /\ fin f q) as (M & On & Fl & Fi).
    { destruct Hq as [-> |[-> |[-> | ->]]]; unfold e1, e2, e3, e4, Q; cbn [flat leaf fin ops mag]; (split; [lra|split; [cbn; lia|tauto]]). }
    split; [|split; assumption]. apply (flat_safe f 4 Q); auto. }
  assert (L7 : forall k m, (k <= 7)%nat -> 0 <= m <= 2 * L * Q + 4 * t -> (1 + u) ^ k * m < huge f).
  { intros k m Hk Hm. eapply Rle_lt_trans; [|exact H7]. pose proof (pow1 f k).
    apply Rmult_le_compat; [lra|lra|apply pow_mono; lia|lra]. }
  (* a product of a rotor component and one of e1 .. e4 *)
  pose (prod := fun (a : expr f) (x : fl f) => exists q, (a = Mul f (Val f x) q \/ a = Mul f q (Val f x)) /\
     (x = x0 \/ x = x1 \/ x = x2 \/ x = x3) /\ (q = e1 \/ q = e2 \/ q = e3 \/ q = e4)).
  assert (W : forall a x, prod a x -> safe f a /\ mag f a <= Rabs (B2R x) * Q + t /\ (ops f a <= 4)%nat).
  { intros a x (q & Ea & Hx & Hq). destruct (E q Hq) as (Sq & On & Mq). pose proof (mag_pos f q) as Pq.
    pose proof (Rabs_pos (B2R x)) as Px. pose proof (AL x Hx) as Ax.
    assert (M1 : Rabs (B2R x) * mag f q <= Rabs (B2R x) * Q) by (apply Rmult_le_compat_l; lra).
    assert (M2 : Rabs (B2R x) * Q <= L * Q) by (apply Rmult_le_compat_r; lra).
    pose proof (Rmult_le_pos _ _ Px Pq) as M0. pose proof (Rmult_le_pos _ _ PL PQ).
    destruct Ea as [-> | ->]; cbn [safe mag ops]; rewrite ?(Rmult_comm (mag f q)), ?Nat.add_0_r, ?Nat.add_0_l.
    - split; [|split; [lra|lia]]. split; [now apply F4|]. split; [exact Sq|]. apply L7; [lia|lra].
    - split; [|split; [lra|lia]]. split; [exact Sq|]. split; [now apply F4|]. apply L7; [lia|lra]. }
  assert (C : forall a b c d xa xb xc xd, prod a xa -> prod b xb -> prod c xc -> prod d xd ->
     Rabs (B2R xa) + Rabs (B2R xb) + Rabs (B2R xc) + Rabs (B2R xd) <= 2 * L ->
     forall g, g = Sub f (Add f (Add f a b) c) d \/ g = Add f (Add f (Sub f a b) c) d \/ g = Sub f (Sub f (Sub f a b) c) d ->
     near f 7 (2 * L * Q + 4 * t) (run f g) (ex f g)).
  { intros a b c d xa xb xc xd Ha Hb Hc Hd SX g Hg.
    apply W in Ha, Hb, Hc, Hd. destruct Ha as (Sa & Ma & Oa), Hb as (Sb & Mb & Ob), Hc as (Sc & Mc & Oc), Hd as (Sd & Md & Od).
    pose proof (mag_pos f a). pose proof (mag_pos f b). pose proof (mag_pos f c). pose proof (mag_pos f d).
    assert (T : mag f a + mag f b + mag f c + mag f d <= 2 * L * Q + 4 * t).
    { apply Rle_trans with ((Rabs (B2R xa) + Rabs (B2R xb) + Rabs (B2R xc) + Rabs (B2R xd)) * Q + 4 * t); [lra|].
      apply Rplus_le_compat_r. apply Rmult_le_compat_r; lra. }
    apply near_run.
    - destruct Hg as [-> |[-> | ->]]; cbn [safe mag ops]; repeat (split; [|]); try assumption; apply L7; try lia; lra.
    - destruct Hg as [-> |[-> | ->]]; cbn [ops]; lia.
    - destruct Hg as [-> |[-> | ->]]; cbn [mag]; lra. }
  split; [|split]; cbn [rot_rotate scalar bivector a1 a2 a3 b1 b2 b3].
  - refine (C (Mul f (Val f x0) e1) (Mul f e2 (Val f x1)) (Mul f e3 (Val f x2)) (Mul f e4 (Val f x3)) x0 x1 x2 x3 _ _ _ _ _ _ (or_introl eq_refl)); try lra;
      (eexists; split; [first [left; reflexivity|right; reflexivity]|tauto]).
  - refine (C (Mul f (Val f x0) e2) (Mul f e1 (Val f x1)) (Mul f e4 (Val f x2)) (Mul f e3 (Val f x3)) x0 x1 x2 x3 _ _ _ _ _ _ (or_intror (or_introl eq_refl))); try lra;
      (eexists; split; [first [left; reflexivity|right; reflexivity]|tauto]).
  - refine (C (Mul f (Val f x0) e3) (Mul f e4 (Val f x1)) (Mul f e1 (Val f x2)) (Mul f e2 (Val f x3)) x0 x1 x2 x3 _ _ _ _ _ _ (or_intror (or_intror eq_refl))); try lra;
      (eexists; split; [first [left; reflexivity|right; reflexivity]|tauto]).
Qed.
End Products.
