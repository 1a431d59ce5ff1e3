(** * C92-C98: src/math in floating point, for f32, f64 and any other binary format.

    [f : Fmt] is a binary format (Format.v): [single lm] is f32 and [double lm] f64, with
    any platform functions [lm].  u = [ur f] is half the distance from 1 to the next
    number (2^-24 in f32), t = [tiny f] the smallest normal number, [huge f] = 2^emax.
    [rv], [rb], [rt], [rr]: the real values of the components; [vfin] ..: all components
    are finite; [vlen] ..: Euclidean length; [err f n M] = ((1+u)^n - 1) M; [mdist e X Y]:
    all coefficients of the multivectors X, Y differ by at most e; [within e x r]: x is
    finite and |x - r| <= e.  All are in RoundSpec.v. *)
From Coq Require Import List Bool ZArith Reals Lra Lia.
From Flocq Require Import Core.Core IEEE754.BinarySingleNaN.
From Verif Require Import Scalar GA GASpec GARing GAReal GraphDemo Format RoundSpec Rounding GARound NormRound LenReal InvRound RotRound FromRound BitRound ProdRound RoundDemo.
Import ListNotations.
Local Open Scope R_scope.
Local Notation "x ** y" := (mmul (O := RO) x y) (at level 40, left associativity).
Local Notation MV x := (of_vec (O := RO) (rv x)).
Local Notation MB x := (of_biv (O := RO) (rb x)).
Local Notation MT x := (of_tri (O := RO) (rt x)).
Local Notation MR x := (of_rot (O := RO) (rr x)).
Local Notation MS x := (of_scalar (O := RO) (B2R x)).
Local Notation part k x := (mgrade (O := RO) k x).

(** ** C92 *)

(** The six products: each coefficient is within the error of three or four roundings of
    the product of the lengths, unless the result is out of range. *)
Theorem C92_products :
  forall f, let u := ur f in let t := tiny f in let room L := (1 + u) ^ 4 * (L + 4 * t) < huge f in
  (forall x y : Vector3 (BO f), vfin x -> vfin y -> let L := vlen (rv x) * vlen (rv y) in room L ->
     rfin (vec_mul x y) /\ mdist (err f 3 (L + 3 * t)) (MR (vec_mul x y)) (MV x ** MV y)) /\
  (forall (x : Vector3 (BO f)) (y : Bivector3 (BO f)), vfin x -> bfin y -> let L := vlen (rv x) * blen (rb y) in room L ->
     vfin (fst (vec_mul_biv x y)) /\ tfin (snd (vec_mul_biv x y)) /\
     mdist (err f 3 (L + 3 * t)) (madd (O := RO) (MV (fst (vec_mul_biv x y))) (MT (snd (vec_mul_biv x y)))) (MV x ** MB y)) /\
  (forall x y : Bivector3 (BO f), bfin x -> bfin y -> let L := blen (rb x) * blen (rb y) in room L ->
     rfin (biv_mul x y) /\ mdist (err f 3 (L + 3 * t)) (MR (biv_mul x y)) (MB x ** MB y)) /\
  (forall x y : Rotor3 (BO f), rfin x -> rfin y -> let L := rlen (rr x) * rlen (rr y) in room L ->
     rfin (rot_mul x y) /\ mdist (err f 4 (L + 4 * t)) (MR (rot_mul x y)) (MR x ** MR y)) /\
  (forall (x : Rotor3 (BO f)) (y : Vector3 (BO f)), rfin x -> vfin y -> let L := rlen (rr x) * vlen (rv y) in room L ->
     vfin (fst (rot_mul_vec x y)) /\ tfin (snd (rot_mul_vec x y)) /\
     mdist (err f 3 (L + 3 * t)) (madd (O := RO) (MV (fst (rot_mul_vec x y))) (MT (snd (rot_mul_vec x y)))) (MR x ** MV y)) /\
  (forall x y : Trivector3 (BO f), tfin x -> tfin y -> let L := tlen (rt x) * tlen (rt y) in room L ->
     is_finite (tri_mul x y) = true /\ mdist (err f 1 (L + t)) (MS (tri_mul x y)) (MT x ** MT y)).
Proof.
  intros f u t room. split; [exact (vec_mul_round f)|]. split; [exact (vec_mul_biv_round f)|]. split; [exact (biv_mul_round f)|].
  split; [exact (rot_mul_round f)|]. split; [exact (rot_mul_vec_round f)|exact (tri_mul_round f)].
Qed.
Print Assumptions C92_products.

(** dot is the scalar part of the product; wedge its part of grade 2 (grade 3 for a
    bivector and a vector). *)
Theorem C92_dot_wedge :
  forall f, let u := ur f in let t := tiny f in let room L := (1 + u) ^ 4 * (L + 4 * t) < huge f in
  (forall x y : Vector3 (BO f), vfin x -> vfin y -> let L := vlen (rv x) * vlen (rv y) in room L ->
     (is_finite (vec_dot x y) = true /\ mdist (err f 3 (L + 3 * t)) (MS (vec_dot x y)) (part 0 (MV x ** MV y))) /\
     (bfin (vec_wedge x y) /\ mdist (err f 2 (L + 2 * t)) (MB (vec_wedge x y)) (part 2 (MV x ** MV y)))) /\
  (forall x y : Bivector3 (BO f), bfin x -> bfin y -> let L := blen (rb x) * blen (rb y) in room L ->
     (is_finite (biv_dot x y) = true /\ mdist (err f 3 (L + 3 * t)) (MS (biv_dot x y)) (part 0 (MB x ** MB y))) /\
     (bfin (biv_wedge x y) /\ mdist (err f 2 (L + 2 * t)) (MB (biv_wedge x y)) (part 2 (MB x ** MB y)))) /\
  (forall (x : Bivector3 (BO f)) (y : Vector3 (BO f)), bfin x -> vfin y -> let L := blen (rb x) * vlen (rv y) in room L ->
     tfin (biv_wedge_vec x y) /\ mdist (err f 3 (L + 3 * t)) (MT (biv_wedge_vec x y)) (part 3 (MB x ** MV y))) /\
  (forall x y : Trivector3 (BO f), tfin x -> tfin y -> let L := tlen (rt x) * tlen (rt y) in room L ->
     is_finite (tri_dot x y) = true /\ mdist (err f 1 (L + t)) (MS (tri_dot x y)) (part 0 (MT x ** MT y))) /\
  (forall x y : Rotor3 (BO f), rfin x -> rfin y -> let L := rlen (rr x) * rlen (rr y) in room L ->
     is_finite (rot_dot x y) = true /\ mdist (err f 4 (L + 4 * t)) (MS (rot_dot x y)) (part 0 (MR x ** MR y))).
Proof.
  intros f u t room. split; [exact (vec_dot_round f)|]. split; [exact (biv_dot_round f)|]. split; [exact (biv_wedge_vec_round f)|].
  split; [exact (tri_dot_round f)|exact (rot_dot_round f)].
Qed.
Print Assumptions C92_dot_wedge.

(** rotate: seven roundings of at most 2 |R|^2 |v|. *)
Theorem C92_rotate :
  forall f, let u := ur f in let t := tiny f in
  forall (r : Rotor3 (BO f)) (v : Vector3 (BO f)), rfin r -> vfin v ->
  let L := rlen (rr r) in let Q := L * vlen (rv v) + 3 * t in
  (1 + u) ^ 4 * Q < huge f -> (1 + u) ^ 7 * (2 * L * Q + 4 * t) < huge f ->
  vfin (rot_rotate r v) /\
  mdist (err f 7 (2 * L * Q + 4 * t)) (MV (rot_rotate r v)) (MR r ** MV v ** mrev (O := RO) (MR r)).
Proof. exact rot_rotate_round. Qed.
Print Assumptions C92_rotate.

(** The formats of Rust, and the lengths called [sized] below. *)
Theorem C92_f32_f64 :
  (forall lm, BO (single lm) = FO lm /\ (11 <= prec (single lm))%Z /\ tiny (single lm) <= ur (single lm) ^ 3 /\
     ur (single lm) = bpow radix2 (-24) /\ tiny (single lm) = bpow radix2 (-126) /\ huge (single lm) = bpow radix2 128 /\
     forall L, bpow radix2 (-51) <= L <= bpow radix2 63 -> sized (single lm) L) /\
  (forall lm, (11 <= prec (double lm))%Z /\ tiny (double lm) <= ur (double lm) ^ 3 /\
     ur (double lm) = bpow radix2 (-53) /\ tiny (double lm) = bpow radix2 (-1022) /\ huge (double lm) = bpow radix2 1024 /\
     forall L, bpow radix2 (-484) <= L <= bpow radix2 511 -> sized (double lm) L).
Proof. split; [intros lm; split; [reflexivity|exact (single_range lm)]|exact double_range]. Qed.
Print Assumptions C92_f32_f64.

(** (3,4,12), (4,0,-3), the rotor 1 + 2 e12 + 2 e13 + 4 e23 .. satisfy all hypotheses, in
    every format with 11 bits or more. *)
Example C92_example :
  forall f, (11 <= prec f)%Z -> let room L := (1 + ur f) ^ 4 * (L + 4 * tiny f) < huge f in
  vfin (iv f 3 4 12) /\ vfin (iv f 4 0 (-3)) /\ bfin (ib f 2 3 6) /\ tfin (it f (-7)) /\ rfin (ir f 1 2 2 4) /\
  vlen (rv (iv f 3 4 12)) = 13 /\ vlen (rv (iv f 4 0 (-3))) = 5 /\ rlen (rr (ir f 1 2 2 4)) = 5 /\
  room (vlen (rv (iv f 3 4 12)) * vlen (rv (iv f 4 0 (-3)))) /\ room (rlen (rr (ir f 1 2 2 4)) * vlen (rv (iv f 3 4 12))).
Proof.
  intros f W room. destruct (demo_v f W) as (V1 & _ & V2 & _), (demo_w f W) as (W1 & _ & W2 & _), (demo_b f W) as (B1 & _), (demo_t f W) as (T1 & _), (demo_r f W) as (R1 & _ & R2 & _).
  repeat (split; [assumption|]). rewrite V2, W2, R2. split; apply demo_room; try assumption; lra.
Qed.
(** Out of range: (2^64,0,0) . (2^64,0,0) overflows in f32. *)
Example C92_fails_at_overflow :
  let v : Vector3 (FO lm0) := V3 (f32_of 1 64) (f32_Z 0) (f32_Z 0) in is_finite (vec_dot v v) = false.
Proof. vm_compute. reflexivity. Qed.

(** ** C93 *)
Theorem C93_norm_normalize :
  forall f, (11 <= prec f)%Z -> let u := ur f in
  (forall v : Vector3 (BO f), vfin v -> let L := vlen (rv v) in sized f L ->
     within (32 / 10 * u * L) (vec_norm v) L /\
     veach (within (5 * u)) (vec_normalize v) (V3 (B2R (a1 v) / L) (B2R (a2 v) / L) (B2R (a3 v) / L)) /\
     Rabs (vlen (rv (vec_normalize v)) - 1) <= 5 * u) /\
  (forall v : Bivector3 (BO f), bfin v -> let L := blen (rb v) in sized f L ->
     within (32 / 10 * u * L) (biv_norm v) L /\
     beach (within (5 * u)) (biv_normalize v) (B3 (B2R (b1 v) / L) (B2R (b2 v) / L) (B2R (b3 v) / L)) /\
     Rabs (blen (rb (biv_normalize v)) - 1) <= 5 * u) /\
  (forall v : Trivector3 (BO f), tfin v -> let L := tlen (rt v) in sized f L ->
     within (32 / 10 * u * L) (tri_norm v) L /\
     teach (within (5 * u)) (tri_normalize v) (T3 (B2R (t1 v) / L)) /\
     Rabs (tlen (rt (tri_normalize v)) - 1) <= 5 * u) /\
  (forall v : Rotor3 (BO f), rfin v -> let L := rlen (rr v) in sized f L ->
     within (32 / 10 * u * L) (rot_norm v) L /\
     reach (within (5 * u)) (rot_normalize v)
       (Ro3 (B2R (scalar v) / L) (B3 (B2R (b1 (bivector v)) / L) (B2R (b2 (bivector v)) / L) (B2R (b3 (bivector v)) / L))) /\
     Rabs (rlen (rr (rot_normalize v)) - 1) <= 5 * u).
Proof.
  intros f W u. split; [exact (vec_normalize_near f W)|]. split; [exact (biv_normalize_near f W)|].
  split; [exact (tri_normalize_near f W)|exact (rot_normalize_near f W)].
Qed.
Print Assumptions C93_norm_normalize.

Example C93_example :
  forall f, (11 <= prec f)%Z ->
  (vfin (iv f 3 4 12) /\ vlen (rv (iv f 3 4 12)) = 13 /\ sized f (vlen (rv (iv f 3 4 12)))) /\
  (bfin (ib f 2 3 6) /\ blen (rb (ib f 2 3 6)) = 7 /\ sized f (blen (rb (ib f 2 3 6)))) /\
  (tfin (it f (-7)) /\ tlen (rt (it f (-7))) = 7 /\ sized f (tlen (rt (it f (-7))))) /\
  (rfin (ir f 1 2 2 4) /\ rlen (rr (ir f 1 2 2 4)) = 5 /\ sized f (rlen (rr (ir f 1 2 2 4)))).
Proof.
  intros f W. destruct (demo_v f W) as (V1 & _ & V), (demo_b f W) as (B1 & _ & B), (demo_r f W) as (R1 & _ & R'). pose proof (demo_t f W). tauto.
Qed.
(** Outside the range the claim is false: |v|^2 overflows or underflows, although |v| is
    representable.  In f32 the norm of (2^64,0,0) is infinite and normalize gives the zero
    vector; the norm of (2^-75,0,0) is 0 and normalize gives an infinite component.  The
    same happens in f64 at 2^512 and 2^-538. *)
Example C93_fails_at_extremes :
  (let v : Vector3 (FO lm0) := V3 (f32_of 1 64) (f32_Z 0) (f32_Z 0) in
   (B2SF (vec_norm v), B2SF (a1 (vec_normalize v))) = (SpecFloat.S754_infinity false, SpecFloat.S754_zero false)) /\
  (let v : Vector3 (FO lm0) := V3 (f32_of 1 (-75)) (f32_Z 0) (f32_Z 0) in
   (B2SF (vec_norm v), B2SF (a1 (vec_normalize v))) = (SpecFloat.S754_zero false, SpecFloat.S754_infinity false)) /\
  (let lm := MkLibm64 (fun x => x) (fun x => x) (fun x => x) in
   let v : Vector3 (BO (double lm)) := V3 (f64_of 1 512) (f64_of 0 0) (f64_of 0 0) in
   (B2SF (vec_norm v), B2SF (a1 (vec_normalize v))) = (SpecFloat.S754_infinity false, SpecFloat.S754_zero false)) /\
  (let lm := MkLibm64 (fun x => x) (fun x => x) (fun x => x) in
   let v : Vector3 (BO (double lm)) := V3 (f64_of 1 (-538)) (f64_of 0 0) (f64_of 0 0) in
   (B2SF (vec_norm v), B2SF (a1 (vec_normalize v))) = (SpecFloat.S754_zero false, SpecFloat.S754_infinity false)).
Proof. repeat split; vm_compute; reflexivity. Qed.

(** ** C94 *)
Theorem C94_inverse :
  forall f, (11 <= prec f)%Z -> let u := ur f in
  (forall v : Vector3 (BO f), vfin v -> let L := vlen (rv v) in sized f L ->
     veach (within (54 / 10 * u / L)) (vec_inverse v) (V3 (B2R (a1 v) / L ^ 2) (B2R (a2 v) / L ^ 2) (B2R (a3 v) / L ^ 2)) /\
     reach (within (9 * u)) (vec_mul (vec_inverse v) v) (Ro3 1 (B3 0 0 0))) /\
  (forall v : Bivector3 (BO f), bfin v -> let L := blen (rb v) in sized f L ->
     beach (within (54 / 10 * u / L)) (biv_inverse v) (B3 (- B2R (b1 v) / L ^ 2) (- B2R (b2 v) / L ^ 2) (- B2R (b3 v) / L ^ 2)) /\
     reach (within (9 * u)) (biv_mul (biv_inverse v) v) (Ro3 1 (B3 0 0 0))) /\
  (forall v : Trivector3 (BO f), tfin v -> let L := tlen (rt v) in sized f L ->
     teach (within (54 / 10 * u / L)) (tri_inverse v) (T3 (- B2R (t1 v) / L ^ 2)) /\
     within (9 * u) (tri_mul (tri_inverse v) v) 1).
Proof.
  intros f W u. split; [exact (vec_inverse_near f W)|]. split; [exact (biv_inverse_near f W)|exact (tri_inverse_near f W)].
Qed.
Print Assumptions C94_inverse.
Example C94_example :
  forall f, (11 <= prec f)%Z ->
  (vfin (iv f 4 0 (-3)) /\ vlen (rv (iv f 4 0 (-3))) = 5 /\ sized f (vlen (rv (iv f 4 0 (-3))))) /\
  (bfin (ib f 2 3 6) /\ blen (rb (ib f 2 3 6)) = 7 /\ sized f (blen (rb (ib f 2 3 6)))).
Proof. intros f W. destruct (demo_w f W) as (V1 & _ & V), (demo_b f W) as (B1 & _ & B). tauto. Qed.
(** In f32 the inverse of (2,3,7) times (2,3,7) is not exactly 1. *)
Example C94_not_exact :
  let v : Vector3 (FO lm0) := V3 (f32_Z 2) (f32_Z 3) (f32_Z 7) in
  Beqb (scalar (vec_mul (vec_inverse v) v)) (f32_Z 1) = false.
Proof. vm_compute. reflexivity. Qed.

(** ** C95 *)
Theorem C95_project_reflect :
  forall f, (11 <= prec f)%Z -> let u := ur f in
  forall s r : Vector3 (BO f), vfin s -> vfin r -> sized f (vlen (rv s)) -> sized f (vlen (rv r)) ->
  veach (within (10 * u * vlen (rv s))) (vec_project s r) (vproj (rv s) (rv r)) /\
  veach (within (16 * u * vlen (rv s))) (vec_reflect s r) (vrefl (rv s) (rv r)).
Proof. intros f W u s r Fs Fr Ss Sr. split; [now apply (vec_project_near f W)|now apply (vec_reflect_near f W)]. Qed.
Print Assumptions C95_project_reflect.

(** angle is acos of a number within 14 u of the cosine. *)
Theorem C95_angle_argument :
  forall f, (11 <= prec f)%Z -> let u := ur f in
  forall a b : Vector3 (BO f), vfin a -> vfin b -> sized f (vlen (rv a)) -> sized f (vlen (rv b)) ->
  exists x, vec_angle a b = f_acos f x /\
  within (14 * u) x ((B2R (a1 a) * B2R (a1 b) + B2R (a2 a) * B2R (a2 b) + B2R (a3 a) * B2R (a3 b)) / (vlen (rv a) * vlen (rv b))).
Proof. intros f W u. exact (angle_arg_round f W). Qed.
Print Assumptions C95_angle_argument.
Example C95_example :
  forall f, (11 <= prec f)%Z ->
  vfin (iv f 3 4 12) /\ vfin (iv f 4 0 (-3)) /\ sized f (vlen (rv (iv f 3 4 12))) /\ sized f (vlen (rv (iv f 4 0 (-3)))) /\
  vproj (rv (iv f 3 4 12)) (rv (iv f 4 0 (-3))) = V3 (- (96) / 25) 0 (72 / 25).
Proof.
  intros f W. destruct (demo_v f W) as (V1 & V2 & _ & V3'), (demo_w f W) as (W1 & W2 & W3 & W4).
  split; [exact V1|]. split; [exact W1|]. split; [exact V3'|]. split; [exact W4|].
  unfold vproj. rewrite W3, V2, W2. cbn [a1 a2 a3]. f_equal; field.
Qed.

(** ** C96 *)
Theorem C96_unit_rotor :
  forall f, (11 <= prec f)%Z -> let u := ur f in
  forall q : Rotor3 (BO f), rfin q -> sized f (rlen (rr q)) -> let r := rot_normalize q in
  (within (15 * u) (scalar (rot_mul r (rot_inverse r))) 1 /\
   bfin (bivector (rot_mul r (rot_inverse r))) /\ rb (bivector (rot_mul r (rot_inverse r))) = B3 0 0 0) /\
  forall v : Vector3 (BO f), vfin v -> sized f (vlen (rv v)) ->
  vfin (rot_rotate r v) /\
  mdist (25 * u * vlen (rv v)) (MV (rot_rotate r v))
    (of_rot (O := RO) (rdir (rr q)) ** MV v ** mrev (O := RO) (of_rot (O := RO) (rdir (rr q)))).
Proof.
  intros f W u q Fq Sq r. split; [exact (rot_unit_reverse f W q Fq Sq)|].
  intros v Fv Sv. exact (rot_unit_rotate_round f W q v Fq Sq Fv Sv).
Qed.
Print Assumptions C96_unit_rotor.
Example C96_example :
  forall f, (11 <= prec f)%Z ->
  rfin (ir f 1 2 2 4) /\ sized f (rlen (rr (ir f 1 2 2 4))) /\ rdir (rr (ir f 1 2 2 4)) = Ro3 (1 / 5) (B3 (2 / 5) (2 / 5) (4 / 5)) /\
  vfin (iv f 3 4 12) /\ sized f (vlen (rv (iv f 3 4 12))).
Proof.
  intros f W. destruct (demo_v f W) as (V1 & _ & _ & V), (demo_r f W) as (R1 & R2 & R3 & R4).
  split; [exact R1|]. split; [exact R4|]. split; [|split; [exact V1|exact V]]. unfold rdir. rewrite R3, R2. reflexivity.
Qed.

(** ** C97 *)

(** h is the length of the sum of the two directions (2 when they agree, 0 when they are
    opposite). *)
Theorem C97_from_vectors :
  forall f, (11 <= prec f)%Z -> tiny f <= ur f ^ 3 -> let u := ur f in
  forall a b : Vector3 (BO f), vfin a -> vfin b -> sized f (vlen (rv a)) -> sized f (vlen (rv b)) ->
  let p := vdir (rv a) in let q := vdir (rv b) in
  let h := vlen (V3 (a1 p + a1 q) (a2 p + a2 q) (a3 p + a3 q)) in 1000 * u <= h ->
  let r := rot_from_vectors (vec_normalize a) (vec_normalize b) in
  Rabs (rlen (rr r) - 1) <= 5 * u /\ veach (within (160 * u / h)) (rot_rotate r (vec_normalize a)) q.
Proof. intros f W D u a b Fa Fb Sa Sb p q h H r. exact (from_vectors_near f W D a b Fa Fb Sa Sb H). Qed.
Print Assumptions C97_from_vectors.
(** (3,4,12) to (4,0,-3) in f32: h^2 = 82/65. *)
Example C97_example :
  forall lm, let f := single lm in (11 <= prec f)%Z /\ tiny f <= ur f ^ 3 /\
  vfin (iv f 3 4 12) /\ vfin (iv f 4 0 (-3)) /\ sized f (vlen (rv (iv f 3 4 12))) /\ sized f (vlen (rv (iv f 4 0 (-3)))) /\
  let p := vdir (rv (iv f 3 4 12)) in let q := vdir (rv (iv f 4 0 (-3))) in
  1000 * ur f <= vlen (V3 (a1 p + a1 q) (a2 p + a2 q) (a3 p + a3 q)).
Proof.
  intros lm f. destruct (single_range lm) as (W & D & U & _). fold f in W, D, U.
  destruct (demo_v f W) as (V1 & V2 & V3' & V4), (demo_w f W) as (W1 & W2 & W3 & W4).
  do 6 (split; [assumption|]). cbv zeta. unfold vdir. rewrite V3', W3, V2, W2. cbn [a1 a2 a3]. unfold vlen. cbn [a1 a2 a3].
  apply Rle_trans with 1.
  - rewrite U. change (bpow radix2 (-24)) with (/ 16777216). lra.
  - rewrite <- sqrt_1 at 1. apply sqrt_le_1_alt. lra.
Qed.
(** Opposite directions: every component is a NaN, in f32 and in f64. *)
Example C97_fails_at_opposite :
  (let O := FO lm0 in let r := rot_from_vectors (V3 c1 c0 c0 : Vector3 O) (V3 (oneg c1) c0 c0) in
   map B2SF [scalar r; b1 (bivector r); b2 (bivector r); b3 (bivector r)] =
   [SpecFloat.S754_nan; SpecFloat.S754_nan; SpecFloat.S754_nan; SpecFloat.S754_nan]) /\
  (let lm := MkLibm64 (fun x => x) (fun x => x) (fun x => x) in
   let O := BO (double lm) in let r := rot_from_vectors (V3 c1 c0 c0 : Vector3 O) (V3 (oneg c1) c0 c0) in
   map B2SF [scalar r; b1 (bivector r); b2 (bivector r); b3 (bivector r)] =
   [SpecFloat.S754_nan; SpecFloat.S754_nan; SpecFloat.S754_nan; SpecFloat.S754_nan]).
Proof. split; vm_compute; reflexivity. Qed.

(** ** C98 *)

(** Exact facts, in every binary format and for all bit patterns. *)
Theorem C98_symmetric :
  forall f,
  (forall x y : Vector3 (BO f), vec_dot x y = vec_dot y x /\ vec_angle x y = vec_angle y x) /\
  (forall x y : Bivector3 (BO f), biv_dot x y = biv_dot y x) /\
  (forall x y : Trivector3 (BO f), tri_dot x y = tri_dot y x) /\
  (forall x y : Rotor3 (BO f), rot_dot x y = rot_dot y x).
Proof.
  intros f. split; [intros x y; split; [apply (vec_dot_comm f)|apply (vec_angle_comm f)]|].
  split; [exact (biv_dot_comm f)|]. split; [exact (tri_dot_comm f)|exact (rot_dot_comm f)].
Qed.
Print Assumptions C98_symmetric.

(** is_zero: exactly when every component is +0 or -0. *)
Theorem C98_is_zero :
  forall f, let zero x := x = B754_zero true \/ x = (B754_zero false : fl f) in
  (forall v : Vector3 (BO f), vec_is_zero v = true <-> zero (a1 v) /\ zero (a2 v) /\ zero (a3 v)) /\
  (forall v : Bivector3 (BO f), biv_is_zero v = true <-> zero (b1 v) /\ zero (b2 v) /\ zero (b3 v)) /\
  (forall v : Trivector3 (BO f), tri_is_zero v = true <-> zero (t1 v)).
Proof. exact is_zero_all. Qed.
Print Assumptions C98_is_zero.

(** The bivector part of R R~ is exactly zero for every finite rotor whose square is in
    range, normalized or not. *)
Theorem C98_rotor_reverse :
  forall f (r : Rotor3 (BO f)), rfin r -> (1 + ur f) ^ 4 * (rlen (rr r) * rlen (rr r) + 4 * tiny f) < huge f ->
  bfin (bivector (rot_mul r (rot_inverse r))) /\ rb (bivector (rot_mul r (rot_inverse r))) = B3 0 0 0.
Proof. exact rot_reverse_bivector. Qed.
Print Assumptions C98_rotor_reverse.
Example C98_example :
  forall f, (11 <= prec f)%Z -> rfin (ir f 1 2 2 4) /\
  (1 + ur f) ^ 4 * (rlen (rr (ir f 1 2 2 4)) * rlen (rr (ir f 1 2 2 4)) + 4 * tiny f) < huge f /\
  vec_is_zero (iv f 0 0 0) = true /\ vec_is_zero (V3 (B754_zero true) (B754_zero false) (B754_zero true) : Vector3 (BO f)) = true.
Proof.
  intros f W. destruct (demo_r f W) as (R1 & _ & R3 & _). split; [exact R1|]. split; [rewrite R3; apply demo_room; [exact W|lra]|].
  split; reflexivity.
Qed.
