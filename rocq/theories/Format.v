(** * The scalar type of src/math: any binary floating-point format.

    [Vector3<T>], [Bivector3<T>], [Trivector3<T>] and [Rotor3<T>] are generic; the bounds
    of their impls (num_traits' [Float], e.g. src/math/vector.rs:98-101) admit [f32] and
    [f64].  The crate's own tests of src/math run in f64, to which unsuffixed float
    literals default (e.g. src/math/vector.rs:400-421). *)
From Coq Require Import ZArith Reals.
From Flocq Require Import Core.Core BinarySingleNaN.
From Verif Require Import Scalar.

(** A binary format: precision, largest exponent, the platform's sin/cos/acos and the
    constants PI, EPSILON and MAX. *)
Record Fmt := MkFmt {
  prec : Z; emax : Z;
  prec_pos : Prec_gt_0 prec; prec_emax : Prec_lt_emax prec emax;
  f_sin : binary_float prec emax -> binary_float prec emax;
  f_cos : binary_float prec emax -> binary_float prec emax;
  f_acos : binary_float prec emax -> binary_float prec emax;
  f_pi : binary_float prec emax; f_eps : binary_float prec emax; f_max : binary_float prec emax }.
#[global] Existing Instance prec_pos.
#[global] Existing Instance prec_emax.
Notation fl f := (binary_float (prec f) (emax f)).

(** [m * 2^e] rounded to the format. *)
Definition fl_of (f : Fmt) (m e : Z) : fl f := binary_normalize (prec f) (emax f) _ _ mode_NE m e false.

(** The operations of Scalar.v in a format. *)
Definition BO (f : Fmt) : Ops := {|
  car := fl f;
  c0 := fl_of f 0 0; c1 := fl_of f 1 0; c2 := fl_of f 2 0; chalf := fl_of f 1 (-1);
  cpi := f_pi f; ceps := f_eps f; cmax := f_max f;
  oadd := Bplus mode_NE; osub := Bminus mode_NE;
  omul := Bmult mode_NE; odiv := Bdiv mode_NE;
  oneg := Bopp; oabs := Babs; osqrt := Bsqrt mode_NE;
  osin := f_sin f; ocos := f_cos f; oacos := f_acos f;
  olt := Bltb; ole := Bleb; oeq := Beqb;
  ofnat := fun n => fl_of f (Z.of_nat n) 0 |}.

(** f32: the operations are those of [FO]. *)
Definition single (lm : Libm) : Fmt :=
  MkFmt 24 128 prec32_gt_0 prec32_lt_emax (lm_sin lm) (lm_cos lm) (lm_acos lm)
    (f32_of 13176795 (-22)) (f32_of 1 (-23)) (f32_of 16777215 104).
Lemma single_FO : forall lm, BO (single lm) = FO lm.
Proof. reflexivity. Qed.

(** f64 (core::f64::consts::PI = 0x400921fb54442d18 = 884279719003555 * 2^-48,
    EPSILON = 2^-52, MAX = (2^53 - 1) * 2^971). *)
Definition f64 := binary_float 53 1024.
#[global] Instance prec64_gt_0 : Prec_gt_0 53 := eq_refl.
#[global] Instance prec64_lt_emax : Prec_lt_emax 53 1024 := eq_refl.
Record Libm64 := MkLibm64 { lm64_sin : f64 -> f64; lm64_cos : f64 -> f64; lm64_acos : f64 -> f64 }.
Definition f64_of (m e : Z) : f64 := binary_normalize 53 1024 _ _ mode_NE m e false.
Definition double (lm : Libm64) : Fmt :=
  MkFmt 53 1024 prec64_gt_0 prec64_lt_emax (lm64_sin lm) (lm64_cos lm) (lm64_acos lm)
    (f64_of 884279719003555 (-48)) (f64_of 1 (-52)) (f64_of 9007199254740991 971).
