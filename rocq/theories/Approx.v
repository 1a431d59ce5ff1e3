(** * Model of the approx-crate comparisons (approx 0.3.2, not part of /repo) on f32,
    and of the impls for the math types in src/math/*.rs. *)
From Coq Require Import ZArith Bool.
From Flocq Require Import IEEE754.BinarySingleNaN.
From Verif Require Import Scalar GA.

(** approx 0.3.2 [f32::abs_diff_eq]: [abs(self - other) <= epsilon]. *)
Definition f32_abs_diff_eq (x y eps : f32) : bool :=
  Bleb (Babs (Bminus mode_NE x y)) eps.

Definition f32_is_infinite (x : f32) : bool :=
  match x with B754_infinity _ => true | _ => false end.

(** approx 0.3.2 [f32::relative_eq]. *)
Definition f32_relative_eq (x y eps max_relative : f32) : bool :=
  if Beqb x y then true
  else if f32_is_infinite x || f32_is_infinite y then false
  else
    let abs_diff := Babs (Bminus mode_NE x y) in
    if Bleb abs_diff eps then true
    else
      let ax := Babs x in
      let ay := Babs y in
      let largest := if Bltb ax ay then ay else ax in
      Bleb abs_diff (Bmult mode_NE largest max_relative).

(** [f32::signum]: 1.0 or -1.0 by sign bit, NaN for NaN. *)
Definition f32_signum (x : f32) : f32 :=
  if is_nan x then x else if Bsign x then f32_Z (-1) else f32_Z 1.

(** [transmute::<f32, i32>] for non-NaN values: sign bit, biased exponent, mantissa.
    (Subnormals have exponent -149 and a mantissa below 2^23.) *)
Definition f32_bits (x : f32) : Z :=
  let mag :=
    match x with
    | B754_zero _ => 0
    | B754_infinity _ => 255 * 2 ^ 23
    | B754_nan => 255 * 2 ^ 23 + 2 ^ 22
    | B754_finite _ m e _ =>
        if (Zpos m <? 2 ^ 23) then Zpos m else (e + 150) * 2 ^ 23 + (Zpos m - 2 ^ 23)
    end%Z in
  if Bsign x then (mag - 2 ^ 31)%Z else mag.

(** approx 0.3.2 [f32::ulps_eq]: abs_diff first, then equal signs, then the distance
    of the bit patterns as i32. *)
Definition f32_ulps_eq (x y eps : f32) (max_ulps : Z) : bool :=
  if f32_abs_diff_eq x y eps then true
  else if negb (Beqb (f32_signum x) (f32_signum y)) then false
  else (Z.abs (f32_bits x - f32_bits y) <=? max_ulps)%Z.

Section Impls.
Variable sc : f32 -> f32 -> bool.   (* the scalar comparison with its tolerances fixed *)

(** vector.rs:358-362, 373-377, 388-392 *)
Definition vec_approx (u v : Vector3 f32) : bool :=
  sc (a1 u) (a1 v) && sc (a2 u) (a2 v) && sc (a3 u) (a3 v).
(** bivector.rs:317-321, 332-336, 347-351 *)
Definition biv_approx (u v : Bivector3 f32) : bool :=
  sc (b1 u) (b1 v) && sc (b2 u) (b2 v) && sc (b3 u) (b3 v).
(** trivector.rs:239-241, 252-254, 265-267 *)
Definition tri_approx (u v : Trivector3 f32) : bool := sc (t1 u) (t1 v).
(** rotor.rs:394-397, 408-411, 422-425 *)
Definition rot_approx (u v : Rotor3 f32) : bool :=
  sc (scalar u) (scalar v) && biv_approx (bivector u) (bivector v).
End Impls.

Definition vec_abs_diff_eq u v eps := vec_approx (fun x y => f32_abs_diff_eq x y eps) u v.
Definition vec_relative_eq u v eps mr := vec_approx (fun x y => f32_relative_eq x y eps mr) u v.
Definition vec_ulps_eq u v eps mu := vec_approx (fun x y => f32_ulps_eq x y eps mu) u v.
Definition biv_abs_diff_eq u v eps := biv_approx (fun x y => f32_abs_diff_eq x y eps) u v.
Definition biv_relative_eq u v eps mr := biv_approx (fun x y => f32_relative_eq x y eps mr) u v.
Definition biv_ulps_eq u v eps mu := biv_approx (fun x y => f32_ulps_eq x y eps mu) u v.
Definition tri_abs_diff_eq u v eps := tri_approx (fun x y => f32_abs_diff_eq x y eps) u v.
Definition tri_relative_eq u v eps mr := tri_approx (fun x y => f32_relative_eq x y eps mr) u v.
Definition tri_ulps_eq u v eps mu := tri_approx (fun x y => f32_ulps_eq x y eps mu) u v.
Definition rot_abs_diff_eq u v eps := rot_approx (fun x y => f32_abs_diff_eq x y eps) u v.
Definition rot_relative_eq u v eps mr := rot_approx (fun x y => f32_relative_eq x y eps mr) u v.
Definition rot_ulps_eq u v eps mu := rot_approx (fun x y => f32_ulps_eq x y eps mu) u v.
