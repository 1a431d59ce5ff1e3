(** * Vocabulary of the claims about regular polygons in f32 (definitions only). *)
From Coq Require Import Reals List.
From Flocq Require Import Core.Core IEEE754.BinarySingleNaN.
From Verif Require Import Scalar Utils PlaneSpec RoundSpec.
Local Open Scope R_scope.

(** sin and cos of the platform are within d of the exact values on [-7, 7]. *)
Definition accurate_libm (lm : Libm) (d : R) : Prop :=
  forall x : f32, is_finite x = true -> Rabs (B2R x) <= 7 ->
    within d (lm_sin lm x) (sin (B2R x)) /\ within d (lm_cos lm x) (cos (B2R x)).

(** Corner i of the regular n-gon with centre c and circumradius r. *)
Definition corner (n : nat) (r : R) (c : point) (i : nat) : point :=
  P2 (vx c + r * cos (2 * PI * INR i / INR n)) (vy c + r * sin (2 * PI * INR i / INR n)).
