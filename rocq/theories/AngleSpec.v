(** * Vocabulary of the claims about rotors built from angles (definitions only). *)
From Coq Require Import ZArith Reals.
From Flocq Require Import Core.Core BinarySingleNaN.
From Verif Require Import Scalar GA Format RoundSpec.
Local Open Scope R_scope.

(** sin and cos of the platform are within d of the exact values on [-A, A]. *)
Definition accurate_trig (f : Fmt) (A d : R) : Prop :=
  forall x : fl f, is_finite x = true -> Rabs (B2R x) <= A ->
    within d (f_sin f x) (sin (B2R x)) /\ within d (f_cos f x) (cos (B2R x)).

(** The exact rotor cos(a/2) - sin(a/2) B. *)
Definition turn (a : R) (B : Bivector3 R) : Rotor3 R :=
  Ro3 (cos (a / 2)) (B3 (- sin (a / 2) * b1 B) (- sin (a / 2) * b2 B) (- sin (a / 2) * b3 B)).
(** B / |B|. *)
Definition bdir (v : Bivector3 R) : Bivector3 R := B3 (b1 v / blen v) (b2 v / blen v) (b3 v / blen v).
