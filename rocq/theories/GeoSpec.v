(** * Vocabulary of the f32 geometry claims (definitions only). *)
From Coq Require Import Reals List.
From Flocq Require Import Core.Core IEEE754.BinarySingleNaN.
From Verif Require Import Scalar Utils PlaneSpec.
Local Open Scope R_scope.

(** Unit roundoff 2^-24; f32::EPSILON = 2^-23 is [eps32] of Scalar.v. *)
Definition u32 : R := / 16777216.
(** A point with finite coordinates. *)
Definition pfin (p : Vec2 f32) : Prop := is_finite (vx p) = true /\ is_finite (vy p) = true.
(** Its coordinates are at most M in magnitude. *)
Definition pbound (M : R) (p : Vec2 f32) : Prop := pfin p /\ Rabs (B2R (vx p)) <= M /\ Rabs (B2R (vy p)) <= M.
(** Finite coordinates of magnitude at most 2^60. *)
Definition inbox (p : Vec2 f32) : Prop := pbound (bpow radix2 60) p.

(** The magnitudes of the two products in the orientation determinant of a, b, c. *)
Definition area_terms (a b c : point) : R :=
  Rabs (vx b - vx a) * Rabs (vy c - vy a) + Rabs (vx c - vx a) * Rabs (vy b - vy a).
(** The triple is further from collinear than the rounding errors of f32. *)
Definition robust (a b c : point) : Prop :=
  31 / 10 * u32 * (area_terms a b c + bpow radix2 (-125)) < Rabs (cross a b a c).
(** Every three of the points coincide in two of them or are robustly not collinear. *)
Definition robust_position (vs : list point) : Prop :=
  forall a b c, In a vs -> In b vs -> In c vs -> a = b \/ b = c \/ a = c \/ robust a b c.
(** The magnitudes that enter the sum computed by Polygon::area (triangles fanned from the
    first vertex). *)
Fixpoint fan (a : point) (l : list point) : R :=
  match l with
  | b :: ((c :: _) as l') => (area_terms a b c + bpow radix2 (-125)) + fan a l'
  | _ => 0
  end.
Definition fan_terms (vs : list point) : R := match vs with a :: l => fan a l | nil => 0 end.
(** Relative error of n roundings in f32. *)
Definition gam (n : nat) : R := (1 + u32) ^ n - 1.

(** How badly conditioned the crossing of the lines a b and c d is: about 1 over the sine of
    their angle. *)
Definition cond (a b c d : point) : R := (dist a b * dist c d + bpow radix2 (-100)) / Rabs (cross a b c d).
(** Rounding errors of the parameters of the crossing along a b and along c d. *)
Definition par_err (a b c d : point) : R := 6 * u32 * cond a b c d * (dist a c / dist a b + 1).
(** Rounding error of the coordinate x + t (y - x) for 0 <= t <= 1. *)
Definition lerp_err (x y : R) : R := 31 / 10 * u32 * (Rabs x + Rabs (y - x) + bpow radix2 (-126)).
