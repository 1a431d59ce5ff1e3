(** * Vocabulary of C106-C108 (definitions only). *)
From Coq Require Import Reals List.
From Flocq Require Import Core.Core IEEE754.BinarySingleNaN.
From Verif Require Import Scalar Utils PlaneSpec GeoSpec.
Local Open Scope R_scope.

(** Sum of a list, and of the magnitudes of its members. *)
Definition rsum (l : list R) : R := fold_right Rplus 0 l.
Definition asum (l : list f32) : R := rsum (map (fun x => Rabs (B2R x)) l).
(** Rounding error of the determinant of the directions a b and c d. *)
Definition det_err (A B C D : point) : R := 41 / 10 * u32 * (dist A B * dist C D + bpow radix2 (-125)).
