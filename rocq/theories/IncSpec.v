(** * Vocabulary of C109 and C110 (definitions only). *)
From Coq Require Import Reals.
From Verif Require Import Scalar PlaneSpec.
Local Open Scope R_scope.

(** The mean of x, y, z with weights a, b, c. *)
Definition wmean (a b c x y z : R) : R := (a * x + b * y + c * z) / (a + b + c).
(** Half the perimeter. *)
Definition half_per (A B C : point) : R := (dist B C + dist A C + dist A B) / 2.
(** How far the triangle is from a segment: s - side >= s / k for the three sides, s being half
    the perimeter. *)
Definition shape (k : R) (A B C : point) : Prop :=
  let s := half_per A B C in s <= k * (s - dist B C) /\ s <= k * (s - dist A C) /\ s <= k * (s - dist A B).
(** q is the centre of the inscribed circle, and r its radius. *)
Definition incircle (A B C q : point) (r : R) : Prop :=
  inside_triangle A B C q /\ line_dist A B q = r /\ line_dist B C q = r /\ line_dist C A q = r.
