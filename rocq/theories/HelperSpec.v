(** * Points up to the sign of zero (definitions only). *)
From Flocq Require Import IEEE754.BinarySingleNaN.
From Verif Require Import Scalar Utils IsoSpec.

(** Both coordinates equal, or both zero. *)
Definition same_point (p q : Vec2 f32) : Prop :=
  signed false (vx p) = signed false (vx q) /\ signed false (vy p) = signed false (vy q).
