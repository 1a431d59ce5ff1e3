(** * Rotations of space (definitions only). *)
From Coq Require Import Reals.
From Verif Require Import Scalar GA.
Local Open Scope R_scope.

Definition vec3 := Vector3 R.
Definition dot3 (u v : vec3) : R := a1 u * a1 v + a2 u * a2 v + a3 u * a3 v.
(** Signed volume of the box spanned by three vectors. *)
Definition vol3 (u v w : vec3) : R :=
  a1 u * (a2 v * a3 w - a3 v * a2 w) - a2 u * (a1 v * a3 w - a3 v * a1 w) + a3 u * (a1 v * a2 w - a2 v * a1 w).

(** Maps of space that keep lengths and angles (with the origin fixed), no linearity
    assumed; rotations keep the handedness, improper ones reverse it. *)
Definition orthogonal (f : vec3 -> vec3) : Prop := forall u v, dot3 (f u) (f v) = dot3 u v.
Definition rotation (f : vec3 -> vec3) : Prop :=
  orthogonal f /\ forall u v w, vol3 (f u) (f v) (f w) = vol3 u v w.
Definition improper (f : vec3 -> vec3) : Prop :=
  orthogonal f /\ forall u v w, vol3 (f u) (f v) (f w) = - vol3 u v w.

Definition unit_vector (u : vec3) : Prop := dot3 u u = 1.
Definition unit_plane (B : Bivector3 R) : Prop := b1 B * b1 B + b2 B * b2 B + b3 B * b3 B = 1.
Definition unit_rotor (r : Rotor3 R) : Prop :=
  scalar r * scalar r +
  (b1 (bivector r) * b1 (bivector r) + b2 (bivector r) * b2 (bivector r) + b3 (bivector r) * b3 (bivector r)) = 1.
(** The rotor with all signs changed. *)
Definition opposite (r : Rotor3 R) : Rotor3 R :=
  Ro3 (- scalar r) (B3 (- b1 (bivector r)) (- b2 (bivector r)) (- b3 (bivector r))).
