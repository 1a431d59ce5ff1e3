(** * Vocabulary of the rounding error claims (definitions only). *)
From Coq Require Import ZArith Reals.
From Flocq Require Import Core.Core BinarySingleNaN.
From Verif Require Import Scalar GA GASpec Format.
Local Open Scope R_scope.

(** 2^-prec, the smallest normal number 2^(2-emax), and 2^emax. *)
Definition ur (f : Fmt) : R := bpow radix2 (- prec f).
Definition tiny (f : Fmt) : R := bpow radix2 (2 - emax f).
Definition huge (f : Fmt) : R := bpow radix2 (emax f).

(** x is finite and differs from r by at most (1+u)^n - 1 of M: the error of n roundings of
    terms whose magnitudes add up to M. *)
Definition near (f : Fmt) (n : nat) (M : R) (x : fl f) (r : R) : Prop :=
  is_finite x = true /\ Rabs (B2R x - r) <= ((1 + ur f) ^ n - 1) * M.
(** x is finite and within e of r. *)
Definition within {p q} (e : R) (x : binary_float p q) (r : R) : Prop :=
  is_finite x = true /\ Rabs (B2R x - r) <= e.

Section Values.
Context {p q : Z}.
Local Notation F := (binary_float p q).
(** The real values of the components. *)
Definition rv (u : Vector3 F) : Vector3 R := V3 (B2R (a1 u)) (B2R (a2 u)) (B2R (a3 u)).
Definition rb (u : Bivector3 F) : Bivector3 R := B3 (B2R (b1 u)) (B2R (b2 u)) (B2R (b3 u)).
Definition rt (u : Trivector3 F) : Trivector3 R := T3 (B2R (t1 u)).
Definition rr (u : Rotor3 F) : Rotor3 R := Ro3 (B2R (scalar u)) (rb (bivector u)).
(** All components finite. *)
Definition vfin (u : Vector3 F) : Prop := is_finite (a1 u) = true /\ is_finite (a2 u) = true /\ is_finite (a3 u) = true.
Definition bfin (u : Bivector3 F) : Prop := is_finite (b1 u) = true /\ is_finite (b2 u) = true /\ is_finite (b3 u) = true.
Definition tfin (u : Trivector3 F) : Prop := is_finite (t1 u) = true.
Definition rfin (u : Rotor3 F) : Prop := is_finite (scalar u) = true /\ bfin (bivector u).
End Values.

(** A relation between numbers, for all components. *)
Section Comp.
Context {A B : Type} (P : A -> B -> Prop).
Definition veach (u : Vector3 A) (v : Vector3 B) : Prop := P (a1 u) (a1 v) /\ P (a2 u) (a2 v) /\ P (a3 u) (a3 v).
Definition beach (u : Bivector3 A) (v : Bivector3 B) : Prop := P (b1 u) (b1 v) /\ P (b2 u) (b2 v) /\ P (b3 u) (b3 v).
Definition teach (u : Trivector3 A) (v : Trivector3 B) : Prop := P (t1 u) (t1 v).
Definition reach (u : Rotor3 A) (v : Rotor3 B) : Prop := P (scalar u) (scalar v) /\ beach (bivector u) (bivector v).
End Comp.
(** Euclidean lengths. *)
Definition tlen (u : Trivector3 R) : R := Rabs (t1 u).
Definition vlen (u : Vector3 R) : R := sqrt (a1 u ^ 2 + a2 u ^ 2 + a3 u ^ 2).
Definition blen (u : Bivector3 R) : R := sqrt (b1 u ^ 2 + b2 u ^ 2 + b3 u ^ 2).
Definition rlen (u : Rotor3 R) : R := sqrt (scalar u ^ 2 + b1 (bivector u) ^ 2 + b2 (bivector u) ^ 2 + b3 (bivector u) ^ 2).
(** Lengths whose squares neither underflow nor overflow: from 2^-51 to 2^63 in f32, from 2^-484 to 2^511 in f64. *)
Definition sized (f : Fmt) (L : R) : Prop := 0 <= L /\ tiny f <= ur f * L ^ 2 /\ 4 * L ^ 2 <= huge f.
(** Exact inverses: v / |v|^2, and -B / |B|^2 for bivectors and trivectors. *)
Definition vinv (v : Vector3 R) : Vector3 R := V3 (a1 v / vlen v ^ 2) (a2 v / vlen v ^ 2) (a3 v / vlen v ^ 2).
Definition binv (v : Bivector3 R) : Bivector3 R := B3 (- b1 v / blen v ^ 2) (- b2 v / blen v ^ 2) (- b3 v / blen v ^ 2).
Definition tinv (v : Trivector3 R) : Trivector3 R := T3 (- t1 v / tlen v ^ 2).
(** v / |v|, the projection of s on the line of r, and its mirror image in that line. *)
Definition vdir (v : Vector3 R) : Vector3 R := V3 (a1 v / vlen v) (a2 v / vlen v) (a3 v / vlen v).
Definition rdir (v : Rotor3 R) : Rotor3 R :=
  Ro3 (scalar v / rlen v) (B3 (b1 (bivector v) / rlen v) (b2 (bivector v) / rlen v) (b3 (bivector v) / rlen v)).
Definition vproj (s r : Vector3 R) : Vector3 R :=
  let k := a1 s * a1 r + a2 s * a2 r + a3 s * a3 r in
  V3 (k * a1 r / vlen r ^ 2) (k * a2 r / vlen r ^ 2) (k * a3 r / vlen r ^ 2).
Definition vrefl (s r : Vector3 R) : Vector3 R :=
  V3 (2 * a1 (vproj s r) - a1 s) (2 * a2 (vproj s r) - a2 s) (2 * a3 (vproj s r) - a3 s).
(** All eight coefficients of two multivectors differ by at most e. *)
Definition mdist (e : R) (x y : mv RO) : Prop := forall c, Rabs (x c - y c) <= e.
(** Error of n roundings of terms whose magnitudes add up to M. *)
Definition err (f : Fmt) (n : nat) (M : R) : R := ((1 + ur f) ^ n - 1) * M.
