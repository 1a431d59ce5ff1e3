(** * The Clifford algebra of Euclidean 3-space over a commutative ring, from scratch:
    the specification for src/math.  A multivector is a coefficient for each of the 8
    blades (subsets of {e1,e2,e3}); the product of two blades is their symmetric
    difference, with the sign of the permutation that sorts the generators. *)
From Coq Require Import List Bool Ring.
From Verif Require Import Scalar GA.
Import ListNotations.

(** The scalars form a commutative ring ([R] does; f32 does not). *)
Definition comm_ring (O : Ops) : Prop :=
  ring_theory (@c0 O) (@c1 O) (@oadd O) (@omul O) (@osub O) (@oneg O) eq.

Record blade := Bl { has1 : bool; has2 : bool; has3 : bool }.
Definition blades : list blade :=
  [Bl false false false; Bl true false false; Bl false true false; Bl false false true;
   Bl true true false; Bl true false true; Bl false true true; Bl true true true].
Definition bxor (a b : blade) : blade :=
  Bl (xorb (has1 a) (has1 b)) (xorb (has2 a) (has2 b)) (xorb (has3 a) (has3 b)).
(** Parity of the number of pairs (i in a, j in b) with i > j. *)
Definition odd_swaps (a b : blade) : bool :=
  xorb (has2 a && has1 b) (xorb (has3 a && has1 b) (has3 a && has2 b)).
Definition grade (b : blade) : nat :=
  (if has1 b then 1 else 0) + (if has2 b then 1 else 0) + (if has3 b then 1 else 0).
(** Reversing a blade of grade g takes g(g-1)/2 swaps. *)
Definition odd_reverse (b : blade) : bool :=
  match grade b with 2 => true | 3 => true | _ => false end.

Section Clifford.
Context {O : Ops}.
Local Open Scope ops_scope.

Definition mv := blade -> O.
Definition msum (f : blade -> O) : O := fold_right (fun b s => f b + s) c0 blades.
Definition signed (odd : bool) (x : O) : O := if odd then - x else x.

Definition mmul (x y : mv) : mv := fun c =>
  msum (fun a => signed (odd_swaps a (bxor a c)) (x a * y (bxor a c))).
Definition madd (x y : mv) : mv := fun c => x c + y c.
Definition mscale (k : O) (x : mv) : mv := fun c => k * x c.
Definition mrev (x : mv) : mv := fun c => signed (odd_reverse c) (x c).
(** Grade projection. *)
Definition mgrade (g : nat) (x : mv) : mv := fun c => if Nat.eqb (grade c) g then x c else c0.
Definition meq (x y : mv) : Prop := forall c, x c = y c.

(** Embeddings of the Rust types: e12, e13, e23 carry b1, b2, b3. *)
Definition of_scalar (k : O) : mv := fun c =>
  match c with Bl false false false => k | _ => c0 end.
Definition of_vec (v : Vector3 O) : mv := fun c =>
  match c with
  | Bl true false false => a1 v | Bl false true false => a2 v | Bl false false true => a3 v
  | _ => c0
  end.
Definition of_biv (b : Bivector3 O) : mv := fun c =>
  match c with
  | Bl true true false => b1 b | Bl true false true => b2 b | Bl false true true => b3 b
  | _ => c0
  end.
Definition of_tri (t : Trivector3 O) : mv := fun c =>
  match c with Bl true true true => t1 t | _ => c0 end.
Definition of_rot (r : Rotor3 O) : mv := madd (of_scalar (scalar r)) (of_biv (bivector r)).
(** The grade-1 part as a vector; [contract u B] is that of the product u B. *)
Definition vec_part (x : mv) : Vector3 O :=
  V3 (x (Bl true false false)) (x (Bl false true false)) (x (Bl false false true)).
Definition contract (u : Vector3 O) (B : Bivector3 O) : Vector3 O := vec_part (mmul (of_vec u) (of_biv B)).
End Clifford.

Arguments mv : clear implicits.
Infix "==" := meq (at level 70).

(** Determinant of three vectors. *)
Definition det {O : Ops} (u v w : Vector3 O) : O :=
  (a1 u * (a2 v * a3 w - a3 v * a2 w) - a2 u * (a1 v * a3 w - a3 v * a1 w)
   + a3 u * (a1 v * a2 w - a2 v * a1 w))%ops.
