(** * Model of src/geometry/line.rs *)
From Coq Require Import Bool ZArith.
From Verif Require Import Scalar GA Approx.

(** line.rs:8-11 *)
Record Line (A : Type) := MkLine { lpoint : Vector3 A; ldirection : Vector3 A }.
Arguments MkLine {A}. Arguments lpoint {A}. Arguments ldirection {A}.

(** line.rs:15-20 new *)
Definition line_new {A} (point direction : Vector3 A) : Line A := MkLine point direction.

(** line.rs:30: the bivector whose components are compared with zero *)
Definition line_bivector {O : Ops} (l : Line O) (x : Vector3 O) : Bivector3 O :=
  vec_wedge (vec_sub x (lpoint l)) (ldirection l).

(** line.rs:29-32 contains (f32) *)
Definition line_contains (lm : Libm) (l : Line f32) (x : Vector3 f32) : bool :=
  biv_ulps_eq (@line_bivector (FO lm) l x) (@biv_zero (FO lm)) (@ceps (FO lm)) 4%Z.

(** line.rs:29-32 in exact arithmetic.  Simplification: of ulps_eq only the absolute
    test is kept; comparing against 0.0 the bit-distance test never accepts anything
    else (proved for f32 in GAF32.v, ulps_zero). *)
Definition line_contains_exact (l : Line X) (x : Vector3 X) : bool :=
  let small (z : X) := @ole XO (@oabs XO (@osub XO z (@c0 XO))) (@ceps XO) in
  let b := @line_bivector XO l x in
  small (b1 b) && small (b2 b) && small (b3 b).

(** line.rs:34-44 intersect: always None *)
Definition line_intersect {A} (l rhs : Line A) : option (Vector3 A) := None.
