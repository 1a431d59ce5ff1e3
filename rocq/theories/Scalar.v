(** * Scalars: the floating-point interface used by kami, and its three instances.

    Every scalar operation that the Rust code performs is a field of [Ops]; the
    models in the other files are written once, over an arbitrary [Ops]. *)
From Coq Require Import ZArith Reals Bool Lia.
From Flocq Require Import Core.Core IEEE754.BinarySingleNaN.

(** The operations of [f32] (and of the [T] of the generic math types, bounded by
    num_traits' [Float], [Zero], [One] and std::ops traits) that kami calls:
    literals 0.0, 1.0, 2.0, 0.5; [std::f32::consts::PI] (src/geometry/polygon.rs:122);
    [f32::EPSILON], which is what [nalgebra_glm::epsilon()] returns
    (src/geometry/utils.rs:13); [f32::MAX] (src/geometry/utils.rs:145);
    + - * / and unary -; [abs], [sqrt], [sin], [cos], [acos]; the comparisons
    [<], [<=], [==] ([x > y] is [y < x], [x != y] is the negation of [==]);
    [usize as f32] (src/geometry/polygon.rs:122,151). *)
Record Ops := mkOps {
  car :> Type;
  c0 : car; c1 : car; c2 : car; chalf : car;
  cpi : car; ceps : car; cmax : car;
  oadd : car -> car -> car;
  osub : car -> car -> car;
  omul : car -> car -> car;
  odiv : car -> car -> car;
  oneg : car -> car;
  oabs : car -> car;
  osqrt : car -> car;
  osin : car -> car;
  ocos : car -> car;
  oacos : car -> car;
  olt : car -> car -> bool;
  ole : car -> car -> bool;
  oeq : car -> car -> bool;
  ofnat : nat -> car
}.

Arguments c0 {o}. Arguments c1 {o}. Arguments c2 {o}. Arguments chalf {o}.
Arguments cpi {o}. Arguments ceps {o}. Arguments cmax {o}.
Arguments oadd {o}. Arguments osub {o}. Arguments omul {o}. Arguments odiv {o}.
Arguments oneg {o}. Arguments oabs {o}. Arguments osqrt {o}.
Arguments osin {o}. Arguments ocos {o}. Arguments oacos {o}.
Arguments olt {o}. Arguments ole {o}. Arguments oeq {o}. Arguments ofnat {o}.

Declare Scope ops_scope.
Delimit Scope ops_scope with ops.
Infix "+" := oadd : ops_scope.
Infix "-" := osub : ops_scope.
Infix "*" := omul : ops_scope.
Infix "/" := odiv : ops_scope.
Notation "- x" := (oneg x) : ops_scope.
Infix "<?" := olt : ops_scope.
Infix "<=?" := ole : ops_scope.
Infix "=?" := oeq : ops_scope.
(** Rust's [x > y] and [x >= y]. *)
Notation "x >? y" := (olt y x) (only parsing) : ops_scope.
Notation "x >=? y" := (ole y x) (only parsing) : ops_scope.

(** ** Exact reals.  Division is Coq's [Rdiv]; no theorem relies on its value at a
    zero denominator ([RO] is used for division-free code or under a guard). *)
Definition Rltb (x y : R) : bool := if Rlt_dec x y then true else false.
Definition Rleb (x y : R) : bool := if Rle_dec x y then true else false.
Definition Reqb (x y : R) : bool := if Req_EM_T x y then true else false.

(** f32::EPSILON = 2^-23 and f32::MAX = (2^24 - 1) * 2^104, as reals. *)
Definition eps32 : R := bpow radix2 (-23).
Definition max32 : R := (IZR 16777215 * bpow radix2 104)%R.

Definition RO : Ops := {|
  car := R; c0 := 0%R; c1 := 1%R; c2 := 2%R; chalf := (/2)%R;
  cpi := PI; ceps := eps32; cmax := max32;
  oadd := Rplus; osub := Rminus; omul := Rmult; odiv := Rdiv;
  oneg := Ropp; oabs := Rabs; osqrt := R_sqrt.sqrt;
  osin := sin; ocos := cos; oacos := acos;
  olt := Rltb; ole := Rleb; oeq := Reqb;
  ofnat := INR |}.

(** ** Exact reals with a "not a finite number" value [None]: what f32 would compute
    without rounding and without distinguishing NaN from the infinities.  Division
    by zero, sqrt of a negative number and acos outside [-1,1] give [None]; [None]
    propagates, and every comparison with it is false (as for NaN).  Simplification:
    f32 yields an infinity for x/0 with x nonzero, and infinities do compare; the
    claims that depend on this are made about the f32 instance instead. *)
Definition X := option R.
Definition lift1 (f : R -> R) (x : X) : X :=
  match x with Some a => Some (f a) | None => None end.
Definition lift2 (f : R -> R -> R) (x y : X) : X :=
  match x, y with Some a, Some b => Some (f a b) | _, _ => None end.
Definition xcmp (f : R -> R -> bool) (x y : X) : bool :=
  match x, y with Some a, Some b => f a b | _, _ => false end.
Definition xdiv (x y : X) : X :=
  match x, y with
  | Some a, Some b => if Req_EM_T b 0 then None else Some (a / b)%R
  | _, _ => None
  end.
Definition xsqrt (x : X) : X :=
  match x with
  | Some a => if Rlt_dec a 0 then None else Some (R_sqrt.sqrt a)
  | None => None
  end.
Definition xacos (x : X) : X :=
  match x with
  | Some a => if Rlt_dec 1 (Rabs a) then None else Some (acos a)
  | None => None
  end.

Definition XO : Ops := {|
  car := X; c0 := Some 0%R; c1 := Some 1%R; c2 := Some 2%R; chalf := Some (/2)%R;
  cpi := Some PI; ceps := Some eps32; cmax := Some max32;
  oadd := lift2 Rplus; osub := lift2 Rminus; omul := lift2 Rmult; odiv := xdiv;
  oneg := lift1 Ropp; oabs := lift1 Rabs; osqrt := xsqrt;
  osin := lift1 sin; ocos := lift1 cos; oacos := xacos;
  olt := xcmp Rltb; ole := xcmp Rleb; oeq := xcmp Reqb;
  ofnat := fun n => Some (INR n) |}.

(** ** IEEE-754 binary32, round to nearest even (Flocq).  NaN payloads are not
    modelled (one NaN), which Rust does not specify either.  [libm] stands for the
    platform's sin/cos/acos, about which nothing is assumed. *)
Definition f32 := binary_float 24 128.

#[global] Instance prec32_gt_0 : Prec_gt_0 24 := eq_refl.
#[global] Instance prec32_lt_emax : Prec_lt_emax 24 128 := eq_refl.

Record Libm := mkLibm { lm_sin : f32 -> f32; lm_cos : f32 -> f32; lm_acos : f32 -> f32 }.

(** [m * 2^e] rounded to f32. *)
Definition f32_of (m e : Z) : f32 := binary_normalize 24 128 _ _ mode_NE m e false.
Definition f32_Z (z : Z) : f32 := f32_of z 0.

Definition FO (lm : Libm) : Ops := {|
  car := f32;
  c0 := f32_Z 0; c1 := f32_Z 1; c2 := f32_Z 2; chalf := f32_of 1 (-1);
  (* core::f32::consts::PI = 0x40490fdb = 13176795 * 2^-22 *)
  cpi := f32_of 13176795 (-22);
  ceps := f32_of 1 (-23); cmax := f32_of 16777215 104;
  oadd := Bplus mode_NE; osub := Bminus mode_NE;
  omul := Bmult mode_NE; odiv := Bdiv mode_NE;
  oneg := Bopp; oabs := Babs; osqrt := Bsqrt mode_NE;
  osin := lm_sin lm; ocos := lm_cos lm; oacos := lm_acos lm;
  olt := Bltb; ole := Bleb; oeq := Beqb;
  ofnat := fun n => f32_Z (Z.of_nat n) |}.

(** A panicking computation: [Ok v], or the thread panicked (state lost). *)
Inductive res (A : Type) : Type := Ok (a : A) | Panic.
Arguments Ok {A}. Arguments Panic {A}.
Definition bind {A B} (m : res A) (k : A -> res B) : res B :=
  match m with Ok a => k a | Panic => Panic end.
Notation "'let!' x := m 'in' k" := (bind m (fun x => k))
  (at level 200, x pattern, m at level 100, k at level 200).

(** [v[i]]: indexing a Vec panics out of bounds; [v.get(i).unwrap()] likewise. *)
Definition index {A} (l : list A) (i : nat) : res A :=
  match List.nth_error l i with Some a => Ok a | None => Panic end.
