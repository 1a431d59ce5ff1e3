(** * Model of src/math/{vector,bivector,trivector,rotor}.rs (no proofs here).

    The Rust types are generic over the scalar [T]; here they are records over any
    type, and the operations take an [Ops].  Trait bounds are not modelled. *)
From Verif Require Import Scalar.
From Coq Require Import Bool.

(** src/math/vector.rs:11-21 *)
Record Vector3 (A : Type) := V3 { a1 : A; a2 : A; a3 : A }.
(** src/math/bivector.rs:14-24: components on e12, e13, e23 *)
Record Bivector3 (A : Type) := B3 { b1 : A; b2 : A; b3 : A }.
(** src/math/trivector.rs:15-19 *)
Record Trivector3 (A : Type) := T3 { t1 : A }.
(** src/math/rotor.rs:18-22 *)
Record Rotor3 (A : Type) := Ro3 { scalar : A; bivector : Bivector3 A }.
Arguments V3 {A}. Arguments a1 {A}. Arguments a2 {A}. Arguments a3 {A}.
Arguments B3 {A}. Arguments b1 {A}. Arguments b2 {A}. Arguments b3 {A}.
Arguments T3 {A}. Arguments t1 {A}.
Arguments Ro3 {A}. Arguments scalar {A}. Arguments bivector {A}.

Section GA.
Context {O : Ops}.
Local Open Scope ops_scope.
Local Notation vec := (Vector3 O).
Local Notation biv := (Bivector3 O).
Local Notation tri := (Trivector3 O).
Local Notation rot := (Rotor3 O).

(** ** src/math/vector.rs *)

(** vector.rs:35-47 unit_x, unit_y, unit_z *)
Definition vec_unit_x : vec := V3 c1 c0 c0.
Definition vec_unit_y : vec := V3 c0 c1 c0.
Definition vec_unit_z : vec := V3 c0 c0 c1.

(** vector.rs:61-63 Contraction::dot *)
Definition vec_dot (s r : vec) : O := a1 s * a1 r + a2 s * a2 r + a3 s * a3 r.

(** vector.rs:89-95 Exterior::wedge *)
Definition vec_wedge (s r : vec) : biv :=
  B3 (a1 s * a2 r - a2 s * a1 r)
     (a1 s * a3 r - a3 s * a1 r)
     (a2 s * a3 r - a3 s * a2 r).

(** vector.rs:211-213 Div<T> *)
Definition vec_div (s : vec) (k : O) : vec := V3 (a1 s / k) (a2 s / k) (a3 s / k).
(** vector.rs:222-226 DivAssign<T> *)
Definition vec_div_assign (s : vec) (k : O) : vec :=
  let s := V3 (a1 s / k) (a2 s) (a3 s) in
  let s := V3 (a1 s) (a2 s / k) (a3 s) in
  V3 (a1 s) (a2 s) (a3 s / k).

(** vector.rs:112-114 norm_squared *)
Definition vec_norm_squared (s : vec) : O := vec_dot s s.
(** vector.rs:106-108 norm *)
Definition vec_norm (s : vec) : O := osqrt (vec_norm_squared s).
(** vector.rs:119-121 normalize *)
Definition vec_normalize (s : vec) : vec := vec_div s (vec_norm s).
(** vector.rs:125-127 inverse *)
Definition vec_inverse (s : vec) : vec := vec_div s (vec_norm_squared s).

(** vector.rs:137-141 angle *)
Definition vec_angle (s r : vec) : O :=
  oacos (vec_dot (vec_normalize s) (vec_normalize r)).

(** vector.rs:185-187 Add *)
Definition vec_add (s r : vec) : vec := V3 (a1 s + a1 r) (a2 s + a2 r) (a3 s + a3 r).
(** vector.rs:196-200 AddAssign *)
Definition vec_add_assign (s r : vec) : vec :=
  let s := V3 (a1 s + a1 r) (a2 s) (a3 s) in
  let s := V3 (a1 s) (a2 s + a2 r) (a3 s) in
  V3 (a1 s) (a2 s) (a3 s + a3 r).
(** vector.rs:250-252 Mul<T> *)
Definition vec_scale (s : vec) (k : O) : vec := V3 (a1 s * k) (a2 s * k) (a3 s * k).
(** vector.rs:261-265 MulAssign<T> *)
Definition vec_scale_assign (s : vec) (k : O) : vec :=
  let s := V3 (a1 s * k) (a2 s) (a3 s) in
  let s := V3 (a1 s) (a2 s * k) (a3 s) in
  V3 (a1 s) (a2 s) (a3 s * k).
(** vector.rs:301-303 Neg *)
Definition vec_neg (s : vec) : vec := V3 (- a1 s) (- a2 s) (- a3 s).
(** vector.rs:314-316 Sub *)
Definition vec_sub (s r : vec) : vec := V3 (a1 s - a1 r) (a2 s - a2 r) (a3 s - a3 r).
(** vector.rs:325-329 SubAssign *)
Definition vec_sub_assign (s r : vec) : vec :=
  let s := V3 (a1 s - a1 r) (a2 s) (a3 s) in
  let s := V3 (a1 s) (a2 s - a2 r) (a3 s) in
  V3 (a1 s) (a2 s) (a3 s - a3 r).
(** vector.rs:338-340 Zero::zero *)
Definition vec_zero : vec := V3 c0 c0 c0.
(** num_traits' [is_zero] of a float is [self == 0.0]. *)
Definition sc_is_zero (x : O) : bool := x =? c0.
(** vector.rs:343-345 is_zero *)
Definition vec_is_zero (s : vec) : bool :=
  sc_is_zero (a1 s) && sc_is_zero (a2 s) && sc_is_zero (a3 s).

(** vector.rs:237-239 Mul (geometric product) *)
Definition vec_mul (s r : vec) : rot := Ro3 (vec_dot s r) (vec_wedge s r).

(** vector.rs:278-290 Mul<Bivector3> *)
Definition vec_mul_biv (s : vec) (r : biv) : vec * tri :=
  (V3 (- a2 s * b1 r - a3 s * b2 r)
      (a1 s * b1 r - a3 s * b3 r)
      (a1 s * b2 r + a2 s * b3 r),
   T3 (a1 s * b3 r - a2 s * b2 r + a3 s * b1 r)).

(** vector.rs:151-155 project *)
Definition vec_project (s r : vec) : vec := vec_scale (vec_inverse r) (vec_dot s r).

(** ** src/math/bivector.rs *)

(** bivector.rs:38-50 *)
Definition biv_unit_xy : biv := B3 c1 c0 c0.
Definition biv_unit_xz : biv := B3 c0 c1 c0.
Definition biv_unit_yz : biv := B3 c0 c0 c1.
(** bivector.rs:66-68 dot *)
Definition biv_dot (s r : biv) : O := - (b1 s * b1 r + b2 s * b2 r + b3 s * b3 r).
(** bivector.rs:78-84 Exterior::wedge with another bivector *)
Definition biv_wedge (s r : biv) : biv :=
  B3 (b3 s * b2 r - b2 s * b3 r)
     (b1 s * b3 r - b3 s * b1 r)
     (b2 s * b1 r - b1 s * b2 r).
(** bivector.rs:108-110 Exterior<Vector3>::wedge *)
Definition biv_wedge_vec (s : biv) (r : vec) : tri :=
  T3 (b3 s * a1 r - b2 s * a2 r + b1 s * a3 r).
(** bivector.rs:259-261 Neg *)
Definition biv_neg (s : biv) : biv := B3 (- b1 s) (- b2 s) (- b3 s).
(** bivector.rs:181-183 Div<T> *)
Definition biv_div (s : biv) (k : O) : biv := B3 (b1 s / k) (b2 s / k) (b3 s / k).
(** bivector.rs:192-196 DivAssign<T> *)
Definition biv_div_assign (s : biv) (k : O) : biv :=
  let s := B3 (b1 s / k) (b2 s) (b3 s) in
  let s := B3 (b1 s) (b2 s / k) (b3 s) in
  B3 (b1 s) (b2 s) (b3 s / k).
(** bivector.rs:128-130 norm_squared *)
Definition biv_norm_squared (s : biv) : O := biv_dot (biv_neg s) s.
(** bivector.rs:121-123 norm *)
Definition biv_norm (s : biv) : O := osqrt (biv_norm_squared s).
(** bivector.rs:135-137 normalize *)
Definition biv_normalize (s : biv) : biv := biv_div s (biv_norm s).
(** bivector.rs:141-143 inverse: [-self / self.norm_squared()] is [(-self) / ..] *)
Definition biv_inverse (s : biv) : biv := biv_div (biv_neg s) (biv_norm_squared s).
(** bivector.rs:155-157 Add *)
Definition biv_add (s r : biv) : biv := B3 (b1 s + b1 r) (b2 s + b2 r) (b3 s + b3 r).
(** bivector.rs:166-170 AddAssign *)
Definition biv_add_assign (s r : biv) : biv :=
  let s := B3 (b1 s + b1 r) (b2 s) (b3 s) in
  let s := B3 (b1 s) (b2 s + b2 r) (b3 s) in
  B3 (b1 s) (b2 s) (b3 s + b3 r).
(** bivector.rs:208-220 Mul (geometric product) *)
Definition biv_mul (s r : biv) : rot :=
  Ro3 (- (b1 s * b1 r + b2 s * b2 r + b3 s * b3 r))
      (B3 (b3 s * b2 r - b2 s * b3 r)
          (b1 s * b3 r - b3 s * b1 r)
          (b2 s * b1 r - b1 s * b2 r)).
(** bivector.rs:231-233 Mul<T> *)
Definition biv_scale (s : biv) (k : O) : biv := B3 (b1 s * k) (b2 s * k) (b3 s * k).
(** bivector.rs:242-246 MulAssign<T> *)
Definition biv_scale_assign (s : biv) (k : O) : biv :=
  let s := B3 (b1 s * k) (b2 s) (b3 s) in
  let s := B3 (b1 s) (b2 s * k) (b3 s) in
  B3 (b1 s) (b2 s) (b3 s * k).
(** bivector.rs:273-275 Sub *)
Definition biv_sub (s r : biv) : biv := B3 (b1 s - b1 r) (b2 s - b2 r) (b3 s - b3 r).
(** bivector.rs:284-288 SubAssign *)
Definition biv_sub_assign (s r : biv) : biv :=
  let s := B3 (b1 s - b1 r) (b2 s) (b3 s) in
  let s := B3 (b1 s) (b2 s - b2 r) (b3 s) in
  B3 (b1 s) (b2 s) (b3 s - b3 r).
(** bivector.rs:297-299 Zero *)
Definition biv_zero : biv := B3 c0 c0 c0.
(** bivector.rs:302-304 is_zero *)
Definition biv_is_zero (s : biv) : bool :=
  sc_is_zero (b1 s) && sc_is_zero (b2 s) && sc_is_zero (b3 s).

(** ** src/math/trivector.rs *)

(** trivector.rs:32-34 *)
Definition tri_unit_xyz : tri := T3 c1.
(** trivector.rs:49-51 dot: [-self.t1 * rhs.t1] is [(-self.t1) * rhs.t1] *)
Definition tri_dot (s r : tri) : O := - t1 s * t1 r.
(** trivector.rs:63-65 wedge *)
Definition tri_wedge (s r : tri) : O := c0.
(** trivector.rs:186-188 Neg *)
Definition tri_neg (s : tri) : tri := T3 (- t1 s).
(** trivector.rs:136-138 Div<T> *)
Definition tri_div (s : tri) (k : O) : tri := T3 (t1 s / k).
(** trivector.rs:147-149 DivAssign<T> *)
Definition tri_div_assign (s : tri) (k : O) : tri := T3 (t1 s / k).
(** trivector.rs:83-85 norm_squared *)
Definition tri_norm_squared (s : tri) : O := tri_dot (tri_neg s) s.
(** trivector.rs:76-78 norm *)
Definition tri_norm (s : tri) : O := osqrt (tri_norm_squared s).
(** trivector.rs:90-92 normalize *)
Definition tri_normalize (s : tri) : tri := tri_div s (tri_norm s).
(** trivector.rs:97-99 inverse *)
Definition tri_inverse (s : tri) : tri := tri_div (tri_neg s) (tri_norm_squared s).
(** trivector.rs:110-114 Add *)
Definition tri_add (s r : tri) : tri := T3 (t1 s + t1 r).
(** trivector.rs:123-125 AddAssign *)
Definition tri_add_assign (s r : tri) : tri := T3 (t1 s + t1 r).
(** trivector.rs:161-163 Mul (geometric product) *)
Definition tri_mul (s r : tri) : O := - t1 s * t1 r.
(** trivector.rs:172-174 MulAssign<T> *)
Definition tri_scale_assign (s : tri) (k : O) : tri := T3 (t1 s * k).
(** trivector.rs:200-202 Sub *)
Definition tri_sub (s r : tri) : tri := T3 (t1 s - t1 r).
(** trivector.rs:211-213 SubAssign *)
Definition tri_sub_assign (s r : tri) : tri := T3 (t1 s - t1 r).
(** trivector.rs:219-221 Zero *)
Definition tri_zero : tri := T3 c0.
(** trivector.rs:224-226 is_zero *)
Definition tri_is_zero (s : tri) : bool := sc_is_zero (t1 s).

(** ** src/math/rotor.rs *)

(** rotor.rs:32-37 identity *)
Definition rot_identity : rot := Ro3 c1 biv_zero.
(** rotor.rs:118-120 dot *)
Definition rot_dot (s r : rot) : O := scalar s * scalar r + biv_dot (bivector s) (bivector r).
(** rotor.rs:159-161 inverse *)
Definition rot_inverse (s : rot) : rot := Ro3 (scalar s) (biv_neg (bivector s)).
(** rotor.rs:139-141 norm_squared *)
Definition rot_norm_squared (s : rot) : O := rot_dot (rot_inverse s) s.
(** rotor.rs:132-134 norm *)
Definition rot_norm (s : rot) : O := osqrt (rot_norm_squared s).
(** rotor.rs:241-243 Div<T> *)
Definition rot_div (s : rot) (k : O) : rot := Ro3 (scalar s / k) (biv_div (bivector s) k).
(** rotor.rs:252-255 DivAssign<T> *)
Definition rot_div_assign (s : rot) (k : O) : rot :=
  let s := Ro3 (scalar s / k) (bivector s) in
  Ro3 (scalar s) (biv_div_assign (bivector s) k).
(** rotor.rs:145-147 normalize *)
Definition rot_normalize (s : rot) : rot := rot_div s (rot_norm s).

(** rotor.rs:57-77 from_vectors *)
Definition rot_from_vectors (u v : vec) : rot :=
  rot_normalize (Ro3 (c1 + vec_dot v u) (vec_wedge v u)).

(** rotor.rs:87-91 from_angle_plane *)
Definition rot_from_angle_plane (angle : O) (plane : biv) : rot :=
  let sin := osin (angle / c2) in
  let cos := ocos (angle / c2) in
  Ro3 cos (biv_scale plane (- sin)).
(** rotor.rs:94-106 *)
Definition rot_from_xy_rotation (angle : O) : rot := rot_from_angle_plane angle biv_unit_xy.
Definition rot_from_xz_rotation (angle : O) : rot := rot_from_angle_plane angle biv_unit_xz.
Definition rot_from_yz_rotation (angle : O) : rot := rot_from_angle_plane angle biv_unit_yz.

(** rotor.rs:169-204 rotate *)
Definition rot_rotate (s : rot) (u : vec) : vec :=
  let a := scalar s in
  let b1 := b1 (bivector s) in
  let b2 := b2 (bivector s) in
  let b3 := b3 (bivector s) in
  let u1 := a1 u in
  let u2 := a2 u in
  let u3 := a3 u in
  let q := V3 (a * u1 + b1 * u2 + b2 * u3)
              (a * u2 - b1 * u1 + b3 * u3)
              (a * u3 - b2 * u1 - b3 * u2) in
  let q123 := - b1 * u3 + b2 * u2 - b3 * u1 in
  let q1 := a1 q in
  let q2 := a2 q in
  let q3 := a3 q in
  let y := q123 in
  V3 (a * q1 + q2 * b1 + q3 * b2 - y * b3)
     (a * q2 - q1 * b1 + y * b2 + q3 * b3)
     (a * q3 - y * b1 - q1 * b2 - q2 * b3).

(** rotor.rs:216-218 Add *)
Definition rot_add (s r : rot) : rot :=
  Ro3 (scalar s + scalar r) (biv_add (bivector s) (bivector r)).
(** rotor.rs:227-230 AddAssign *)
Definition rot_add_assign (s r : rot) : rot :=
  let s := Ro3 (scalar s + scalar r) (bivector s) in
  Ro3 (scalar s) (biv_add_assign (bivector s) (bivector r)).

(** rotor.rs:269-291 Mul (geometric product) *)
Definition rot_mul (s r : rot) : rot :=
  let sb := bivector s in
  let rb := bivector r in
  Ro3 (scalar s * scalar r - b1 sb * b1 rb - b2 sb * b2 rb - b3 sb * b3 rb)
      (B3 (scalar s * b1 rb + scalar r * b1 sb - b2 sb * b3 rb + b3 sb * b2 rb)
          (scalar s * b2 rb + scalar r * b2 sb + b1 sb * b3 rb - b3 sb * b1 rb)
          (scalar s * b3 rb + scalar r * b3 sb - b1 sb * b2 rb + b2 sb * b1 rb)).

(** rotor.rs:302-304 Mul<T> *)
Definition rot_scale (s : rot) (k : O) : rot := Ro3 (scalar s * k) (biv_scale (bivector s) k).
(** rotor.rs:313-316 MulAssign<T> *)
Definition rot_scale_assign (s : rot) (k : O) : rot :=
  let s := Ro3 (scalar s * k) (bivector s) in
  Ro3 (scalar s) (biv_scale_assign (bivector s) k).

(** rotor.rs:328-340 Mul<Vector3> *)
Definition rot_mul_vec (s : rot) (r : vec) : vec * tri :=
  let sb := bivector s in
  (V3 (scalar s * a1 r + b1 sb * a2 r + b2 sb * a3 r)
      (scalar s * a2 r - b1 sb * a1 r + b3 sb * a3 r)
      (scalar s * a3 r - b2 sb * a1 r - b3 sb * a2 r),
   T3 (b1 sb * a3 r - b2 sb * a2 r + b3 sb * a1 r)).

(** rotor.rs:353-355 Neg *)
Definition rot_neg (s : rot) : rot := Ro3 (- scalar s) (biv_neg (bivector s)).
(** rotor.rs:367-369 Sub *)
Definition rot_sub (s r : rot) : rot :=
  Ro3 (scalar s - scalar r) (biv_sub (bivector s) (bivector r)).
(** rotor.rs:378-381 SubAssign *)
Definition rot_sub_assign (s r : rot) : rot :=
  let s := Ro3 (scalar s - scalar r) (bivector s) in
  Ro3 (scalar s) (biv_sub_assign (bivector s) (bivector r)).

(** vector.rs:164-174 reflect: vector and (discarded) trivector part of v⁻¹ u v *)
Definition vec_reflect_parts (s r : vec) : vec * tri :=
  let rotor := vec_mul (vec_inverse r) s in
  rot_mul_vec rotor r.
Definition vec_reflect (s r : vec) : vec := fst (vec_reflect_parts s r).

End GA.
