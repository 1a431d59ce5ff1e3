(** * Properties: unit rotors and the rotations of space (C138). *)
From Coq Require Import List Bool Reals Lra Ring.
From Verif Require Import Scalar GA GASpec GARing GAReal SpinSpec Spin.
Import ListNotations.
Local Open Scope R_scope.

(** ** C138 *)

(** The maps that keep lengths, angles and handedness are those of [rotate] with unit
    rotors; two unit rotors rotate alike exactly if they are equal or opposite. *)
Theorem C138_rotations :
  (forall f, rotation f <-> exists r, unit_rotor r /\ forall u, f u = rot_rotate r u) /\
  (forall r s, unit_rotor r -> unit_rotor s ->
     ((forall u, rot_rotate r u = rot_rotate s u) <-> r = s \/ r = opposite s)).
Proof. exact (conj rotations_are_rotors same_rotation). Qed.
Print Assumptions C138_rotations.

(** Those that reverse handedness are [rotate] of the negated vector. *)
Theorem C138_improper :
  forall f, improper f <-> exists r, unit_rotor r /\ forall u, f u = rot_rotate r (vec_neg u).
Proof. exact improper_are_rotors. Qed.
Print Assumptions C138_improper.

(** Every unit rotor is made by from_angle_plane, and is the product of two unit vectors;
    it rotates as two calls of reflect do. *)
Theorem C138_constructions :
  forall r, unit_rotor r ->
  (exists t B, 0 <= t <= 2 * PI /\ unit_plane B /\
     rot_from_angle_plane (O := XO) (Some t) (xb B) = xr r) /\
  (exists v w, unit_vector v /\ unit_vector w /\ vec_mul (O := XO) (xv w) (xv v) = xr r /\
     forall u, xv (rot_rotate r u) = vec_reflect (O := XO) (vec_reflect (O := XO) (xv u) (xv v)) (xv w)).
Proof. exact x_constructions. Qed.
Print Assumptions C138_constructions.

(** Maps that keep lengths and angles are compatible with the vector operations, also
    where these have no finite value. *)
Theorem C138_operations :
  forall f, orthogonal f -> forall u v p : vec3,
  vec_dot (O := XO) (xv (f u)) (xv (f v)) = vec_dot (O := XO) (xv u) (xv v) /\
  vec_norm (O := XO) (xv (f u)) = vec_norm (O := XO) (xv u) /\
  vec_angle (O := XO) (xv (f u)) (xv (f v)) = vec_angle (O := XO) (xv u) (xv v) /\
  (vec_normalize (O := XO) (xv (f u)) = xv (f p) <-> vec_normalize (O := XO) (xv u) = xv p) /\
  (vec_inverse (O := XO) (xv (f u)) = xv (f p) <-> vec_inverse (O := XO) (xv u) = xv p) /\
  (vec_project (O := XO) (xv (f u)) (xv (f v)) = xv (f p) <-> vec_project (O := XO) (xv u) (xv v) = xv p) /\
  (vec_reflect (O := XO) (xv (f u)) (xv (f v)) = xv (f p) <-> vec_reflect (O := XO) (xv u) (xv v) = xv p).
Proof. exact orthogonal_operations. Qed.
Print Assumptions C138_operations.

(** from_vectors of rotated vectors is the conjugated rotor. *)
Theorem C138_from_vectors :
  forall r u v q, unit_rotor r ->
  (rot_from_vectors (O := XO) (xv (rot_rotate r u)) (xv (rot_rotate r v)) =
     xr (rot_mul (rot_mul r q) (rot_inverse r)) <->
   rot_from_vectors (O := XO) (xv u) (xv v) = xr q).
Proof. exact x_from_vectors_rotated. Qed.
Print Assumptions C138_from_vectors.

(** The cyclic exchange of the axes is a rotation, of the unit rotor (1 - e12 + e13 - e23)/2;
    the exchange of two axes is improper. *)
Example C138_example :
  rotation (fun u => V3 (a3 u) (a1 u) (a2 u)) /\
  improper (fun u => V3 (a2 u) (a1 u) (a3 u)) /\
  unit_rotor (Ro3 (1/2) (B3 (-1/2) (1/2) (-1/2))) /\
  forall u : vec3, rot_rotate (Ro3 (1/2) (B3 (-1/2) (1/2) (-1/2))) u = V3 (a3 u) (a1 u) (a2 u).
Proof.
  split; [|split; [|split]].
  - split; [intros [x y z] [x' y' z']; unfold dot3; simpl; ring|].
    intros [x y z] [x' y' z'] [x'' y'' z'']; unfold vol3; simpl; ring.
  - split; [intros [x y z] [x' y' z']; unfold dot3; simpl; ring|].
    intros [x y z] [x' y' z'] [x'' y'' z'']; unfold vol3; simpl; ring.
  - unfold unit_rotor. simpl. field.
  - intros [x y z]. ga. veq; field.
Qed.
