(** * Vocabulary for polygon claims, independent of the model of polygon.rs. *)
From Coq Require Import Reals List Lra Lia Arith.
From Verif Require Import Scalar Utils PlaneSpec.
Import ListNotations.
Local Open Scope R_scope.

(** Shoelace sum along an open chain and around a closed one. *)
Fixpoint chain (l : list point) : R :=
  match l with
  | p :: ((q :: _) as l') => (vx p * vy q - vx q * vy p) + chain l'
  | _ => 0
  end.
Definition shoelace (vs : list point) : R :=
  match vs with [] => 0 | a :: _ => chain (vs ++ [a]) end.

(** The closed segments [p q] and [r s] have a common point. *)
Definition segments_meet (p q r s : point) : Prop :=
  exists x, on_segment p q x /\ on_segment r s x.

(** The open segments cross transversally. *)
Definition proper_crossing (p q r s : point) : Prop :=
  cross p q r s <> 0 /\
  exists t u, 0 < t < 1 /\ 0 < u < 1 /\ along p q t = along r s u.

(** Cyclic successor and predecessor of an index, and the vertex at an index. *)
Definition nxt (n i : nat) : nat := if Nat.eqb (S i) n then 0%nat else S i.
Definition prv (n i : nat) : nat := match i with 0%nat => (n - 1)%nat | S j => j end.
Definition vtx (vs : list point) (i : nat) : point := nth i vs (P2 0 0).

(** Every three vertices in index order turn left. *)
Definition strictly_convex (vs : list point) : Prop :=
  forall i j k, (i < j < k)%nat -> (k < length vs)%nat ->
    0 < cross (vtx vs i) (vtx vs j) (vtx vs i) (vtx vs k).

(** Linear combination a + l (p - a) + m (q - a). *)
Definition combo (a p q : point) (l m : R) : point :=
  P2 (vx a + l * (vx p - vx a) + m * (vx q - vx a))
     (vy a + l * (vy p - vy a) + m * (vy q - vy a)).

(** The directions from [a] strictly between those of [a1] and [a0], counterclockwise:
    the interior angle at [a] of a polygon with ... a0, a, a1 ... in CCW order. *)
Definition interior_angle (a0 a a1 b : point) : Prop :=
  let turn := cross a a1 a a0 in
  (0 < turn /\ exists l m, 0 < l /\ 0 < m /\ b = combo a a1 a0 l m) \/
  (turn < 0 /\ ~ exists l m, 0 <= l /\ 0 <= m /\ b = combo a a1 a0 l m) \/
  (turn = 0 /\ 0 < cross a b a a0 /\ 0 < cross a a1 a b).

(** Real points are points of the exact-arithmetic instance of the model. *)
Canonical RO.
