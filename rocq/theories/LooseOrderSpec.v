(** * Additions in a different order, with edges that may run through nodes (definitions
    only). *)
From Coq Require Import Reals List Permutation.
From Verif Require Import Scalar Utils Graph GraphSpec PlaneSpec PlanarSpec ThroughSpec AnyOrderSpec.
Import ListNotations.

(** The same segment, from either end. *)
Definition same_line (c c' : point * point) : Prop := c = c' \/ c = (snd c', fst c').
(** The same nodes, and the same segments in any order and each from either end. *)
Definition redrawn (l l' : list stroke) : Prop :=
  (forall x, dotted l x <-> dotted l' x) /\
  exists m, Permutation (lines l) m /\ Forall2 same_line m (lines l').

Section Count.
Context {U : Type} (ps : list point).
(** The edge runs through [n] nodes. *)
Definition runs_through (e : Edge U) (n : nat) : Prop :=
  exists l, NoDup l /\ length l = n /\ forall k, In k l <-> (k < length ps)%nat /\ crosses_node ps k e.
(** There are [n] pairs of an edge and a node it runs through. *)
Inductive passings : list (Edge U) -> nat -> Prop :=
| passings_nil : passings [] 0
| passings_cons : forall e n es m, runs_through e n -> passings es m -> passings (e :: es) (n + m).
End Count.
