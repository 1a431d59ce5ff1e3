(** * Graphs whose edges stand in other slots (definition only). *)
From Coq Require Import List Permutation.
From Verif Require Import Scalar Utils Graph.

(** The same nodes in the same slots; the same edges, in any order. *)
Definition shuffled {O : Ops} {T U : Type} (g h : PlanarGraph O T U) : Prop :=
  nodes h = nodes g /\ Permutation (edges g) (edges h).
