(** * Graphs whose edges point the other way (definitions only). *)
From Coq Require Import List Permutation Arith.
From Verif Require Import Scalar Utils Graph.

Definition turned {U : Type} (e : Edge U) : Edge U := MkEdge (dst e) (src e) (edata e) (elabel e).
(** The direction from the smaller to the larger slot. *)
Definition upward {U : Type} (e : Edge U) : Edge U := if src e <=? dst e then e else turned e.
(** The same nodes in the same slots; the same edges, in any order and direction. *)
Definition alike {O : Ops} {T U : Type} (g h : PlanarGraph O T U) : Prop :=
  nodes h = nodes g /\ Permutation (map upward (edges g)) (map upward (edges h)).
