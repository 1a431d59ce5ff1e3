(** * Graphs with other nodes and the same edges (definitions only). *)
From Coq Require Import List String.
From Verif Require Import Scalar Utils Graph CarrySpec.
Import ListNotations.

Section Any.
Context {O O' : Ops} {T U T' U' : Type} (f : Node O T -> Node O' T') (fu : U -> U') (fe : string -> string).
(** Every node replaced: other places, possibly in another arithmetic, data and labels;
    other data and labels on the edges, which keep their ends. *)
Definition regard (g : PlanarGraph O T U) : PlanarGraph O' T' U' :=
  MkGraph (map f (nodes g)) (map (dress_edge fu fe) (edges g)).
Definition regard_with {R} (x : PlanarGraph O T U * R) : PlanarGraph O' T' U' * R := (regard (fst x), snd x).
End Any.

(** A removing call, and the same call for another kind of graph. *)
Inductive removal := TakeNode (i : nat) | TakeEdge (i : nat).
Definition as_op {O : Ops} {T U : Type} (r : removal) : @op O T U :=
  match r with TakeNode i => ORemoveNode i | TakeEdge i => ORemoveEdge i end.
