(** * Graphs with other data and labels (definitions only). *)
From Coq Require Import List String.
From Verif Require Import Scalar Utils Graph.
Import ListNotations.

(** Apply a function to the result of a call that may panic. *)
Definition onok {A B} (f : A -> B) (r : res A) : res B := match r with Ok a => Ok (f a) | Panic => Panic end.

Section Any.
Context {O : Ops} {T U T' U' : Type} (ft : T -> T') (fu : U -> U') (fn fe : string -> string).
(** Other data and labels, the same places and ends. *)
Definition dress_node (n : Node O T) : Node O T' := MkNode (position n) (ft (ndata n)) (fn (nlabel n)).
Definition dress_edge (e : Edge U) : Edge U' := MkEdge (src e) (dst e) (fu (edata e)) (fe (elabel e)).
Definition dress (g : PlanarGraph O T U) : PlanarGraph O T' U' := MkGraph (map dress_node (nodes g)) (map dress_edge (edges g)).
(** Other data in the calls. *)
Definition dress_op (o : @op O T U) : @op O T' U' :=
  match o with
  | OAddNode p v => OAddNode p (ft v)
  | OAddEdge s d u => OAddEdge s d (fu u)
  | ORemoveNode i => ORemoveNode i
  | ORemoveEdge i => ORemoveEdge i
  end.
(** A graph and a report. *)
Definition dress_with {R} (x : PlanarGraph O T U * R) : PlanarGraph O T' U' * R := (dress (fst x), snd x).
End Any.
