(** * When two graphs are the same drawing, orders of drawing, total length (definitions
    only). *)
From Coq Require Import Reals List Permutation.
From Verif Require Import Scalar Utils Graph GraphSpec PlaneSpec PlanarSpec.
Import ListNotations.
Local Open Scope R_scope.

Section Drawings.
Context {U V : Type}.

(** The two edges have the same end points, in either direction. *)
Definition same_ends (ps : list point) (e : Edge U) (qs : list point) (f : Edge V) : Prop :=
  (pt ps (src e) = pt qs (src f) /\ pt ps (dst e) = pt qs (dst f)) \/
  (pt ps (src e) = pt qs (dst f) /\ pt ps (dst e) = pt qs (src f)).

(** The same node positions, as many nodes and edges, and each edge of one drawing is an
    edge of the other (up to numbering and direction). *)
Definition same_drawing (ps : list point) (es : list (Edge U)) (qs : list point) (fs : list (Edge V)) : Prop :=
  (forall x, In x ps <-> In x qs) /\ length ps = length qs /\ length es = length fs /\
  (forall e, In e es -> exists f, In f fs /\ same_ends ps e qs f) /\
  (forall f, In f fs -> exists e, In e es /\ same_ends ps e qs f).
End Drawings.

(** Different nodes at different points, edges between different stored nodes, no node on
    an edge it is not an end of, edges meeting only in common ends. *)
Definition plane_drawing {U} (ps : list point) (es : list (Edge U)) : Prop :=
  NoDup ps /\
  (forall e, In e es -> src e <> dst e /\ (src e < length ps)%nat /\ (dst e < length ps)%nat) /\
  planar_drawing (pt ps) (length ps) es.

(** The sum of the lengths of the edges. *)
Definition total_length {U} (ps : list point) (es : list (Edge U)) : R :=
  fold_right Rplus 0 (map (fun e => dist (pt ps (src e)) (pt ps (dst e))) es).

Section Draws.
Context {T U : Type} (dT : T).
Local Notation graph := (PlanarGraph XO T U).

(** [g'] results from [g] by the calls add_edge(s, d, u), for (s, d, u) in the list, each
    of which joins two different nodes that are not joined yet by a segment in general
    position. *)
Inductive draws : graph -> list (nat * nat * U) -> graph -> Prop :=
| draws_nil : forall g, draws g [] g
| draws_cons : forall g ps s d u l g1 r g2, drawn g ps -> s <> d -> ~ adjacent g s d ->
    general_position ps (edges g) s d -> add_edge dT g s d u = Ok (g1, r) ->
    draws g1 l g2 -> draws g ((s, d, u) :: l) g2.
End Draws.
