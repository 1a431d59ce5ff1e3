(** * What a history of additions asks for (definitions only). *)
From Coq Require Import Reals List Permutation.
From Verif Require Import Scalar Utils Graph GraphSpec PlaneSpec PlanarSpec GridSpec.
Import ListNotations.

(** A node at a point, or the segment between two points. *)
Inductive stroke := Dot (x : point) | Line (a b : point).

Definition dotted (l : list stroke) (x : point) : Prop := In (Dot x) l.
Fixpoint lines (l : list stroke) : list (point * point) :=
  match l with [] => [] | Dot _ :: l' => lines l' | Line a b :: l' => (a, b) :: lines l' end.
(** The same nodes, and the same segments in any order. *)
Definition same_strokes (l l' : list stroke) : Prop :=
  (forall x, dotted l x <-> dotted l' x) /\ Permutation (lines l) (lines l').

Section Asks.
Context {O : Ops} {T U : Type} (dT : T) (placed : PlanarGraph O T U -> list point -> Prop).
Local Notation graph := (PlanarGraph O T U).

(** The calls [os] lead from [g] to the last graph, and ask for the strokes of the list: an
    add_node call for the node it returns, an add_edge call between stored nodes that are
    not joined yet for the segment between them; other add_edge calls (which change
    nothing) for nothing.  [placed g ps]: the nodes of [g] are at the points [ps]. *)
Inductive asks : graph -> list (@op O T U) -> list stroke -> graph -> Prop :=
| asks_nil : forall g, asks g [] [] g
| asks_node : forall g p dat g1 i ces ps os l g2,
    add_node g p dat = Ok (g1, (i, ces)) -> placed g1 ps -> asks g1 os l g2 ->
    asks g (OAddNode p dat :: os) (Dot (pt ps i) :: l) g2
| asks_edge : forall g s d u g1 r ps os l g2,
    ~ adjacent g s d -> (s < length (nodes g))%nat -> (d < length (nodes g))%nat ->
    add_edge dT g s d u = Ok (g1, r) -> placed g ps -> asks g1 os l g2 ->
    asks g (OAddEdge s d u :: os) (Line (pt ps s) (pt ps d) :: l) g2
| asks_none : forall g s d u g1 r os l g2,
    adjacent g s d \/ ~ (s < length (nodes g) /\ d < length (nodes g))%nat ->
    add_edge dT g s d u = Ok (g1, r) -> asks g1 os l g2 ->
    asks g (OAddEdge s d u :: os) l g2.
End Asks.

(** In f32 the nodes are at the real values of their coordinates. *)
Definition placed_f32 {lm : Libm} {T U} (g : PlanarGraph (FO lm) T U) (ps : list point) : Prop := ps = places g.
