(** * Sequences of removals (definitions only). *)
From Coq Require Import List Arith Bool Permutation.
From Verif Require Import Scalar Utils Polygon Graph ListSpec GraphSpec.
Import ListNotations.

Section Spec.
Context {O : Ops} {T U : Type}.
Local Notation graph := (PlanarGraph O T U).
Local Notation edge := (Edge U).

(** [g'] is what is left of [g] when only the edges [survivors] stay: the nodes that lost
    all their edges are gone, and only those. *)
Definition leaves (g : graph) (survivors : list edge) (g' : graph) : Prop :=
  exists keep, restricts keep g g' (fun i => 0 < degree g i /\ degree_in survivors i = 0) survivors.

(** The node slots that stay when the edge [e] is taken out of [g], in order. *)
Definition kept (g : graph) (e : edge) : list nat :=
  filter (fun i => negb (touchesb i e && Nat.eqb (degree g i) 1)) (seq 0 (List.length (nodes g))).

(** Calls of remove_edge, one for each of the edges of the list, lead from [g] to [g'].
    The edges are those of [g]; a call names the slot where the edge is then. *)
Inductive removals : graph -> list edge -> graph -> Prop :=
| removals_nil : forall g, removals g [] g
| removals_cons : forall g i e r g1 es1 es g',
    nth_error (edges g) i = Some e -> remove_edge g i = Ok (g1, r) ->
    List.Forall2 (same_edge_via (kept g e)) es1 es -> removals g1 es1 g' ->
    removals g (e :: es) g'.

(** Only removals. *)
Definition removal (o : @op O T U) : Prop :=
  match o with ORemoveNode _ | ORemoveEdge _ => True | _ => False end.
Definition edge_removal (o : @op O T U) : Prop :=
  match o with ORemoveEdge _ => True | _ => False end.

(** Same nodes in the same slots, same edges in some order of slots. *)
Definition same_but_order (g g' : graph) : Prop := nodes g = nodes g' /\ Permutation (edges g) (edges g').
End Spec.
