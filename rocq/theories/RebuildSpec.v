(** * Building a graph again from its nodes and edges (definitions only). *)
From Coq Require Import List Reals.
From Verif Require Import Scalar Utils Polygon Graph GraphSpec PlaneSpec PlanarSpec GridSpec MarginSpec.
Import ListNotations.

Section Spec.
Context {O : Ops} {T U : Type}.
Local Notation graph := (PlanarGraph O T U).

(** One add_node call for each node of [g] and one add_edge call for each of its edges, in
    the order of the slots. *)
Definition rebuild (g : graph) : list (@op O T U) :=
  map (fun n => OAddNode (position n) (ndata n)) (nodes g) ++
  map (fun e => OAddEdge (src e) (dst e) (edata e)) (edges g).

(** All labels are the default one. *)
Definition plain (g : graph) : Prop :=
  (forall n, In n (nodes g) -> nlabel n = DEFAULT_LABEL) /\ (forall e, In e (edges g) -> elabel e = DEFAULT_LABEL).
End Spec.

(** Every edge clears its way among those before it (MarginSpec.v). *)
Definition clear_ways {lm : Libm} {T U} (K dl : R) (g : PlanarGraph (FO lm) T U) : Prop :=
  forall i e, nth_error (edges g) i = Some e -> clear_way dl K (places g) (firstn i (edges g)) (src e) (dst e).
