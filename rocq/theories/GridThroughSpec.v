(** * Histories that draw through existing nodes (definitions only). *)
From Coq Require Import Reals List.
From Verif Require Import Scalar Utils Graph GraphSpec PlaneSpec PlanarSpec GridSpec ThroughSpec.
Import ListNotations.
Local Open Scope R_scope.

(** Every node passed by the segment from node [s] to node [d] has exactly one edge. *)
Definition passes_ends {O : Ops} {T U} (g : PlanarGraph O T U) (ps : list point) (s d : nat) : Prop :=
  forall k, passes ps s d k -> degree g k = 1%nat.

(** Exact arithmetic: each added node has a good place; each requested edge exists
    already, has a missing end, or is unambiguous and passes only nodes with one edge. *)
Section Exact.
Context {T U : Type} (dT : T).
Definition neat_op (g : PlanarGraph XO T U) (o : @op XO T U) : Prop :=
  match o with
  | OAddNode pos _ => exists ps p, drawn g ps /\ pos = xp p /\ good_place ps (edges g) p
  | OAddEdge s d _ => s <> d /\
      (adjacent g s d \/ ~ (s < length (nodes g) /\ d < length (nodes g))%nat \/
       exists ps, drawn g ps /\ unambiguous ps (edges g) s d /\ passes_ends g ps s d)
  | _ => True
  end.
Fixpoint neat (g : PlanarGraph XO T U) (os : list (@op XO T U)) : Prop :=
  match os with
  | [] => True
  | o :: os' => neat_op g o /\ forall g', step dT g o = Ok g' -> neat g' os'
  end.
End Exact.

(** f32: the segment from node [s] to node [d] has at most one point in common with each
    edge, and that point is a node or on no other edge. *)
Section Grid.
Context {lm : Libm} {T U : Type} (dT : T).
Local Notation graph := (PlanarGraph (FO lm) T U).
Definition straight_path (g : graph) (s d : nat) : Prop :=
  let ps := places g in
  (forall e x y, In e (edges g) -> edge_on ps e x -> edge_on ps e y ->
     on_segment (pt ps s) (pt ps d) x -> on_segment (pt ps s) (pt ps d) y -> x = y) /\
  (forall i e x, nth_error (edges g) i = Some e -> edge_on ps e x -> on_segment (pt ps s) (pt ps d) x ->
     (exists k, (k < length ps)%nat /\ x = pt ps k) \/
     forall j f, j <> i -> nth_error (edges g) j = Some f -> ~ edge_on ps f x).
Definition straight_op (g : graph) (o : @op (FO lm) T U) : Prop :=
  match o with
  | OAddEdge s d _ => adjacent g s d \/ ~ (s < node_count g /\ d < node_count g)%nat \/
      (straight_path g s d /\ passes_ends g (places g) s d)
  | _ => True
  end.
Fixpoint straights (g : graph) (os : list (@op (FO lm) T U)) : Prop :=
  match os with
  | [] => True
  | o :: os' => straight_op g o /\ forall g', step dT g o = Ok g' -> straights g' os'
  end.
End Grid.
