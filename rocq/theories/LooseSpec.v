(** * Drawings in which edges may run through nodes, in exact arithmetic (definitions only). *)
From Coq Require Import Reals List.
From Verif Require Import Scalar Utils Graph GraphSpec PlaneSpec PlanarSpec ThroughSpec.
Import ListNotations.
Local Open Scope R_scope.

(** As [well_drawn], but edges may run through nodes: a node in the needle of an edge lies
    on the edge, and wherever two edges meet there is a node. *)
Definition loosely_drawn {U} (ps : list point) (es : list (Edge U)) : Prop :=
  (forall e, In e es -> src e <> dst e /\ (src e < length ps)%nat /\ (dst e < length ps)%nat) /\
  (forall i j, (i < length ps)%nat -> (j < length ps)%nat -> i <> j ->
     eps32 < dist (pt ps i) (pt ps j)) /\
  (forall k e, (k < length ps)%nat -> In e es -> edge_near ps e (pt ps k) -> edge_on ps e (pt ps k)) /\
  (forall i j e f x, i <> j -> nth_error es i = Some e -> nth_error es j = Some f ->
     edge_on ps e x -> edge_on ps f x -> exists k, (k < length ps)%nat /\ x = pt ps k).

(** Some edge runs through node [k]. *)
Definition crossed {U} (ps : list point) (es : list (Edge U)) (k : nat) : Prop :=
  (k < length ps)%nat /\ exists e, In e es /\ crosses_node ps k e.

(** Node [k] is on the segment from node [s] to node [d], and on exactly one edge that is
    not parallel to it. *)
Definition meets_once {U} (ps : list point) (es : list (Edge U)) (s d k : nat) : Prop :=
  on_segment (pt ps s) (pt ps d) (pt ps k) /\
  exists i e, nth_error es i = Some e /\ edge_on ps e (pt ps k) /\ askew ps s d e /\
    forall j f, nth_error es j = Some f -> edge_on ps f (pt ps k) -> askew ps s d f -> j = i.

(** An edge runs through node [k], and edges through it go in three different directions. *)
Definition knotted {U} (ps : list point) (es : list (Edge U)) (k : nat) : Prop :=
  crossed ps es k /\
  exists a1 b1 a2 b2 a3 b3, cross a1 b1 a2 b2 <> 0 /\ cross a1 b1 a3 b3 <> 0 /\ cross a2 b2 a3 b3 <> 0 /\
    heads ps es (pt ps k) a1 b1 /\ heads ps es (pt ps k) a2 b2 /\ heads ps es (pt ps k) a3 b3.

(** Additions without near misses and overlaps; edges may pass through any nodes. *)
Section Histories.
Context {T U : Type} (dT : T).
Definition loose_op (g : PlanarGraph XO T U) (o : @op XO T U) : Prop :=
  match o with
  | OAddNode pos _ => exists ps p, drawn g ps /\ pos = xp p /\ good_place ps (edges g) p
  | OAddEdge s d _ => s <> d /\
      (adjacent g s d \/ ~ (s < length (nodes g) /\ d < length (nodes g))%nat \/
       exists ps, drawn g ps /\ unambiguous ps (edges g) s d)
  | _ => False
  end.
Fixpoint loose (g : PlanarGraph XO T U) (os : list (@op XO T U)) : Prop :=
  match os with
  | [] => True
  | o :: os' => loose_op g o /\ forall g', step dT g o = Ok g' -> loose g' os'
  end.
End Histories.
