(** * Segments through existing nodes, in exact arithmetic (definitions only). *)
From Coq Require Import Reals List Permutation.
From Verif Require Import Scalar Utils Graph GraphSpec PlaneSpec PlanarSpec.
Local Open Scope R_scope.

(** The segment from node [s] to node [d] passes through node [k]. *)
Definition passes (ps : list point) (s d k : nat) : Prop :=
  (k < length ps)%nat /\ k <> s /\ k <> d /\ on_segment (pt ps s) (pt ps d) (pt ps k).

(** Node [k] lies on the edge [e] without being an end of it. *)
Definition crosses_node {U} (ps : list point) (k : nat) (e : Edge U) : Prop :=
  ~ touches k e /\ edge_on ps e (pt ps k).

(** The segment from node [s] to node [d] is unambiguous, though it may pass through
    nodes: a node in its needle lies on it; it overlaps no edge; where it meets an edge
    outside the nodes, the meeting point is away from the nodes and the other edges; and
    different meeting points are away from each other. *)
Definition unambiguous {U} (ps : list point) (es : list (Edge U)) (s d : nat) : Prop :=
  (forall k, (k < length ps)%nat -> k <> s -> k <> d ->
     near (pt ps s) (pt ps d) (pt ps k) -> on_segment (pt ps s) (pt ps d) (pt ps k)) /\
  (forall e x y, In e es -> edge_on ps e x -> edge_on ps e y ->
     on_segment (pt ps s) (pt ps d) x -> on_segment (pt ps s) (pt ps d) y -> x = y) /\
  (forall i e x, nth_error es i = Some e -> edge_on ps e x -> on_segment (pt ps s) (pt ps d) x ->
     (exists k, (k < length ps)%nat /\ x = pt ps k) \/
     ((forall k, (k < length ps)%nat -> eps32 < dist x (pt ps k)) /\
      forall j f, j <> i -> nth_error es j = Some f -> ~ edge_near ps f x)) /\
  (forall e f x y, In e es -> In f es -> edge_on ps e x -> edge_on ps f y ->
     on_segment (pt ps s) (pt ps d) x -> on_segment (pt ps s) (pt ps d) y ->
     x = y \/ eps32 < dist x y).

(** The drawing is planar except that edges may run through the nodes [bad], meeting other
    edges there. *)
Definition planar_except {U} (bad : nat -> Prop) (ps : list point) (es : list (Edge U)) : Prop :=
  (forall e, In e es -> src e <> dst e /\ (src e < length ps)%nat /\ (dst e < length ps)%nat) /\
  (forall k e, (k < length ps)%nat -> In e es -> crosses_node ps k e -> bad k) /\
  (forall i j e f x, i <> j -> nth_error es i = Some e -> nth_error es j = Some f ->
     edge_on ps e x -> edge_on ps f x ->
     exists k, (k < length ps)%nat /\ x = pt ps k /\ ((touches k e /\ touches k f) \/ bad k)).

(** The point lies on two edges (in different slots). *)
Definition twice {U} (ps : list point) (es : list (Edge U)) (x : point) : Prop :=
  exists e f l, Permutation es (e :: f :: l) /\ edge_on ps e x /\ edge_on ps f x.

(** Through the point runs an edge parallel to the direction from [a] to [b]. *)
Definition heads {U} (ps : list point) (es : list (Edge U)) (x a b : point) : Prop :=
  exists e, In e es /\ edge_on ps e x /\ cross (pt ps (src e)) (pt ps (dst e)) a b = 0.

(** The edge is not parallel to the segment from node [s] to node [d]. *)
Definition askew {U} (ps : list point) (s d : nat) (e : Edge U) : Prop :=
  cross (pt ps (src e)) (pt ps (dst e)) (pt ps s) (pt ps d) <> 0.
(** The edge and the segment have more than one point in common. *)
Definition overlaps {U} (ps : list point) (s d : nat) (e : Edge U) : Prop :=
  exists x y, x <> y /\ edge_on ps e x /\ edge_on ps e y /\ on_segment (pt ps s) (pt ps d) x /\ on_segment (pt ps s) (pt ps d) y.
(** Exactly one of the edges at node [k] is not parallel to the segment. *)
Definition one_askew {U} (ps : list point) (es : list (Edge U)) (s d k : nat) : Prop :=
  exists i e, nth_error es i = Some e /\ touches k e /\ askew ps s d e /\
    forall j f, nth_error es j = Some f -> touches k f -> askew ps s d f -> j = i.

(** The point lies on an edge that overlaps the segment. *)
Definition doubled {U} (ps : list point) (es : list (Edge U)) (s d : nat) (x : point) : Prop :=
  exists e, In e es /\ overlaps ps s d e /\ edge_on ps e x.

(** As [unambiguous], but the segment may also run along edges. *)
Definition no_near_miss {U} (ps : list point) (es : list (Edge U)) (s d : nat) : Prop :=
  (forall k, (k < length ps)%nat -> k <> s -> k <> d ->
     near (pt ps s) (pt ps d) (pt ps k) -> on_segment (pt ps s) (pt ps d) (pt ps k)) /\
  (forall i e x, nth_error es i = Some e -> edge_on ps e x -> on_segment (pt ps s) (pt ps d) x ->
     overlaps ps s d e \/ (exists k, (k < length ps)%nat /\ x = pt ps k) \/
     ((forall k, (k < length ps)%nat -> eps32 < dist x (pt ps k)) /\
      forall j f, j <> i -> nth_error es j = Some f -> ~ edge_near ps f x)) /\
  (forall e f x y, In e es -> In f es -> ~ overlaps ps s d e -> ~ overlaps ps s d f -> edge_on ps e x -> edge_on ps f y ->
     on_segment (pt ps s) (pt ps d) x -> on_segment (pt ps s) (pt ps d) y ->
     x = y \/ eps32 < dist x y).
