(** * Drawings in exact arithmetic: when the stored graph is a planar drawing, and the
    situations in which the epsilon tests of the code decide correctly. *)
From Coq Require Import Reals List.
From Verif Require Import Scalar Utils Graph GraphSpec PlaneSpec.
Import ListNotations.
Local Open Scope R_scope.

(** The position of node [i] of a drawing. *)
Definition pt (ps : list point) (i : nat) : point := nth i ps (P2 0 0).

(** The nodes of [g] stand at the points [ps]. *)
Definition drawn {T U} (g : PlanarGraph XO T U) (ps : list point) : Prop :=
  map position (nodes g) = map xp ps.

(** The open needle around the segment [a b] in which a point counts as lying on it:
    the detour over [p] is below epsilon, and [p] is not within epsilon of an end. *)
Definition near (a b p : point) : Prop :=
  dist a p + dist p b < dist a b + eps32 /\ eps32 < dist a p /\ eps32 < dist p b.

Definition edge_on {U} (ps : list point) (e : Edge U) (x : point) : Prop :=
  on_segment (pt ps (src e)) (pt ps (dst e)) x.
Definition edge_near {U} (ps : list point) (e : Edge U) (x : point) : Prop :=
  near (pt ps (src e)) (pt ps (dst e)) x.

(** The set of points covered by the edges. *)
Definition covers {U} (ps : list point) (es : list (Edge U)) (x : point) : Prop :=
  exists e, In e es /\ edge_on ps e x.

(** Nodes more than epsilon apart, no node in the needle of an edge, no self-loops, and
    planar. *)
Definition well_drawn {U} (ps : list point) (es : list (Edge U)) : Prop :=
  (forall e, In e es -> src e <> dst e /\ (src e < length ps)%nat /\ (dst e < length ps)%nat) /\
  (forall i j, (i < length ps)%nat -> (j < length ps)%nat -> i <> j ->
     eps32 < dist (pt ps i) (pt ps j)) /\
  (forall k e, (k < length ps)%nat -> In e es -> ~ edge_near ps e (pt ps k)) /\
  planar_drawing (pt ps) (length ps) es.

(** A point at which a node may be added: it is within epsilon of a node (which is then
    used instead), or it is away from all nodes and lies exactly on every edge in whose
    needle it is. *)
Definition good_place {U} (ps : list point) (es : list (Edge U)) (p : point) : Prop :=
  (exists k, (k < length ps)%nat /\ dist p (pt ps k) < eps32) \/
  ((forall k, (k < length ps)%nat -> eps32 < dist p (pt ps k)) /\
   forall e, In e es -> edge_near ps e p -> edge_on ps e p).

(** The segment from node [s] to node [d] is in general position: it passes no other
    node, and each of its inner crossings with an edge is away from all nodes, from the
    other edges, and from the other crossings. *)
Definition general_position {U} (ps : list point) (es : list (Edge U)) (s d : nat) : Prop :=
  (forall k, (k < length ps)%nat -> k <> s -> k <> d -> ~ near (pt ps s) (pt ps d) (pt ps k)) /\
  (forall i e x, nth_error es i = Some e -> edge_on ps e x ->
     on_segment (pt ps s) (pt ps d) x -> x <> pt ps s -> x <> pt ps d ->
     (forall k, (k < length ps)%nat -> eps32 < dist x (pt ps k)) /\
     (forall j f, j <> i -> nth_error es j = Some f -> ~ edge_near ps f x /\
        forall y, edge_on ps f y -> on_segment (pt ps s) (pt ps d) y -> eps32 < dist x y)).

Section Histories.
Context {T U : Type}.
Variable dT : T.

(** One call whose geometric input is unambiguous; removals and calls that return
    without changing anything always are. *)
Definition tidy_op (g : PlanarGraph XO T U) (o : @op XO T U) : Prop :=
  match o with
  | OAddNode pos _ => exists ps p, drawn g ps /\ pos = xp p /\ good_place ps (edges g) p
  | OAddEdge s d _ => s <> d /\
      (adjacent g s d \/ ~ (s < length (nodes g) /\ d < length (nodes g))%nat \/
       exists ps, drawn g ps /\ general_position ps (edges g) s d)
  | _ => True
  end.

(** A history all of whose calls are unambiguous when they are made. *)
Fixpoint tidy (g : PlanarGraph XO T U) (os : list (@op XO T U)) : Prop :=
  match os with
  | [] => True
  | o :: os' => tidy_op g o /\ forall g', step dT g o = Ok g' -> tidy g' os'
  end.
End Histories.
