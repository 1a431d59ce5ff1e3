(** * Histories in exact arithmetic all of whose drawings are planar (definitions only). *)
From Coq Require Import Reals List.
From Verif Require Import Scalar F32 Utils Graph GraphSpec PlaneSpec PlanarSpec ThroughSpec.
Import ListNotations.

Section Exact.
Context {T U : Type} (dT : T).
Local Notation graph := (PlanarGraph XO T U).
(** The nodes stand at points, and the drawing is planar. *)
Definition planar_exact (g : graph) : Prop :=
  exists ps, drawn g ps /\ planar_drawing (pt ps) (length ps) (edges g).
(** Every graph on the way is a planar drawing. *)
Fixpoint stays_exact (g : graph) (os : list (@op XO T U)) : Prop :=
  planar_exact g /\
  match os with
  | [] => True
  | o :: os' => forall g', step dT g o = Ok g' -> stays_exact g' os'
  end.
(** Nodes are added at good places; requested edges are between different nodes and exist
    already, have a missing end, or have no near misses.  Anything may be removed. *)
Definition distinct_op (g : graph) (o : @op XO T U) : Prop :=
  match o with
  | OAddNode pos _ => exists ps p, drawn g ps /\ pos = xp p /\ good_place ps (edges g) p
  | OAddEdge s d _ => s <> d /\
      (adjacent g s d \/ ~ (s < length (nodes g) /\ d < length (nodes g))%nat \/
       exists ps, drawn g ps /\ no_near_miss ps (edges g) s d)
  | _ => True
  end.
Fixpoint distinct (g : graph) (os : list (@op XO T U)) : Prop :=
  match os with
  | [] => True
  | o :: os' => distinct_op g o /\ forall g', step dT g o = Ok g' -> distinct g' os'
  end.
(** Every requested edge exists already, has a missing end, or runs along no edge and
    passes only nodes with exactly one edge. *)
Definition free_op (g : graph) (o : @op XO T U) : Prop :=
  match o with
  | OAddEdge s d _ => adjacent g s d \/ ~ (s < length (nodes g) /\ d < length (nodes g))%nat \/
      exists ps, drawn g ps /\ (forall e, In e (edges g) -> ~ overlaps ps s d e) /\
        (forall k, passes ps s d k -> degree g k = 1%nat)
  | _ => True
  end.
Fixpoint frees (g : graph) (os : list (@op XO T U)) : Prop :=
  match os with
  | [] => True
  | o :: os' => free_op g o /\ forall g', step dT g o = Ok g' -> frees g' os'
  end.
End Exact.
