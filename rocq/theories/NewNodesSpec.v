(** * The nodes that add_edge makes (definitions only). *)
From Coq Require Import List Arith Bool.
From Verif Require Import Scalar Utils Graph.
Import ListNotations.

Section Any.
Context {O : Ops} {T U : Type}.
Local Notation pt := (Vec2 O).

(** The points in which the segment between the nodes [s] and [d] cuts edges, in the order
    of the edges. *)
Definition cuts (g : PlanarGraph O T U) (s d : nat) : list pt :=
  flat_map (fun e =>
    match nth_error (nodes g) (src e), nth_error (nodes g) (dst e), nth_error (nodes g) s, nth_error (nodes g) d with
    | Some a, Some b, Some p, Some q =>
        match calculate_line_segment_intersection (position a) (position b) (position p) (position q) with
        | Some x => [x] | None => [] end
    | _, _, _, _ => []
    end) (edges g).

(** [a], which is one of [ps], is the only one of them within epsilon of itself (a point
    that is not a finite distance from itself: none is). *)
Definition alone (ps : list pt) (a : pt) : bool :=
  Nat.eqb (length (filter (fun b => ole (distance a b) ceps) ps)) (if ole (distance a a) ceps then 1 else 0).

(** No node is less than epsilon from [a]. *)
Definition vacant (ns : list (Node O T)) (a : pt) : bool :=
  forallb (fun n => negb (olt (distance a (position n)) ceps)) ns.

(** The cuts that get a node. *)
Definition fresh (g : PlanarGraph O T U) (s d : nat) : list pt :=
  filter (vacant (nodes g)) (filter (alone (cuts g s d)) (cuts g s d)).
End Any.
