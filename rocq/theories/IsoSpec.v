(** * Moving drawings: a graph, a call or a polygon with every point replaced by its image
    under a map of the plane (definitions only). *)
From Coq Require Import Reals List ZArith.
From Flocq Require Import Core.Core IEEE754.BinarySingleNaN.
From Verif Require Import Scalar Utils Polygon Graph GraphSpec PlaneSpec SimSpec.
Import ListNotations.
Local Open Scope R_scope.

Section Move.
Context {O : Ops} {T U : Type} (f : Vec2 O -> Vec2 O).

(** The same nodes and edges (data, labels, indices), every position moved. *)
Definition move_node (n : Node O T) : Node O T := MkNode (f (position n)) (ndata n) (nlabel n).
Definition move_graph (g : PlanarGraph O T U) : PlanarGraph O T U := MkGraph (map move_node (nodes g)) (edges g).
(** The same call, at the moved point. *)
Definition move_op (o : @op O T U) : @op O T U :=
  match o with
  | OAddNode p d => OAddNode (f p) d
  | OAddEdge s d u => OAddEdge s d u
  | ORemoveNode i => ORemoveNode i
  | ORemoveEdge i => ORemoveEdge i
  end.
(** The outcome of a call or of a history: the graph moved, the answers (node and edge
    indices) the same, a panic a panic. *)
Definition move_out {A : Type} (r : res (PlanarGraph O T U * A)) : res (PlanarGraph O T U * A) :=
  match r with Ok (g, a) => Ok (move_graph g, a) | Panic => Panic end.

Definition move_poly (p : Polygon O) : Polygon O := MkPolygon (map f (vertices p)).
(** The outcome of triangulate: every triangle moved; a panic a panic, unfinished unfinished. *)
Definition tri_moved (r : option (res (list (Polygon O)))) : option (res (list (Polygon O))) :=
  match r with
  | Some (Ok ts) => Some (Ok (map move_poly ts))
  | Some Panic => Some Panic
  | None => None
  end.
End Move.

(** ** Exact arithmetic: maps of the real plane *)
Definition isometry (f : point -> point) : Prop := forall p q, dist (f p) (f q) = dist p q.

(** The map x -> a x + b y + e, y -> c x + d y + h. *)
Definition affine (a b c d e h : R) (p : point) : point :=
  P2 (a * vx p + b * vy p + e) (c * vx p + d * vy p + h).

(** A map of the real plane on the points of the exact model; a point with an undefined
    coordinate stays as it is. *)
Definition on_reals (f : point -> point) (p : Vec2 XO) : Vec2 XO :=
  match vx p, vy p with
  | Some x, Some y => xp (f (P2 x y))
  | _, _ => p
  end.

(** ** f32: the eight symmetries of the square *)
(** Exchange the coordinates (or not), then change the sign of the first and of the second
    (or not); a zero coordinate becomes +0. *)
Record sym8 := Sym8 { swap : bool; flip_x : bool; flip_y : bool }.
Definition signed (flip : bool) (x : f32) : f32 :=
  match x with
  | B754_zero _ => B754_zero false
  | _ => if flip then Bopp x else x
  end.
Definition sym_point (s : sym8) (p : Vec2 f32) : Vec2 f32 :=
  let '(x, y) := if swap s then (vy p, vx p) else (vx p, vy p) in
  P2 (signed (flip_x s) x) (signed (flip_y s) y).
(** The quarter turns among them. *)
Definition turns (s : sym8) : bool := Bool.eqb (swap s) (xorb (flip_x s) (flip_y s)).
