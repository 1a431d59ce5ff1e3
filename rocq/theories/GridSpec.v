(** * Drawings on f32 grids: the exact counterpart of a stored graph, and histories that
    draw on a grid along given lines. *)
From Coq Require Import ZArith Reals List.
From Flocq Require Import Core.Core.
From Verif Require Import Scalar Utils Graph GraphSpec PlaneSpec PlanarSpec PolyNewF32.
Import ListNotations.
Local Open Scope R_scope.

(** Inner points of a segment. *)
Definition inner (a b p : point) : Prop := on_segment a b p /\ p <> a /\ p <> b.

(** The segment from [a] to [b] is horizontal or vertical. *)
Definition axis (a b : point) : Prop := vx a = vx b \/ vy a = vy b.

(** Box pleating: it lies on a grid line, or on a diagonal at an even offset, of the grid
    of spacing 2^e. *)
Definition pleat (e : Z) (a b : point) : Prop :=
  axis a b \/
  (vx a + vy a = vx b + vy b /\ exists c, vx a + vy a = IZR (2 * c) * bpow radix2 e) \/
  (vx a - vy a = vx b - vy b /\ exists c, vx a - vy a = IZR (2 * c) * bpow radix2 e).

(** A grid and a family of segments on which the code draws exactly: grid lines with
    spacing 2^-19 to 2^51, or box pleating with spacing 2^-9 to 2^-5. *)
Definition drawable (e : Z) (S : point -> point -> Prop) : Prop :=
  ((-19 <= e <= 51)%Z /\ S = axis) \/ ((-9 <= e <= -5)%Z /\ S = pleat e).

Section GridSpec.
Context {lm : Libm} {T U : Type} (dT : T).
Local Notation graph := (PlanarGraph (FO lm) T U).

(** The same graph, with the real values of the coordinates. *)
Definition exact_node (n : Node (FO lm) T) : Node XO T :=
  MkNode (xp (real_point (position n))) (ndata n) (nlabel n).
Definition exact_graph (g : graph) : PlanarGraph XO T U := MkGraph (map exact_node (nodes g)) (edges g).
Definition exact_op (o : @op (FO lm) T U) : @op XO T U :=
  match o with
  | OAddNode p d => OAddNode (xp (real_point p)) d
  | OAddEdge s d u => OAddEdge s d u
  | ORemoveNode i => ORemoveNode i
  | ORemoveEdge i => ORemoveEdge i
  end.

(** The points at which the nodes stand. *)
Definition places (g : graph) : list point := map (fun n => real_point (position n)) (nodes g).

(** A history that adds nodes at points of [G] only, and asks for edges between different
    nodes along [S] only; removals are free. *)
Definition draws_op (G : Vec2 f32 -> Prop) (S : point -> point -> Prop) (g : graph) (o : @op (FO lm) T U) : Prop :=
  match o with
  | OAddNode p _ => G p
  | OAddEdge s d _ => s <> d /\
      forall a b, get_vertex g s = Some a -> get_vertex g d = Some b ->
        S (real_point (position a)) (real_point (position b))
  | _ => True
  end.
Fixpoint draws (G : Vec2 f32 -> Prop) (S : point -> point -> Prop) (g : graph) (os : list (@op (FO lm) T U)) : Prop :=
  match os with
  | [] => True
  | o :: os' => draws_op G S g o /\ forall g', step dT g o = Ok g' -> draws G S g' os'
  end.

(** The segment from node [s] to node [d] passes no node, and its inner points on an
    edge are on one edge only and not a node. *)
Definition clear_path (g : graph) (s d : nat) : Prop :=
  let ps := places g in
  (forall k, (k < length ps)%nat -> ~ inner (pt ps s) (pt ps d) (pt ps k)) /\
  (forall i e x, nth_error (edges g) i = Some e -> edge_on ps e x -> inner (pt ps s) (pt ps d) x ->
     (forall k, (k < length ps)%nat -> x <> pt ps k) /\
     (forall j f, j <> i -> nth_error (edges g) j = Some f -> ~ edge_on ps f x)).

(** Every requested edge exists already, has a missing end, or is clear. *)
Definition clear_op (g : graph) (o : @op (FO lm) T U) : Prop :=
  match o with
  | OAddEdge s d _ => adjacent g s d \/ ~ (s < node_count g /\ d < node_count g)%nat \/ clear_path g s d
  | _ => True
  end.
Fixpoint clears (g : graph) (os : list (@op (FO lm) T U)) : Prop :=
  match os with
  | [] => True
  | o :: os' => clear_op g o /\ forall g', step dT g o = Ok g' -> clears g' os'
  end.
End GridSpec.
