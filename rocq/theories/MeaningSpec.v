(** * What the calls mean for the drawing as sets of points, without slots (definitions
    only). *)
From Coq Require Import Reals List.
From Verif Require Import Scalar Utils Graph GraphSpec PlaneSpec PlanarSpec GridSpec.
Import ListNotations.
Local Open Scope R_scope.

(** A drawing: the points that are nodes, and the points that edges cover. *)
Record scene := Scene { is_node : point -> Prop; inked : point -> Prop }.
Definition same_scene (S S' : scene) : Prop :=
  (forall x, is_node S x <-> is_node S' x) /\ (forall x, inked S x <-> inked S' x).
Definition blank : scene := Scene (fun _ => False) (fun _ => False).

(** The nodes at [ps] and the edges [es] show the scene. *)
Definition shows {U} (ps : list point) (es : list (Edge U)) (S : scene) : Prop :=
  (forall x, In x ps <-> is_node S x) /\ (forall x, covers ps es x <-> inked S x).

Definition scene_of {U} (ps : list point) (es : list (Edge U)) : scene := Scene (fun x => In x ps) (covers ps es).

(** Two nodes are linked when the segment between them is covered and has no further node
    on it. *)
Definition linked (S : scene) (a b : point) : Prop :=
  is_node S a /\ is_node S b /\ a <> b /\ (forall x, on_segment a b x -> inked S x) /\
  (forall x, is_node S x -> on_segment a b x -> x = a \/ x = b).
Definition same_pair (a b c d : point) : Prop := (a = c /\ b = d) \/ (a = d /\ b = c).

(** What a call asks for: a node at a point, the segment between two points, erasing the
    edge between two points, erasing a node with its edges, or nothing. *)
Inductive word := Put (x : point) | Join (a b : point) | Erase (a b : point) | Drop (a : point) | Nothing.

Definition after (w : word) (S : scene) : scene :=
  match w with
  | Put x => Scene (fun y => is_node S y \/ (y = x /\ forall z, is_node S z -> eps32 <= dist x z)) (inked S)
  | Join a b =>
      Scene (fun y => is_node S y \/ (~ linked S a b /\ on_segment a b y /\ inked S y))
            (fun y => inked S y \/ on_segment a b y)
  | Erase a b =>
      let ink y := exists c d, linked S c d /\ ~ same_pair a b c d /\ on_segment c d y in
      Scene (fun y => is_node S y /\ (y = a \/ y = b -> ink y)) ink
  | Drop a =>
      let ink y := exists c d, linked S c d /\ c <> a /\ d <> a /\ on_segment c d y in
      Scene (fun y => is_node S y /\ y <> a /\ (linked S a y -> ink y)) ink
  | Nothing => S
  end.
Definition after_all (ws : list word) (S : scene) : scene := fold_left (fun S w => after w S) ws S.

(** The same words, up to the direction of edges. *)
Definition same_word (w w' : word) : Prop :=
  match w, w' with
  | Join a b, Join c d | Erase a b, Erase c d => same_pair a b c d
  | _, _ => w = w'
  end.

(** The word is unambiguous: a point is close to a node or away from all, and in the
    needle of an edge only if it lies on it; a segment overlaps no edge, a node in its
    needle lies on it and has exactly one edge, its other crossings are away from all nodes, from the
    other edges and from each other. *)
Definition plain (w : word) (S : scene) : Prop :=
  match w with
  | Put x =>
      (exists y, is_node S y /\ dist x y < eps32) \/
      ((forall y, is_node S y -> eps32 < dist x y) /\ forall a b, linked S a b -> near a b x -> on_segment a b x)
  | Join a b => a <> b /\
      (linked S a b \/
       ((forall k, is_node S k -> k <> a -> k <> b -> near a b k -> on_segment a b k) /\
        (forall k, is_node S k -> k <> a -> k <> b -> on_segment a b k ->
           exists c, linked S k c /\ forall c', linked S k c' -> c' = c) /\
        (forall c d x y, linked S c d -> on_segment c d x -> on_segment c d y ->
           on_segment a b x -> on_segment a b y -> x = y) /\
        (forall c d x, linked S c d -> on_segment c d x -> on_segment a b x ->
           is_node S x \/
           ((forall k, is_node S k -> eps32 < dist x k) /\
            forall c' d', linked S c' d' -> near c' d' x -> same_pair c d c' d')) /\
        (forall c d c' d' x y, linked S c d -> linked S c' d' -> on_segment c d x -> on_segment c' d' y ->
           on_segment a b x -> on_segment a b y -> x = y \/ eps32 < dist x y)))
  | _ => True
  end.
Fixpoint plain_all (S : scene) (ws : list word) : Prop :=
  match ws with [] => True | w :: ws' => plain w S /\ plain_all (after w S) ws' end.

Section Tells.
Context {O : Ops} {T U : Type} (dT : T) (placed : PlanarGraph O T U -> list point -> Prop) (value : Vec2 O -> point -> Prop).
Local Notation graph := (PlanarGraph O T U).

(** The word of a call on the graph [g] with nodes at [ps].  [value p x]: the coordinates
    [p] are those of [x]. *)
Inductive means (g : graph) (ps : list point) : @op O T U -> word -> Prop :=
| means_put : forall p x dat, value p x -> means g ps (OAddNode p dat) (Put x)
| means_join : forall s d u, (s < length ps)%nat -> (d < length ps)%nat ->
    means g ps (OAddEdge s d u) (Join (pt ps s) (pt ps d))
| means_join_missing : forall s d u, ~ (s < length ps /\ d < length ps)%nat -> means g ps (OAddEdge s d u) Nothing
| means_erase : forall i e, nth_error (edges g) i = Some e ->
    means g ps (ORemoveEdge i) (Erase (pt ps (src e)) (pt ps (dst e)))
| means_erase_missing : forall i, nth_error (edges g) i = None -> means g ps (ORemoveEdge i) Nothing
| means_drop : forall i, (i < length ps)%nat -> means g ps (ORemoveNode i) (Drop (pt ps i))
| means_drop_missing : forall i, ~ (i < length ps)%nat -> means g ps (ORemoveNode i) Nothing.

(** The calls lead from the first graph to the last and say the words. *)
Inductive tells : graph -> list (@op O T U) -> list word -> graph -> Prop :=
| tells_nil : forall g, tells g [] [] g
| tells_cons : forall g ps o w g1 os ws g2, placed g ps -> means g ps o w -> step dT g o = Ok g1 ->
    tells g1 os ws g2 -> tells g (o :: os) (w :: ws) g2.
End Tells.

Definition value_x (p : Vec2 XO) (x : point) : Prop := p = xp x.
Definition value_f32 {lm : Libm} (p : Vec2 (FO lm)) (x : point) : Prop := real_point p = x.
Definition at_places {lm : Libm} {T U} (g : PlanarGraph (FO lm) T U) (ps : list point) : Prop := ps = places g.
