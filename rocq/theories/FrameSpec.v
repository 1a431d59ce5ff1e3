(** * Specification for C155: edges that a call does not meet may be left out. *)
From Coq Require Import List Arith Bool Reals.
From Verif Require Import Scalar Utils Polygon Graph PlaneSpec PlanarSpec.
Import ListNotations.

(** The elements marked [true], and those marked [false]. *)
Fixpoint chosen {A} (m : list bool) (l : list A) : list A :=
  match m, l with
  | b :: m', x :: l' => if b then x :: chosen m' l' else chosen m' l'
  | _, _ => []
  end.
Definition left_out {A} (m : list bool) (l : list A) : list A := chosen (map negb m) l.

(** All slots of the second graph: those of the first as marked, the appended ones kept. *)
Definition grown (m : list bool) (n : nat) : list bool := m ++ repeat true (n - length m).

Section Any.
Context {O : Ops} {T U : Type}.
Local Notation graph := (PlanarGraph O T U).

(** The graph with only the marked edges. *)
Definition part (m : list bool) (g : graph) : graph := MkGraph (nodes g) (chosen m (edges g)).

(** Both ends of [e] exist, and [p] does not count as lying on it. *)
Definition misses (ns : list (Node O T)) (e : Edge U) (p : Vec2 O) : Prop :=
  exists a b, nth_error ns (src e) = Some a /\ nth_error ns (dst e) = Some b /\
    is_on_line_segment (position a) (position b) p false = false.

(** [x] is where the segment between the nodes [s] and [d] cuts the edge [f]. *)
Definition cut_at (g : graph) (s d : nat) (f : Edge U) (x : Vec2 O) : Prop :=
  exists a b p q, nth_error (nodes g) (src f) = Some a /\ nth_error (nodes g) (dst f) = Some b /\
    nth_error (nodes g) s = Some p /\ nth_error (nodes g) d = Some q /\
    calculate_line_segment_intersection (position a) (position b) (position p) (position q) = Some x.

(** The request for an edge [s d] does not meet [e]: no node and no cut counts as lying on
    [e], [e] is not cut, and does not join the two nodes. *)
Definition unmet (g : graph) (s d : nat) (e : Edge U) : Prop :=
  (forall n, In n (nodes g) -> misses (nodes g) e (position n)) /\
  (forall f x, In f (edges g) -> cut_at g s d f x -> misses (nodes g) e x) /\
  (forall x, ~ cut_at g s d e x) /\
  ~ (src e = s /\ dst e = d \/ src e = d /\ dst e = s).

(** The same for a call, and for a series of calls; only adding calls are considered. *)
Definition unmet_op (m : list bool) (g : graph) (o : @op O T U) : Prop :=
  match o with
  | OAddNode p _ => forall e, In e (left_out m (edges g)) ->
      (forall n, In n (nodes g) -> misses (nodes g) e (position n)) /\ misses (nodes g) e p
  | OAddEdge s d _ => forall e, In e (left_out m (edges g)) -> unmet g s d e
  | _ => False
  end.
Fixpoint unmets (dT : T) (m : list bool) (g : graph) (os : list (@op O T U)) : Prop :=
  match os with
  | [] => True
  | o :: os' => unmet_op m g o /\ forall g', step dT g o = Ok g' -> unmets dT (grown m (edge_count g')) g' os'
  end.
End Any.

(** In the plane: [e] has no point in common with the segment from [s] to [d], and no
    point of that segment and no node lies in the needle around [e]. *)
Definition stands_clear {U} (ps : list point) (s d : nat) (e : Edge U) : Prop :=
  (src e < length ps)%nat /\ (dst e < length ps)%nat /\
  (forall k, (k < length ps)%nat -> ~ edge_near ps e (pt ps k)) /\
  (forall x, on_segment (pt ps s) (pt ps d) x -> ~ edge_on ps e x /\ ~ edge_near ps e x).
