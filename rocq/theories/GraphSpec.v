(** * What the graph properties say, without using the model's helper functions:
    only the stored node and edge lists are looked at. *)
From Coq Require Import List Arith Bool Relations String.
From Verif Require Import Scalar Utils Polygon Graph ListSpec.
Import ListNotations.

Section Spec.
Context {O : Ops} {T U : Type}.
Local Notation graph := (PlanarGraph O T U).
Local Notation edge := (Edge U).
Local Notation node := (Node O T).

(** Both ends of every stored edge are stored nodes. *)
Definition valid (g : graph) : Prop :=
  forall e, In e (edges g) ->
    src e < List.length (nodes g) /\ dst e < List.length (nodes g).

(** No two different slots hold nodes closer than f32::EPSILON. *)
Definition separated (g : graph) : Prop :=
  forall i j ni nj, i <> j ->
    nth_error (nodes g) i = Some ni -> nth_error (nodes g) j = Some nj ->
    olt (distance (position ni) (position nj)) ceps = false.

(** Edge [e] has node [i] as an end. *)
Definition touches (i : nat) (e : edge) : Prop := src e = i \/ dst e = i.
Definition touchesb (i : nat) (e : edge) : bool := (src e =? i) || (dst e =? i).

(** Edge [e] joins [a] and [b], in either direction. *)
Definition joins (a b : nat) (e : edge) : Prop :=
  (src e = a /\ dst e = b) \/ (src e = b /\ dst e = a).

(** The number of edges with [i] as an end. *)
Fixpoint degree_in (es : list edge) (i : nat) : nat :=
  match es with
  | [] => 0
  | e :: es' => (if touchesb i e then 1 else 0) + degree_in es' i
  end.
Definition degree (g : graph) (i : nat) : nat := degree_in (edges g) i.

Definition adjacent (g : graph) (a b : nat) : Prop := exists e, In e (edges g) /\ joins a b e.

(** [a] and [b] are joined by a path. *)
Definition connected (g : graph) : nat -> nat -> Prop := clos_refl_trans nat (adjacent g).

(** The position of node [i] (some point if there is no such node). *)
Definition pos_at (ns : list node) (i : nat) : Vec2 O :=
  match nth_error ns i with Some n => position n | None => P2 c0 c0 end.

(** Some stored node is closer than f32::EPSILON to [p]. *)
Definition near_node (g : graph) (p : Vec2 O) : Prop :=
  exists i n, nth_error (nodes g) i = Some n /\ olt (distance p (position n)) ceps = true.

(** What remove_node(id) has to delete: the node itself and every neighbour whose only
    edge goes to it. *)
Definition to_delete (g : graph) (id i : nat) : Prop :=
  i = id \/ (adjacent g id i /\ degree g i = 1).

(** The only edge at [id] is a self-loop (possible only after add_edge(id, id)). *)
Definition lonely_loop (g : graph) (id : nat) : Prop :=
  adjacent g id id /\ degree g id = 1.

(** [g'] is [g] with the nodes in [gone] removed and only the edges [survivors] (edges
    of [g]) left: [keep] lists the surviving node slots in increasing order; node k of
    [g'] is node [keep[k]] of [g]; the surviving edges appear in the order of
    [survivors], keep data and label, and join the same nodes as before through the
    renumbering. *)
Definition same_edge_via (keep : list nat) (e' e : edge) : Prop :=
  nth_error keep (src e') = Some (src e) /\ nth_error keep (dst e') = Some (dst e) /\
  edata e' = edata e /\ elabel e' = elabel e.

Definition restricts (keep : list nat) (g g' : graph) (gone : nat -> Prop)
  (survivors : list edge) : Prop :=
  increasing keep /\
  (forall i, In i keep <-> i < List.length (nodes g) /\ ~ gone i) /\
  List.Forall2 (fun n' i => nth_error (nodes g) i = Some n') (nodes g') keep /\
  List.Forall2 (same_edge_via keep) (edges g') survivors.

(** The edge list without slot [i]. *)
Definition without (i : nat) (es : list edge) : list edge := firstn i es ++ skipn (S i) es.

(** No two slots join the same two nodes. *)
Definition no_parallel (g : graph) : Prop :=
  forall i j ei ej, i <> j ->
    nth_error (edges g) i = Some ei -> nth_error (edges g) j = Some ej ->
    ~ joins (src ei) (dst ei) ej.

(** No edge joins a node to itself. *)
Definition no_loops (g : graph) : Prop := forall e, In e (edges g) -> src e <> dst e.

(** The slots outside the two reports hold the same node, and the same edge up to the
    renumbering [keep] of its ends. *)
Definition unreported_same (keep : list nat) (g g' : graph) (cn ce : list nat) : Prop :=
  (forall i, ~ In i cn -> nth_error (nodes g') i = nth_error (nodes g) i) /\
  (forall i, ~ In i ce ->
     match nth_error (edges g') i, nth_error (edges g) i with
     | Some e', Some e => same_edge_via keep e' e
     | None, None => True
     | _, _ => False
     end).

(** The history asks for a self-loop nowhere. *)
Definition no_loop_requests (os : list (@op O T U)) : Prop :=
  forall s u, ~ In (OAddEdge s s u) os.

End Spec.
