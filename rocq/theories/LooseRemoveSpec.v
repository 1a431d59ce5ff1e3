(** * Removals from drawings in which edges run through nodes (definitions only). *)
From Coq Require Import Reals List.
From Verif Require Import Scalar F32 Utils Graph GraphSpec PlaneSpec PlanarSpec GridSpec ThroughSpec LooseSpec GridLooseSpec.
Import ListNotations.

(** Two of the edges for which [P] holds run through node [k]. *)
Definition through_two {U} (P : Edge U -> Prop) (ps : list point) (es : list (Edge U)) (k : nat) : Prop :=
  exists i j e f, i <> j /\ nth_error es i = Some e /\ nth_error es j = Some f /\
    P e /\ P f /\ crosses_node ps k e /\ crosses_node ps k f.

(** Removing node [id], or the edge in slot [id], deletes no node that two of the
    remaining edges run through. *)
Definition drops_node {O : Ops} {T U} (g : PlanarGraph O T U) (ps : list point) (id : nat) : Prop :=
  forall k, to_delete g id k -> ~ through_two (fun e => ~ touches id e) ps (edges g) k.
Definition drops_edge {O : Ops} {T U} (g : PlanarGraph O T U) (ps : list point) (id : nat) : Prop :=
  forall e k, nth_error (edges g) id = Some e -> touches k e -> degree g k = 1 ->
    ~ through_two (fun _ => True) ps (edges g) k.

(** Additions as in C146 or C147, and removals that delete no such node. *)
Section Exact.
Context {T U : Type} (dT : T).
Definition slack_op (g : PlanarGraph XO T U) (o : @op XO T U) : Prop :=
  match o with
  | ORemoveNode i => i < length (nodes g) -> exists ps, drawn g ps /\ drops_node g ps i
  | ORemoveEdge i => exists ps, drawn g ps /\ drops_edge g ps i
  | _ => loose_op g o
  end.
Fixpoint slack (g : PlanarGraph XO T U) (os : list (@op XO T U)) : Prop :=
  match os with
  | [] => True
  | o :: os' => slack_op g o /\ forall g', step dT g o = Ok g' -> slack g' os'
  end.
End Exact.

Section Grid.
Context {lm : Libm} {T U : Type} (dT : T).
Definition slacks_op (g : PlanarGraph (FO lm) T U) (o : @op (FO lm) T U) : Prop :=
  match o with
  | ORemoveNode i => i < node_count g -> drops_node g (places g) i
  | ORemoveEdge i => drops_edge g (places g) i
  | _ => lays_op g o
  end.
Fixpoint slacks (g : PlanarGraph (FO lm) T U) (os : list (@op (FO lm) T U)) : Prop :=
  match os with
  | [] => True
  | o :: os' => slacks_op g o /\ forall g', step dT g o = Ok g' -> slacks g' os'
  end.
End Grid.
