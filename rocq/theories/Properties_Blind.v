(** * C156: removals and the index queries do not look at the nodes.

    [regard f fu fe g]: every node of [g] replaced by any function [f], possibly to another
    arithmetic; the edges keep their ends.  [onok]: apply a function to the result of a call
    that does not panic. *)
From Coq Require Import List Arith Bool Lia String ZArith.
From Flocq Require Import Core.Core IEEE754.BinarySingleNaN.
From Verif Require Import Scalar Utils Polygon Graph GraphSpec GraphDemo CarrySpec Carry BlindSpec Blind.
Import ListNotations.

Theorem C156_calls :
  forall (O O' : Ops) (T U T' U' : Type) (f : Node O T -> Node O' T') (fu : U -> U') fe (g : PlanarGraph O T U),
  let g' := regard f fu fe g in
  (forall i, remove_node g' i = onok (regard_with f fu fe) (remove_node g i)) /\
  (forall i, remove_edge g' i = onok (regard_with f fu fe) (remove_edge g i)).
Proof. intros O O' T U T' U' f fu fe g. split; [exact (regard_remove_node f fu fe g)|exact (regard_remove_edge f fu fe g)]. Qed.
Print Assumptions C156_calls.

Theorem C156_queries :
  forall (O O' : Ops) (T U T' U' : Type) (f : Node O T -> Node O' T') (fu : U -> U') fe (g : PlanarGraph O T U),
  let g' := regard f fu fe g in
  node_count g' = node_count g /\ edge_count g' = edge_count g /\
  (forall i, number_of_edges_incident_to g' i = number_of_edges_incident_to g i) /\
  (forall a b, has_edge_between_nodes g' a b = has_edge_between_nodes g a b) /\
  (forall i, has_node_at_index g' i = has_node_at_index g i) /\ (forall i, has_edge_at_index g' i = has_edge_at_index g i).
Proof.
  intros O O' T U T' U' f fu fe g. cbv zeta. split; [apply regard_count|]. split; [apply regard_ecount|]. split; [apply regard_incident|].
  split; [apply regard_between|]. split; intros i; unfold has_node_at_index, has_edge_at_index; cbn [regard nodes edges]; now rewrite map_length.
Qed.
Print Assumptions C156_queries.

Theorem C156_history :
  forall (O O' : Ops) (T U T' U' : Type) (f : Node O T -> Node O' T') (fu : U -> U') fe dT dT' (rs : list removal) (g : PlanarGraph O T U),
  run dT' (regard f fu fe g) (map as_op rs) = onok (regard f fu fe) (run dT g (map as_op rs)).
Proof. intros O O' T U T' U' f fu fe dT dT' rs g. exact (regard_run f fu fe dT dT' rs g). Qed.
Print Assumptions C156_history.

(** So two graphs whose edges join the same slots, wherever their nodes are, have the same
    edges after the same removals. *)
Definition joins {O : Ops} {T U : Type} (g : PlanarGraph O T U) : nat * list (nat * nat) :=
  (node_count g, map (fun e => (src e, dst e)) (edges g)).
Theorem C156_blind :
  forall (O O' : Ops) (T U T' U' : Type) dT dT' (rs : list removal) (g : PlanarGraph O T U) (g' : PlanarGraph O' T' U'),
  joins g = joins g' -> onok joins (run dT g (map as_op rs)) = onok joins (run dT' g' (map as_op rs)).
Proof.
  intros O O' T U T' U' dT dT' rs g g' J.
  assert (B : forall (P : Ops) (A B : Type) (dA : A) (h : PlanarGraph P A B),
    onok joins (run dA h (map as_op rs)) =
    onok joins (run tt (regard (O' := O) (fun _ => MkNode (P2 (c0 : car O) c0) tt DEFAULT_LABEL) (fun _ => tt) (fun _ => DEFAULT_LABEL) h) (map as_op rs))).
  { intros P A B dA h. rewrite (C156_history P O A B unit unit _ _ _ dA tt rs h). destruct (run dA h (map as_op rs)) as [h'|]; [|reflexivity].
    cbn [onok]. f_equal. unfold joins, node_count. cbn [regard nodes edges]. rewrite map_length, map_map. reflexivity. }
  rewrite (B O T U dT g), (B O' T' U' dT' g'). do 2 f_equal. unfold regard. unfold joins, node_count in J. injection J as J1 J2. f_equal.
  - clear - J1. generalize dependent (nodes g'). induction (nodes g) as [|n l IH]; intros [|n' l'] J1; try discriminate; [reflexivity|]. cbn [map]. f_equal. apply IH. now injection J1.
  - clear - J2. generalize dependent (edges g'). induction (edges g) as [|e l IH]; intros [|e' l'] J2; try discriminate; [reflexivity|]. cbn [map] in *. injection J2 as E1 E2 J2.
    f_equal; [unfold dress_edge; cbn; congruence|]. now apply IH.
Qed.
Print Assumptions C156_blind.

(** A crossing, and the same graph with all nodes at NaN. *)
Definition at_nan (n : Node F nat) : Node F nat := MkNode (P2 (B754_nan : f32) (B754_nan : f32) : Vec2 F) (S (ndata n)) (nlabel n).
Example C156_example :
  joins (build cross) = (5, [(0, 4); (2, 4); (1, 4); (3, 4)])%nat /\
  onok joins (run 0%nat (regard at_nan S (fun l => l) (build cross)) (map as_op [TakeEdge 1; TakeNode 1])) =
    onok joins (run 0%nat (build cross) (map as_op [TakeEdge 1; TakeNode 1])) /\
  onok joins (run 0%nat (build cross) (map as_op [TakeEdge 1; TakeNode 1])) = Ok (3, [(0, 2); (1, 2)])%nat.
Proof. repeat split; vm_compute; reflexivity. Qed.

(** Additions do look: at NaN the same request makes no crossing node. *)
Example C156_fails_at_addition :
  let g := build [N (-2) 0; N 2 0; N 0 (-2); N 0 2; E 0 1 10] in
  onok joins (run 0%nat g [E 2 3 20]) = Ok (5, [(0, 4); (2, 4); (1, 4); (3, 4)])%nat /\
  onok joins (run 0%nat (regard at_nan S (fun l => l) g) [E 2 3 20]) = Ok (4, [(0, 1); (2, 3)])%nat.
Proof. split; vm_compute; reflexivity. Qed.
