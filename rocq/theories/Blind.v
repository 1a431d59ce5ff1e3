(** * Removals do not look at positions (proofs for C156). *)
From Coq Require Import List Arith Bool Lia String.
From Verif Require Import Scalar Utils Polygon Graph GraphSpec CarrySpec Carry BlindSpec.
Import ListNotations.

Section Any.
Context {O O' : Ops} {T U T' U' : Type} (f : Node O T -> Node O' T') (fu : U -> U') (fe : string -> string).
Local Notation graph := (PlanarGraph O T U).
Local Notation rg := (regard f fu fe).
Local Notation rw := (regard_with f fu fe).
Local Notation de := (dress_edge fu fe).

Lemma regard_count : forall g : graph, node_count (rg g) = node_count g.
Proof. intros. apply map_length. Qed.
Lemma regard_ecount : forall g : graph, edge_count (rg g) = edge_count g.
Proof. intros. apply map_length. Qed.
Lemma regard_between : forall (g : graph) a b, has_edge_between_nodes (rg g) a b = has_edge_between_nodes g a b.
Proof. intros. unfold has_edge_between_nodes. apply dress_between. Qed.

Lemma regard_incident : forall (g : graph) id, number_of_edges_incident_to (rg g) id = number_of_edges_incident_to g id.
Proof.
  intros g id. unfold number_of_edges_incident_to, get_vertex. cbn [regard nodes edges]. rewrite nth_error_map. destruct (nth_error (nodes g) id); [|reflexivity].
  cbn [option_map]. f_equal. clear. induction (edges g) as [|e es IH]; [reflexivity|]. cbn [map filter]. change (includes (de e) id) with (includes e id).
  destruct (includes e id); cbn [List.length]; now rewrite IH.
Qed.
Lemma regard_marks : forall (g : graph) id es idx, incident_loop (rg g) id idx (map de es) = incident_loop g id idx es.
Proof.
  intros g id. induction es as [|e es IH]; intros idx; [reflexivity|]. cbn [map incident_loop]. rewrite IH. destruct (incident_loop g id (S idx) es) as [mn me].
  change (includes (de e) id) with (includes e id). change (src (de e)) with (src e). change (dst (de e)) with (dst e). now rewrite regard_incident.
Qed.

Lemma regard_remove_node : forall (g : graph) id, remove_node (rg g) id = onok rw (remove_node g id).
Proof.
  intros g id. unfold remove_node, remove_edges_incident_to_node. change (edges (rg g)) with (map de (edges g)). change (nodes (rg g)) with (map f (nodes g)).
  rewrite nth_error_map, regard_marks, regard_count, regard_ecount. destruct (nth_error (nodes g) id); [|reflexivity]. cbn [option_map].
  destruct (incident_loop g id 0 (edges g)) as [mn me]. destruct (remap_loop (id :: mn) (seq 0 (node_count g))) as [m|]; [|reflexivity]. cbn [bind].
  destruct (list_min (id :: mn)); [|reflexivity]. destruct (list_min me); [|reflexivity]. cbn [onok]. unfold regard_with, regard; cbn [fst snd nodes edges].
  rewrite !unmarked_dress, !map_map. reflexivity.
Qed.

Lemma regard_remove_edge : forall (g : graph) id, remove_edge (rg g) id = onok rw (remove_edge g id).
Proof.
  intros g id. unfold remove_edge. change (edges (rg g)) with (map de (edges g)). change (nodes (rg g)) with (map f (nodes g)). rewrite nth_error_map.
  destruct (nth_error (edges g) id) as [e|]; [|reflexivity]. cbn [option_map get_node_indices].
  unfold get_node_indices. change (src (de e)) with (src e). change (dst (de e)) with (dst e).
  rewrite !regard_incident, regard_ecount, !regard_remove_node. destruct (number_of_edges_incident_to g (src e)); [|reflexivity].
  destruct (Nat.eqb n 1); [reflexivity|]. destruct (number_of_edges_incident_to g (dst e)); [|reflexivity]. destruct (Nat.eqb n0 1); [reflexivity|].
  destruct (1 <? edge_count g)%nat; [|reflexivity]. rewrite <- map_rev. destruct (rev (edges g)) as [|h l]; [reflexivity|]. cbn [map].
  rewrite <- map_rev, set_dress. now destruct (set_nth id h (rev l)).
Qed.

Lemma regard_run : forall dT dT' rs (g : graph), run dT' (rg g) (map as_op rs) = onok rg (run dT g (map as_op rs)).
Proof.
  intros dT dT'. induction rs as [|r rs IH]; intros g; [reflexivity|]. cbn [map run].
  assert (S : step dT' (rg g) (as_op r) = onok rg (step dT g (as_op r))).
  { destruct r as [i|i]; cbn [as_op step].
    - rewrite regard_remove_node. now destruct (remove_node g i) as [[? ?]|].
    - rewrite regard_remove_edge. now destruct (remove_edge g i) as [[? ?]|]. }
  rewrite S. destruct (step dT g (as_op r)) as [g1|]; [|reflexivity]. cbn [onok bind]. apply IH.
Qed.
End Any.
