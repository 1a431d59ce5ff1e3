(** * Data and labels are carried, never read (proofs for C154). *)
From Coq Require Import List Arith Bool Lia String.
From Verif Require Import Scalar Utils Polygon Graph GraphSpec CarrySpec.
Import ListNotations.

Section Any.
Context {O : Ops} {T U T' U' : Type} (ft : T -> T') (fu : U -> U') (fn fe : string -> string).
Hypothesis Hn : fn DEFAULT_LABEL = DEFAULT_LABEL.
Hypothesis He : fe DEFAULT_LABEL = DEFAULT_LABEL.
Context (dT : T).
Local Notation graph := (PlanarGraph O T U).
Local Notation dg := (@dress O T U T' U' ft fu fn fe).
Local Notation dn := (@dress_node O T T' ft fn).
Local Notation de := (dress_edge fu fe).
Local Notation dw := (dress_with ft fu fn fe).
Local Notation d_op := (@dress_op O T U T' U' ft fu).

Lemma nth_dress : forall A B (f : A -> B) l i, nth_error (map f l) i = option_map f (nth_error l i).
Proof. intros. apply nth_error_map. Qed.
Lemma index_dress : forall A B (f : A -> B) l i, index (map f l) i = onok f (index l i).
Proof. intros. unfold index. rewrite nth_error_map. now destruct (nth_error l i). Qed.

Lemma new_edge : forall a b u, de (MkEdge a b u DEFAULT_LABEL) = MkEdge a b (fu u) DEFAULT_LABEL.
Proof. intros. unfold dress_edge. cbn [src dst edata elabel]. now rewrite He. Qed.
Lemma new_node : forall p v, dn (MkNode p v DEFAULT_LABEL) = MkNode p (ft v) DEFAULT_LABEL.
Proof. intros. unfold dress_node. cbn [position ndata nlabel]. now rewrite Hn. Qed.

Lemma dress_loop : forall ns id es idx,
  split_at_node_loop (map dn ns) id idx (map de es) =
  onok (fun x => (map de (fst (fst x)), map de (snd (fst x)), snd x)) (split_at_node_loop ns id idx es).
Proof.
  intros ns id. induction es as [|e es IH]; intros idx; [reflexivity|]. cbn [map split_at_node_loop]. rewrite !index_dress.
  change (src (de e)) with (src e). change (dst (de e)) with (dst e).
  destruct (index ns (src e)) as [a|]; [|reflexivity]. destruct (index ns (dst e)) as [b|]; [|reflexivity].
  destruct (index ns id) as [c|]; [|reflexivity]. cbn [onok bind]. rewrite IH.
  destruct (split_at_node_loop ns id (S idx) es) as [[[rw ad] ch]|]; [|reflexivity]. cbn [onok bind fst snd].
  change (position (dn a)) with (position a). change (position (dn b)) with (position b). change (position (dn c)) with (position c).
  destruct (is_on_line_segment (position a) (position b) (position c) false); cbn [onok fst snd map]; [|reflexivity].
  rewrite !new_edge. reflexivity.
Qed.

Lemma dress_split : forall (g : graph) id, split_edges_at_node (dg g) id = onok dw (split_edges_at_node g id).
Proof.
  intros g id. unfold split_edges_at_node. cbn [dress nodes edges]. rewrite nth_dress.
  destruct (nth_error (nodes g) id); [|reflexivity]. cbn [option_map]. rewrite dress_loop.
  destruct (split_at_node_loop (nodes g) id 0 (edges g)) as [[[rw ad] ch]|]; [|reflexivity].
  cbn [onok bind fst snd]. unfold dress_with, dress; cbn [fst snd nodes edges]. now rewrite map_app, !map_length.
Qed.

Lemma dress_gather : forall g : graph, gather_node_positions (dg g) = gather_node_positions g.
Proof. intros g. unfold gather_node_positions. cbn [dress nodes]. rewrite map_map. reflexivity. Qed.
Lemma dress_count : forall g : graph, node_count (dg g) = node_count g.
Proof. intros g. apply map_length. Qed.
Lemma dress_ecount : forall g : graph, edge_count (dg g) = edge_count g.
Proof. intros g. apply map_length. Qed.

Lemma dress_add_node : forall (g : graph) p v, add_node (dg g) p (ft v) = onok dw (add_node g p v).
Proof.
  intros g p v. unfold add_node. rewrite dress_gather. destruct (find_closest_to p (gather_node_positions g)) as [k dist].
  destruct (olt dist ceps); [reflexivity|].
  set (g1 := {| nodes := nodes g ++ [{| position := p; ndata := v; nlabel := DEFAULT_LABEL |}]; edges := edges g |}).
  replace {| nodes := nodes (dg g) ++ [{| position := p; ndata := ft v; nlabel := DEFAULT_LABEL |}]; edges := edges (dg g) |} with (dg g1).
  2: { unfold dress, g1; cbn [nodes edges]. rewrite map_app. cbn [map]. now rewrite new_node. }
  rewrite dress_count, dress_split. destruct (split_edges_at_node g1 (node_count g1 - 1)) as [[g2 ch]|]; [|reflexivity].
  cbn [onok bind]. unfold dress_with at 1 2; cbn [fst snd]. now rewrite dress_count.
Qed.

Lemma dress_cuts : forall (g : graph) id es idx, intersections_loop (dg g) id idx (map de es) = intersections_loop g id idx es.
Proof.
  intros g id. induction es as [|e es IH]; intros idx; [reflexivity|]. cbn [map intersections_loop]. rewrite IH.
  destruct (Nat.eqb id idx); [reflexivity|]. cbn [negb dress nodes edges]. rewrite !index_dress.
  change (src (de e)) with (src e). change (dst (de e)) with (dst e).
  destruct (index (nodes g) (src e)) as [a|]; [|reflexivity]. destruct (index (nodes g) (dst e)) as [b|]; [|reflexivity].
  destruct (index (edges g) id) as [f|]; [|reflexivity]. cbn [onok bind]. rewrite !index_dress.
  change (src (de f)) with (src f). change (dst (de f)) with (dst f).
  destruct (index (nodes g) (src f)) as [r|]; [|reflexivity]. destruct (index (nodes g) (dst f)) as [s|]; [|reflexivity]. reflexivity.
Qed.

Lemma dress_points : forall ps (g : graph) cn ce, split_at_points (ft dT) (dg g) ps cn ce = onok dw (split_at_points dT g ps cn ce).
Proof.
  induction ps as [|p ps IH]; intros g cn ce; [reflexivity|]. cbn [split_at_points]. rewrite dress_gather.
  destruct (find_closest_to p (gather_node_positions g)) as [k dist]. destruct (olt dist ceps).
  - rewrite dress_split. destruct (split_edges_at_node g k) as [[g1 c1]|]; [|reflexivity]. cbn [onok bind]. unfold dress_with at 1; cbn [fst snd]. apply IH.
  - rewrite dress_add_node. destruct (add_node g p dT) as [[g1 [i c1]]|]; [|reflexivity]. cbn [onok bind]. unfold dress_with at 1; cbn [fst snd]. apply IH.
Qed.

Lemma dress_between : forall (es : list (Edge U)) a b, edge_between_loop (map de es) a b = edge_between_loop es a b.
Proof. intros es a b. induction es as [|e es IH]; [reflexivity|]. cbn [map edge_between_loop]. rewrite IH. reflexivity. Qed.

Lemma dress_add_edge : forall (g : graph) s d u, add_edge (ft dT) (dg g) s d (fu u) = onok dw (add_edge dT g s d u).
Proof.
  intros g s d u. unfold add_edge, has_edge_between_nodes, get_vertex. cbn [dress nodes edges]. rewrite dress_between, !nth_dress.
  destruct (edge_between_loop (edges g) s d); [reflexivity|]. cbn [negb].
  destruct (nth_error (nodes g) s); [|reflexivity]. destruct (nth_error (nodes g) d); [|reflexivity]. cbn [option_map].
  set (g1 := {| nodes := nodes g; edges := edges g ++ [{| src := s; dst := d; edata := u; elabel := DEFAULT_LABEL |}] |}).
  replace {| nodes := map dn (nodes g); edges := map de (edges g) ++ [{| src := s; dst := d; edata := fu u; elabel := DEFAULT_LABEL |}] |} with (dg g1).
  2: { unfold dress, g1; cbn [nodes edges]. rewrite map_app. cbn [map]. now rewrite new_edge. }
  unfold split_edges_along_edge. rewrite dress_ecount. change (edges (dg g1)) with (map de (edges g1)). rewrite dress_cuts.
  destruct (intersections_loop g1 (edge_count g1 - 1) 0 (edges g1)) as [l|]; [|reflexivity]. cbn [bind]. rewrite dress_points.
  destruct (split_at_points dT g1 (unique_points_among l) [] []) as [[g2 [cn ce]]|]; [|reflexivity].
  cbn [onok bind]. unfold dress_with at 1 2; cbn [fst snd]. now rewrite dress_ecount.
Qed.

Lemma dress_incident : forall (g : graph) id, number_of_edges_incident_to (dg g) id = number_of_edges_incident_to g id.
Proof.
  intros g id. unfold number_of_edges_incident_to, get_vertex. cbn [dress nodes edges]. rewrite nth_dress. destruct (nth_error (nodes g) id); [|reflexivity].
  cbn [option_map]. f_equal. clear. induction (edges g) as [|e es IH]; [reflexivity|]. cbn [map filter]. change (includes (de e) id) with (includes e id).
  destruct (includes e id); cbn [List.length]; now rewrite IH.
Qed.
Lemma dress_marks : forall (g : graph) id es idx, incident_loop (dg g) id idx (map de es) = incident_loop g id idx es.
Proof.
  intros g id. induction es as [|e es IH]; intros idx; [reflexivity|]. cbn [map incident_loop]. rewrite IH. destruct (incident_loop g id (S idx) es) as [mn me].
  change (includes (de e) id) with (includes e id). change (src (de e)) with (src e). change (dst (de e)) with (dst e). now rewrite dress_incident.
Qed.
Lemma unmarked_dress : forall A B (f : A -> B) m l i, filter_unmarked m i (map f l) = map f (filter_unmarked m i l).
Proof. intros A B f m. induction l as [|x l IH]; intros i; [reflexivity|]. cbn [map filter_unmarked]. rewrite IH. now destruct (mem i m). Qed.

Lemma dress_remove_node : forall (g : graph) id, remove_node (dg g) id = onok dw (remove_node g id).
Proof.
  intros g id. unfold remove_node, remove_edges_incident_to_node. change (edges (dg g)) with (map de (edges g)). change (nodes (dg g)) with (map dn (nodes g)).
  rewrite nth_dress, dress_marks, dress_count, dress_ecount. destruct (nth_error (nodes g) id); [|reflexivity]. cbn [option_map].
  destruct (incident_loop g id 0 (edges g)) as [mn me]. destruct (remap_loop (id :: mn) (seq 0 (node_count g))) as [m|]; [|reflexivity]. cbn [bind].
  destruct (list_min (id :: mn)); [|reflexivity]. destruct (list_min me); [|reflexivity]. cbn [onok]. unfold dress_with, dress; cbn [fst snd nodes edges].
  rewrite !unmarked_dress, !map_map. reflexivity.
Qed.

Lemma set_dress : forall A B (f : A -> B) l i x, set_nth i (f x) (map f l) = onok (map f) (set_nth i x l).
Proof.
  intros A B f. induction l as [|y l IH]; intros [|i] x; try reflexivity. cbn [map set_nth]. rewrite IH. now destruct (set_nth i x l).
Qed.

Lemma dress_remove_edge : forall (g : graph) id, remove_edge (dg g) id = onok dw (remove_edge g id).
Proof.
  intros g id. unfold remove_edge. change (edges (dg g)) with (map de (edges g)). change (nodes (dg g)) with (map dn (nodes g)). rewrite nth_dress.
  destruct (nth_error (edges g) id) as [e|]; [|reflexivity]. cbn [option_map get_node_indices]. change (src (de e)) with (src e). change (dst (de e)) with (dst e).
  unfold get_node_indices. change (src (de e)) with (src e). change (dst (de e)) with (dst e).
  rewrite !dress_incident, dress_ecount, !dress_remove_node. destruct (number_of_edges_incident_to g (src e)); [|reflexivity].
  destruct (Nat.eqb n 1); [reflexivity|]. destruct (number_of_edges_incident_to g (dst e)); [|reflexivity]. destruct (Nat.eqb n0 1); [reflexivity|].
  destruct (1 <? edge_count g)%nat; [|reflexivity]. rewrite <- map_rev. destruct (rev (edges g)) as [|f l]; [reflexivity|]. cbn [map].
  rewrite <- map_rev, set_dress. now destruct (set_nth id f (rev l)).
Qed.

Lemma dress_step : forall (g : graph) o, step (ft dT) (dg g) (d_op o) = onok dg (step dT g o).
Proof.
  intros g [p v|s d u|i|i]; cbn [dress_op step].
  - rewrite dress_add_node. now destruct (add_node g p v) as [[? ?]|].
  - rewrite dress_add_edge. now destruct (add_edge dT g s d u) as [[? ?]|].
  - rewrite dress_remove_node. now destruct (remove_node g i) as [[? ?]|].
  - rewrite dress_remove_edge. now destruct (remove_edge g i) as [[? ?]|].
Qed.

Lemma dress_run : forall os (g : graph), run (ft dT) (dg g) (map d_op os) = onok dg (run dT g os).
Proof.
  induction os as [|o os IH]; intros g; [reflexivity|]. cbn [map run]. rewrite dress_step. destruct (step dT g o) as [g1|]; [|reflexivity]. cbn [onok bind]. apply IH.
Qed.
End Any.
