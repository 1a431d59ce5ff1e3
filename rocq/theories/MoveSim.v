(** * A map of points that keeps the computed distances and the computed crossings commutes
    with the graph code, in any arithmetic. *)
From Coq Require Import List Arith Bool Lia String.
From Verif Require Import Scalar Utils Polygon Graph GraphSpec SimSpec GraphAdd IsoSpec.
Import ListNotations.

Section Move.
Context {O : Ops} {T U : Type} (dT : T) (f : Vec2 O -> Vec2 O).
Context (Hdist : forall a b, distance (f a) (f b) = distance a b).
Context (Hcross : forall a b c d, calculate_line_segment_intersection (f a) (f b) (f c) (f d) =
  option_map f (calculate_line_segment_intersection a b c d)).
Local Notation graph := (PlanarGraph O T U).
Local Notation mg := (move_graph (O := O) (T := T) (U := U) f).
Local Notation mo := (move_out (O := O) (T := T) (U := U) f).

Lemma mv_closest : forall p ps, find_closest_to (f p) (map f ps) = find_closest_to p ps.
Proof.
  intros p ps. unfold find_closest_to. f_equal. rewrite map_map. apply map_ext. intros q. apply Hdist.
Qed.
Lemma mv_on : forall a b p i, is_on_line_segment (f a) (f b) (f p) i = is_on_line_segment a b p i.
Proof. intros. unfold is_on_line_segment. now rewrite !Hdist. Qed.
Lemma mv_close : forall a b, close_to (f a) (f b) = close_to a b.
Proof. intros. unfold close_to. now rewrite Hdist. Qed.
Lemma mv_has_close : forall a i ps j, has_close_other (f a) i j (map f ps) = has_close_other a i j ps.
Proof.
  intros a i ps. induction ps as [|b ps IH]; intros j; [reflexivity|].
  cbn [has_close_other map]. now rewrite mv_close, IH.
Qed.
Lemma mv_unique : forall all rest i, unique_loop (map f all) (map f rest) i = map f (unique_loop all rest i).
Proof.
  intros all rest. induction rest as [|a rest IH]; intros i; [reflexivity|].
  cbn [unique_loop map]. rewrite mv_has_close, IH. now destruct (negb (has_close_other a i 0 all)).
Qed.

Lemma mv_index : forall (ns : list (Node O T)) i, index (map (move_node f) ns) i =
  match index ns i with Ok n => Ok (move_node f n) | Panic => Panic end.
Proof. intros. unfold index. rewrite nth_error_map. now destruct (nth_error ns i). Qed.

Lemma mv_loop : forall (ns : list (Node O T)) id (es : list (Edge U)) idx,
  split_at_node_loop (map (move_node f) ns) id idx es = split_at_node_loop ns id idx es.
Proof.
  intros ns id es. induction es as [|e es IH]; intros idx; [reflexivity|].
  cbn [split_at_node_loop]. rewrite !mv_index.
  destruct (index ns (src e)) as [a|]; [|reflexivity].
  destruct (index ns (dst e)) as [b|]; [|reflexivity].
  destruct (index ns id) as [n|]; [|reflexivity].
  cbn [bind position move_node]. now rewrite mv_on, IH.
Qed.
Lemma mv_split : forall (g : graph) k, split_edges_at_node (mg g) k = mo (split_edges_at_node g k).
Proof.
  intros g k. unfold split_edges_at_node, move_graph; cbn [nodes edges]. rewrite nth_error_map, mv_loop.
  destruct (nth_error (nodes g) k); cbn [option_map]; [|reflexivity].
  destruct (split_at_node_loop (nodes g) k 0 (edges g)) as [[[rw ad] ch]|]; reflexivity.
Qed.
Lemma mv_positions : forall g : graph, gather_node_positions (mg g) = map f (gather_node_positions g).
Proof. intros g. unfold gather_node_positions, move_graph; cbn [nodes]. now rewrite !map_map. Qed.
Lemma mv_count : forall g : graph, node_count (mg g) = node_count g.
Proof. intros g. apply map_length. Qed.

Lemma mv_add_node : forall (g : graph) p d, add_node (mg g) (f p) d = mo (add_node g p d).
Proof.
  intros g p d. unfold add_node. rewrite mv_positions, mv_closest.
  destruct (find_closest_to p (gather_node_positions g)) as [i d0].
  destruct (olt d0 ceps); [reflexivity|].
  set (g1 := MkGraph (nodes g ++ [MkNode p d DEFAULT_LABEL]) (edges g)).
  assert (E : MkGraph (nodes (mg g) ++ [MkNode (f p) d DEFAULT_LABEL]) (edges (mg g)) = mg g1).
  { unfold move_graph, g1; cbn [nodes edges]. now rewrite map_app. }
  rewrite E, mv_count, mv_split.
  destruct (split_edges_at_node g1 (node_count g1 - 1)) as [[g2 ces]|]; cbn [move_out bind]; [|reflexivity].
  now rewrite mv_count.
Qed.

Lemma mv_inters : forall (g : graph) id es idx,
  intersections_loop (mg g) id idx es =
  match intersections_loop g id idx es with Ok l => Ok (map f l) | Panic => Panic end.
Proof.
  intros g id es. induction es as [|e es IH]; intros idx; [reflexivity|].
  cbn [intersections_loop]. destruct (negb (id =? idx)); [|apply IH].
  cbn [move_graph nodes edges]. rewrite !mv_index.
  destruct (index (nodes g) (src e)) as [a|]; [|reflexivity].
  destruct (index (nodes g) (dst e)) as [b|]; [|reflexivity].
  cbn [bind]. destruct (index (edges g) id) as [h|]; [|reflexivity].
  cbn [bind]. rewrite !mv_index.
  destruct (index (nodes g) (src h)) as [c|]; [|reflexivity].
  destruct (index (nodes g) (dst h)) as [d|]; [|reflexivity].
  cbn [bind]. fold (mg g). rewrite IH.
  destruct (intersections_loop g id (S idx) es) as [rest|]; [|reflexivity].
  cbn [bind move_node position]. rewrite Hcross.
  now destruct (calculate_line_segment_intersection (position a) (position b) (position c) (position d)).
Qed.

Lemma mv_points : forall ps (g : graph) cn ce,
  split_at_points dT (mg g) (map f ps) cn ce = mo (split_at_points dT g ps cn ce).
Proof.
  induction ps as [|p ps IH]; intros g cn ce; [reflexivity|].
  cbn [split_at_points map]. rewrite mv_positions, mv_closest, mv_add_node.
  destruct (find_closest_to p (gather_node_positions g)) as [i d0].
  destruct (olt d0 ceps).
  - rewrite mv_split. destruct (split_edges_at_node g i) as [[g1 ces]|]; cbn [move_out bind]; [apply IH|reflexivity].
  - destruct (add_node g p dT) as [[g1 [ni ces]]|]; cbn [move_out bind]; [apply IH|reflexivity].
Qed.

Lemma mv_add_edge : forall (g : graph) s d u, add_edge dT (mg g) s d u = mo (add_edge dT g s d u).
Proof.
  intros g s d u. unfold add_edge.
  change (has_edge_between_nodes (mg g) s d) with (has_edge_between_nodes g s d).
  destruct (negb (has_edge_between_nodes g s d)); [|reflexivity].
  unfold get_vertex. cbn [move_graph nodes edges]. rewrite !nth_error_map.
  destruct (nth_error (nodes g) s) as [a|]; cbn [option_map]; [|reflexivity].
  destruct (nth_error (nodes g) d) as [b|]; cbn [option_map]; [|reflexivity].
  set (g1 := MkGraph (nodes g) (edges g ++ [MkEdge s d u DEFAULT_LABEL])).
  change (MkGraph (map (move_node f) (nodes g)) (edges g ++ [MkEdge s d u DEFAULT_LABEL])) with (mg g1).
  change (edge_count (mg g1)) with (edge_count g1).
  unfold split_edges_along_edge. change (edges (mg g1)) with (edges g1). rewrite mv_inters.
  destruct (intersections_loop g1 (edge_count g1 - 1) 0 (edges g1)) as [l|]; cbn [bind]; [|reflexivity].
  unfold unique_points_among. rewrite mv_unique, mv_points.
  destruct (split_at_points dT g1 (unique_loop l l 0) [] []) as [[g2 [cn ce]]|]; reflexivity.
Qed.

(** Removals do not look at positions. *)
Lemma mv_filter : forall marked (ns : list (Node O T)) i,
  filter_unmarked marked i (map (move_node f) ns) = map (move_node f) (filter_unmarked marked i ns).
Proof.
  intros marked ns. induction ns as [|n ns IH]; intros i; [reflexivity|].
  cbn [filter_unmarked map]. rewrite IH. now destruct (mem i marked).
Qed.
Lemma mv_incident : forall (g : graph) i, number_of_edges_incident_to (mg g) i = number_of_edges_incident_to g i.
Proof.
  intros g i. unfold number_of_edges_incident_to, get_vertex. cbn [move_graph nodes edges]. rewrite nth_error_map.
  now destruct (nth_error (nodes g) i).
Qed.
Lemma mv_incident_loop : forall (g : graph) id es idx, incident_loop (mg g) id idx es = incident_loop g id idx es.
Proof.
  intros g id es. induction es as [|e es IH]; intros idx; [reflexivity|].
  cbn [incident_loop]. rewrite IH, mv_incident. reflexivity.
Qed.
Lemma mv_remove_node : forall (g : graph) id, remove_node (mg g) id = mo (remove_node g id).
Proof.
  intros g id. unfold remove_node, remove_edges_incident_to_node. cbn [move_graph nodes edges].
  fold (mg g). rewrite nth_error_map, mv_incident_loop.
  change (edge_count (mg g)) with (edge_count g). rewrite mv_count.
  destruct (nth_error (nodes g) id); cbn [option_map]; [|reflexivity].
  destruct (incident_loop g id 0 (edges g)) as [sn me].
  destruct (remap_loop (id :: sn) (seq 0 (node_count g))) as [m|]; cbn [bind]; [|reflexivity].
  destruct (list_min (id :: sn)); [|reflexivity]. destruct (list_min me); [|reflexivity].
  rewrite mv_filter. reflexivity.
Qed.
Lemma mv_remove_edge : forall (g : graph) id, remove_edge (mg g) id = mo (remove_edge g id).
Proof.
  intros g id. unfold remove_edge. change (edges (mg g)) with (edges g).
  destruct (nth_error (edges g) id) as [e|]; [|reflexivity].
  destruct (get_node_indices e) as [a b]. rewrite !mv_incident.
  destruct (number_of_edges_incident_to g a) as [na|]; [|reflexivity].
  destruct (na =? 1); [apply mv_remove_node|].
  destruct (number_of_edges_incident_to g b) as [nb|]; [|reflexivity].
  destruct (nb =? 1); [apply mv_remove_node|].
  change (edge_count (mg g)) with (edge_count g).
  destruct (1 <? edge_count g); [|reflexivity].
  destruct (rev (edges g)) as [|last r]; [reflexivity|].
  now destruct (set_nth id last (rev r)).
Qed.

Theorem mv_call : forall (g : graph) o, call dT (mg g) (move_op f o) = mo (call dT g o).
Proof.
  intros g [p d|s d u|i|i]; cbn [call move_op].
  - rewrite mv_add_node. now destruct (add_node g p d) as [[g1 [i es]]|].
  - rewrite mv_add_edge. now destruct (add_edge dT g s d u) as [[g1 r]|].
  - rewrite mv_remove_node. now destruct (remove_node g i) as [[g1 [ns es]]|].
  - rewrite mv_remove_edge. now destruct (remove_edge g i) as [[g1 [ns es]]|].
Qed.
Theorem mv_calls : forall os (g : graph), calls dT (mg g) (map (move_op f) os) = mo (calls dT g os).
Proof.
  induction os as [|o os IH]; intros g; cbn [calls map]; [reflexivity|].
  rewrite mv_call. destruct (call dT g o) as [[g1 a]|]; cbn [move_out bind]; [|reflexivity].
  rewrite IH. now destruct (calls dT g1 os) as [[g2 l]|].
Qed.
End Move.
