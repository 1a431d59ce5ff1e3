(** * Model of src/graph/planar_graph.rs (no proofs here).

    [NodeIndex]/[EdgeIndex] are usize; they are [nat] here (a Vec never has more than
    isize::MAX elements, so no addition overflows; the one subtraction that could
    underflow, remove_node's [index - back], is checked).  [println!] is omitted. *)
From Coq Require Import List Bool Arith String.
From Verif Require Import Scalar Utils Polygon.
Import ListNotations.

(** planar_graph.rs:15-24 *)
Record Node (A T : Type) := MkNode { position : Vec2 A; ndata : T; nlabel : string }.
(** planar_graph.rs:41-53 *)
Record Edge (U : Type) := MkEdge { src : nat; dst : nat; edata : U; elabel : string }.
(** planar_graph.rs:89-95 *)
Record PlanarGraph (A T U : Type) := MkGraph { nodes : list (Node A T); edges : list (Edge U) }.
Arguments MkNode {A T}. Arguments position {A T}. Arguments ndata {A T}. Arguments nlabel {A T}.
Arguments MkEdge {U}. Arguments src {U}. Arguments dst {U}. Arguments edata {U}. Arguments elabel {U}.
Arguments MkGraph {A T U}. Arguments nodes {A T U}. Arguments edges {A T U}.

(** planar_graph.rs:12 *)
Definition DEFAULT_LABEL : string := EmptyString.

(** planar_graph.rs:77-79 Edge::includes *)
Definition includes {U} (e : Edge U) (id : nat) : bool :=
  Nat.eqb (src e) id || Nat.eqb (dst e) id.

(** planar_graph.rs:65-67 Edge::get_node_indices *)
Definition get_node_indices {U} (e : Edge U) : nat * nat := (src e, dst e).

(** The result of add_edge: Ok((nodes, edges)) or Err(NoSuchVertex). *)
Inductive add_edge_result := AddOk (ns es : list nat) | NoSuchVertex.

(** Vec::contains on indices *)
Definition mem (i : nat) (l : list nat) : bool := existsb (Nat.eqb i) l.

(** Iterator::min on a list of indices *)
Fixpoint list_min (l : list nat) : option nat :=
  match l with
  | [] => None
  | x :: l' => match list_min l' with None => Some x | Some m => Some (Nat.min x m) end
  end.

(** [iter().enumerate().filter(|(i,_)| !marked.contains(i)).map(|p| p.1)];
    [i] is the index of the head *)
Fixpoint filter_unmarked {A} (marked : list nat) (i : nat) (l : list A) : list A :=
  match l with
  | [] => []
  | x :: l' =>
      if mem i marked then filter_unmarked marked (S i) l'
      else x :: filter_unmarked marked (S i) l'
  end.

(** Lookup in the HashMap of remapped indices (keys are inserted once each) *)
Fixpoint map_get (m : list (nat * nat)) (k : nat) : option nat :=
  match m with
  | [] => None
  | (k', v) :: m' => if Nat.eqb k k' then Some v else map_get m' k
  end.

Section GraphModel.
Context {O : Ops} {T U : Type}.
Variable default_T : T.   (* T::default() *)
Local Open Scope ops_scope.
Local Notation pt := (Vec2 O).
Local Notation node := (Node O T).
Local Notation edge := (Edge U).
Local Notation graph := (PlanarGraph O T U).

(** planar_graph.rs:102-107 new *)
Definition graph_new : graph := MkGraph [] [].
(** planar_graph.rs:110-112, 115-117 *)
Definition node_count (g : graph) : nat := List.length (nodes g).
Definition edge_count (g : graph) : nat := List.length (edges g).
(** planar_graph.rs:130-137 *)
Definition get_vertex (g : graph) (id : nat) : option node := nth_error (nodes g) id.
Definition get_edge (g : graph) (id : nat) : option edge := nth_error (edges g) id.
(** planar_graph.rs:139-145 *)
Definition has_node_at_index (g : graph) (id : nat) : bool :=
  (0 <? id)%nat && (id <? List.length (nodes g))%nat.
Definition has_edge_at_index (g : graph) (id : nat) : bool :=
  (0 <? id)%nat && (id <? List.length (edges g))%nat.

(** planar_graph.rs:148-156 has_edge_between_nodes *)
Fixpoint edge_between_loop (es : list edge) (a b : nat) : bool :=
  match es with
  | [] => false
  | e :: es' =>
      if (Nat.eqb a (src e) && Nat.eqb b (dst e)) || (Nat.eqb b (src e) && Nat.eqb a (dst e))
      then true else edge_between_loop es' a b
  end.
Definition has_edge_between_nodes (g : graph) (a b : nat) : bool :=
  edge_between_loop (edges g) a b.

(** planar_graph.rs:160-165 number_of_edges_incident_to *)
Definition number_of_edges_incident_to (g : graph) (id : nat) : option nat :=
  match get_vertex g id with
  | Some _ => Some (List.length (filter (fun e => includes e id) (edges g)))
  | None => None
  end.

(** planar_graph.rs:168-173 gather_node_positions *)
Definition gather_node_positions (g : graph) : list pt := map position (nodes g).

(** planar_graph.rs:249-279: the loop of split_edges_at_node.  Returns the rewritten
    edges, the additional edges and the changed indices; [index] is that of the head.
    The loop only writes the element it is looking at. *)
Fixpoint split_at_node_loop (ns : list node) (id : nat) (idx : nat) (es : list edge)
  : res (list edge * list edge * list nat) :=
  match es with
  | [] => Ok ([], [], [])
  | e :: es' =>
      let! ns_src := index ns (src e) in
      let! ns_dst := index ns (dst e) in
      let! ns_id := index ns id in
      let on_edge := is_on_line_segment (position ns_src) (position ns_dst) (position ns_id) false in
      let! (rewritten, additional, changed) := split_at_node_loop ns id (S idx) es' in
      if on_edge then
        Ok (MkEdge (src e) id (edata e) DEFAULT_LABEL :: rewritten,
            MkEdge (dst e) id (edata e) DEFAULT_LABEL :: additional,
            idx :: changed)
      else Ok (e :: rewritten, additional, changed)
  end.

(** planar_graph.rs:243-293 split_edges_at_node; 282-288 appends the additional edges
    one by one and reports their indices *)
Definition split_edges_at_node (g : graph) (id : nat) : res (graph * list nat) :=
  match nth_error (nodes g) id with
  | Some _ =>
      let! (rewritten, additional, changed) := split_at_node_loop (nodes g) id 0 (edges g) in
      Ok (MkGraph (nodes g) (rewritten ++ additional),
          changed ++ seq (List.length rewritten) (List.length additional))
  | None => Ok (g, [])
  end.

(** planar_graph.rs:180-200 add_node *)
Definition add_node (g : graph) (pos : pt) (data : T) : res (graph * (nat * list nat)) :=
  let '(closest, dist) := find_closest_to pos (gather_node_positions g) in
  if dist <? ceps then Ok (g, (closest, []))
  else
    let g1 := MkGraph (nodes g ++ [MkNode pos data DEFAULT_LABEL]) (edges g) in
    let! (g2, changed_edges) := split_edges_at_node g1 (node_count g1 - 1) in
    Ok (g2, ((node_count g2 - 1)%nat, changed_edges)).

(** planar_graph.rs:307-321: intersections of edge [id] with the others; [idx] is the
    index of the head of [es] *)
Fixpoint intersections_loop (g : graph) (id : nat) (idx : nat) (es : list edge)
  : res (list pt) :=
  match es with
  | [] => Ok []
  | e :: es' =>
      if negb (Nat.eqb id idx) then
        let! p := index (nodes g) (src e) in
        let! q := index (nodes g) (dst e) in
        let! eid := index (edges g) id in
        let! r := index (nodes g) (src eid) in
        let! s := index (nodes g) (dst eid) in
        let! rest := intersections_loop g id (S idx) es' in
        match calculate_line_segment_intersection (position p) (position q) (position r) (position s) with
        | Some i => Ok (i :: rest)
        | None => Ok rest
        end
      else intersections_loop g id (S idx) es'
  end.

(** planar_graph.rs:343-363: split at every intersection *)
Fixpoint split_at_points (g : graph) (ps : list pt) (changed_nodes changed_edges : list nat)
  : res (graph * (list nat * list nat)) :=
  match ps with
  | [] => Ok (g, (changed_nodes, changed_edges))
  | p :: ps' =>
      let '(closest, dist) := find_closest_to p (gather_node_positions g) in
      if dist <? ceps then
        let! (g', ces) := split_edges_at_node g closest in
        split_at_points g' ps' changed_nodes (changed_edges ++ ces)
      else
        let! (g', (node_index, edge_indices)) := add_node g p default_T in
        split_at_points g' ps' (changed_nodes ++ [node_index]) (changed_edges ++ edge_indices)
  end.

(** planar_graph.rs:298-366 split_edges_along_edge *)
Definition split_edges_along_edge (g : graph) (id : nat) : res (graph * (list nat * list nat)) :=
  let! intersections := intersections_loop g id 0 (edges g) in
  split_at_points g (unique_points_among intersections) [] [].

(** planar_graph.rs:204-239 add_edge *)
Definition add_edge (g : graph) (s d : nat) (data : U) : res (graph * add_edge_result) :=
  if negb (has_edge_between_nodes g s d) then
    match get_vertex g s, get_vertex g d with
    | Some _, Some _ =>
        let g1 := MkGraph (nodes g) (edges g ++ [MkEdge s d data DEFAULT_LABEL]) in
        let! (g2, (changed_nodes, changed_edges)) :=
          split_edges_along_edge g1 (edge_count g1 - 1) in
        let changed_edges :=
          match changed_edges with
          | [] => [(edge_count g2 - 1)%nat]
          | _ => changed_edges
          end in
        Ok (g2, AddOk changed_nodes changed_edges)
    | _, _ => Ok (g, NoSuchVertex)
    end
  else Ok (g, AddOk [] []).

(** planar_graph.rs:495-512: the loop of remove_edges_incident_to_node *)
Fixpoint incident_loop (g : graph) (id : nat) (idx : nat) (es : list edge)
  : list nat * list nat :=
  match es with
  | [] => ([], [])
  | e :: es' =>
      let '(mn, me) := incident_loop g id (S idx) es' in
      if includes e id then
        let neighbor := if Nat.eqb (src e) id then dst e else src e in
        match number_of_edges_incident_to g neighbor with
        | Some 1 => (neighbor :: mn, idx :: me)
        | _ => (mn, idx :: me)
        end
      else (mn, me)
  end.

(** planar_graph.rs:491-515 remove_edges_incident_to_node (marks only) *)
Definition remove_edges_incident_to_node (g : graph) (id : nat) : list nat * list nat :=
  incident_loop g id 0 (edges g).

(** planar_graph.rs:428-437: the remapping of surviving node indices; the checked
    subtraction [index - back] panics on underflow (debug build) *)
Fixpoint remap_loop (marked : list nat) (idxs : list nat) : res (list (nat * nat)) :=
  match idxs with
  | [] => Ok []
  | i :: idxs' =>
      if mem i marked then remap_loop marked idxs'
      else
        let back := List.length (filter (fun entry => entry <? i)%nat marked) in
        if (i <? back)%nat then Panic
        else
          let! rest := remap_loop marked idxs' in
          Ok ((i, (i - back)%nat) :: rest)
  end.

(** planar_graph.rs:469-478: renumber the ends of a surviving edge *)
Definition remap_edge (m : list (nat * nat)) (e : edge) : edge :=
  let s := match map_get m (src e) with Some v => v | None => src e end in
  let d := match map_get m (dst e) with Some v => v | None => dst e end in
  MkEdge s d (edata e) (elabel e).

(** planar_graph.rs:412-484 remove_node *)
Definition remove_node (g : graph) (id : nat) : res (graph * (list nat * list nat)) :=
  match nth_error (nodes g) id with
  | Some _ =>
      let '(stray_nodes, marked_edges) := remove_edges_incident_to_node g id in
      let marked_nodes := id :: stray_nodes in
      let! remapped := remap_loop marked_nodes (seq 0 (node_count g)) in
      match list_min marked_nodes, list_min marked_edges with
      | Some min_node, Some min_edge =>
          let changed_nodes := seq min_node (node_count g - min_node) in
          let changed_edges := seq min_edge (edge_count g - min_edge) in
          let nodes' := filter_unmarked marked_nodes 0 (nodes g) in
          let edges' := map (remap_edge remapped) (filter_unmarked marked_edges 0 (edges g)) in
          Ok (MkGraph nodes' edges', (changed_nodes, changed_edges))
      | _, _ => Panic
      end
  | None => Ok (g, ([], []))
  end.

(** planar_graph.rs:369-408 remove_edge *)
Definition remove_edge (g : graph) (id : nat) : res (graph * (list nat * list nat)) :=
  match nth_error (edges g) id with
  | Some e =>
      let '(index_a, index_b) := get_node_indices e in
      match number_of_edges_incident_to g index_a with
      | None => Panic
      | Some na =>
          if Nat.eqb na 1 then remove_node g index_a
          else
            match number_of_edges_incident_to g index_b with
            | None => Panic
            | Some nb =>
                if Nat.eqb nb 1 then remove_node g index_b
                else if (1 <? edge_count g)%nat then
                  let changed_edges := [id; (edge_count g - 1)%nat] in
                  match rev (edges g) with
                  | [] => Panic
                  | last :: rest_rev =>
                      let! es := set_nth id last (rev rest_rev) in
                      Ok (MkGraph (nodes g) es, ([], changed_edges))
                  end
                else Ok (g, ([], [id]))
            end
      end
  | None => Ok (g, ([], []))
  end.

(** The public mutating operations, as data; histories are lists of them. *)
Inductive op :=
| OAddNode (pos : pt) (data : T)
| OAddEdge (s d : nat) (data : U)
| ORemoveNode (id : nat)
| ORemoveEdge (id : nat).

(** Effect of one call on the graph (return values dropped). *)
Definition step (g : graph) (o : op) : res graph :=
  match o with
  | OAddNode p d => let! (g', _) := add_node g p d in Ok g'
  | OAddEdge s d u => let! (g', _) := add_edge g s d u in Ok g'
  | ORemoveNode i => let! (g', _) := remove_node g i in Ok g'
  | ORemoveEdge i => let! (g', _) := remove_edge g i in Ok g'
  end.

(** A history; stops at the first panic. *)
Fixpoint run (g : graph) (os : list op) : res graph :=
  match os with
  | [] => Ok g
  | o :: os' => let! g' := step g o in run g' os'
  end.

(** The graphs a caller can hold. *)
Definition reachable (g : graph) : Prop := exists os, run graph_new os = Ok g.

End GraphModel.
