(** * C153: in f32, edges between nodes that are not a finite distance apart do not take
    part in the splitting.

    [apart_at ns s d]: nodes s and d exist and the difference of their x or y coordinates is
    infinite or NaN, because a coordinate is or because the difference overflows.  [thaw g]
    is g without the edges between such nodes, [frost g] those edges. *)
From Coq Require Import List Arith Bool Lia ZArith.
From Flocq Require Import Core.Core IEEE754.BinarySingleNaN.
From Verif Require Import Scalar Utils Polygon Graph GraphSpec F32 GraphDemo UtilsF32 PolyF32 PolyNewF32
  GraphHistory Properties_Utils Properties_Polygon Properties_Grid Properties_GridGraph LoopsSpec FrozenSpec Frozen.
Import ListNotations.

Theorem C153_node :
  forall lm (T U : Type) (g g' : PlanarGraph (FO lm) T U) p v i ces, valid g -> add_node g p v = Ok (g', (i, ces)) ->
  valid g' /\ (exists l, nodes g' = nodes g ++ l) /\ frost g' = frost g /\
  exists ces', add_node (thaw g) p v = Ok (thaw g', (i, ces')).
Proof. intros lm T U. exact (@thaw_node lm T U). Qed.
Print Assumptions C153_node.

Theorem C153_edge :
  forall lm (T U : Type) (dT : T) (g g' : PlanarGraph (FO lm) T U) s d u r, valid g -> apart_at (nodes g) s d = false ->
  add_edge dT g s d u = Ok (g', r) ->
  valid g' /\ frost g' = frost g /\ exists r', add_edge dT (thaw g) s d u = Ok (thaw g', r') /\ new_nodes r' = new_nodes r.
Proof. intros lm T U dT. exact (thaw_edge dT). Qed.
Print Assumptions C153_edge.

Theorem C153_apart :
  forall lm (T U : Type) (dT : T) (g g' : PlanarGraph (FO lm) T U) s d u r, valid g -> apart_at (nodes g) s d = true ->
  add_edge dT g s d u = Ok (g', r) ->
  valid g' /\ thaw g' = thaw g /\
  (~ adjacent g s d -> g' = MkGraph (nodes g) (edges g ++ [MkEdge s d u DEFAULT_LABEL]) /\ r = AddOk [] [edge_count g]) /\
  (adjacent g s d -> g' = g).
Proof. intros lm T U dT. exact (frozen_edge dT). Qed.
Print Assumptions C153_apart.

(** [run_thaw] leaves out the requests for edges between such nodes. *)
Theorem C153_history :
  forall lm (T U : Type) (dT : T) os (g g' : PlanarGraph (FO lm) T U), valid g -> Forall adding os -> run dT g os = Ok g' ->
  run_thaw dT (thaw g) os = Ok (thaw g').
Proof. intros lm T U dT. exact (thaw_run dT). Qed.
Print Assumptions C153_history.

(** A node at infinity, a node at NaN and two finite nodes whose difference overflows, with
    edges 0-2, 1-3 and 4-5 between them; the crossing of 0-1 and 6-7 becomes node 8 all the
    same, although 4-5 runs along 0-1. *)
Local Notation N x y := (OAddNode (xy x y : Vec2 (FO lm0)) 7%nat).
Local Notation F x := (OAddNode (P2 (x : f32) (f32_Z 0) : Vec2 (FO lm0)) 7%nat).
Definition far_ops : list (@op (FO lm0) nat nat) :=
  [N (-4) 0; N 4 0; F (B754_infinity false); F B754_nan; F (f32_of 16777215 104); F (f32_of (-16777215) 104);
   OAddEdge 0 2 1%nat; OAddEdge 1 3 2%nat; OAddEdge 4 5 3%nat; N 0 (-4); N 0 4; OAddEdge 0 1 4%nat; OAddEdge 6 7 5%nat].
Definition shape (r : res (PlanarGraph (FO lm0) nat nat)) : option (nat * list (nat * nat)) :=
  match r with Ok g => Some (node_count g, map (fun f => (src f, dst f)) (edges g)) | Panic => None end.
Definition rthaw (r : res (PlanarGraph (FO lm0) nat nat)) := match r with Ok g => Ok (thaw g) | Panic => Panic end.
Example C153_example :
  valid (@graph_new (FO lm0) nat nat) /\ Forall adding far_ops /\
  shape (run 0%nat graph_new far_ops) =
    Some (9, [(0, 2); (1, 3); (4, 5); (0, 8); (6, 8); (1, 8); (7, 8)])%nat /\
  shape (run_thaw 0%nat graph_new far_ops) = Some (9, [(0, 8); (6, 8); (1, 8); (7, 8)])%nat /\
  shape (rthaw (run 0%nat graph_new far_ops)) = Some (9, [(0, 8); (6, 8); (1, 8); (7, 8)])%nat.
Proof. split; [intros e []|]. split; [repeat constructor|]. repeat split; vm_compute; reflexivity. Qed.
