(** * C155: edges that a call does not meet may be left out.

    [part m g]: the graph with only the edges marked [true] in [m]; [left_out m]: the other
    edges.  [grown m n]: the same marks for [n] slots, the appended slots kept.
    [unmet g s d e]: no node and no cut of the requested edge counts as lying on [e], which
    is not cut itself and does not join [s] and [d].  [stands_clear ps s d e]: in the plane,
    [e] and the segment from [s] to [d] have no common point, and neither that segment nor
    a node comes into the needle around [e]. *)
From Coq Require Import List Arith Bool Lia Reals Lra ZArith.
From Flocq Require Import Core.Core IEEE754.BinarySingleNaN.
From Verif Require Import Scalar Utils Polygon Graph GraphSpec PlaneSpec PlanarSpec F32 Laws UtilsReal UtilsF32 GraphDemo PlanarDemo LoopsSpec FrameSpec Frame.
Import ListNotations.

Theorem C155_node :
  forall (O : Ops) (T U : Type) m (g g' : PlanarGraph O T U) p v i ces, length m = edge_count g ->
  (forall e n, In e (left_out m (edges g)) -> In n (nodes g) -> misses (nodes g) e (position n)) ->
  (forall e, In e (left_out m (edges g)) -> misses (nodes g) e p) ->
  add_node g p v = Ok (g', (i, ces)) ->
  left_out (grown m (edge_count g')) (edges g') = left_out m (edges g) /\
  exists ces', add_node (part m g) p v = Ok (part (grown m (edge_count g')) g', (i, ces')).
Proof. intros O T U m g g' p v i ces L M Mp H. destruct (frame_node m g g' p v i ces L M Mp H) as (_ & _ & _ & E1 & E2). auto. Qed.
Print Assumptions C155_node.

Theorem C155_edge :
  forall (O : Ops) (T U : Type) (dT : T) m (g g' : PlanarGraph O T U) s d u r, length m = edge_count g ->
  (forall e, In e (left_out m (edges g)) -> unmet g s d e) ->
  add_edge dT g s d u = Ok (g', r) ->
  left_out (grown m (edge_count g')) (edges g') = left_out m (edges g) /\
  exists r', add_edge dT (part m g) s d u = Ok (part (grown m (edge_count g')) g', r') /\ new_nodes r' = new_nodes r.
Proof. intros O T U dT m g g' s d u r L M H. exact (proj2 (frame_edge dT m g g' s d u r L M H)). Qed.
Print Assumptions C155_edge.

Theorem C155_history :
  forall (O : Ops) (T U : Type) (dT : T) (os : list (@op O T U)) m g g', length m = edge_count g ->
  unmets dT m g os -> run dT g os = Ok g' ->
  left_out (grown m (edge_count g')) (edges g') = left_out m (edges g) /\
  run dT (part m g) os = Ok (part (grown m (edge_count g')) g').
Proof. intros O T U dT os m g g' L M H. exact (proj2 (frame_history dT os m g g' L M H)). Qed.
Print Assumptions C155_history.

Theorem C155_plane :
  forall (T U : Type) (dT : T) m (g g' : PlanarGraph XO T U) ps s d u r, length m = edge_count g -> drawn g ps ->
  (forall e, In e (left_out m (edges g)) -> stands_clear ps s d e) ->
  add_edge dT g s d u = Ok (g', r) ->
  left_out (grown m (edge_count g')) (edges g') = left_out m (edges g) /\
  exists r', add_edge dT (part m g) s d u = Ok (part (grown m (edge_count g')) g', r') /\ new_nodes r' = new_nodes r.
Proof.
  intros T U dT m g g' ps s d u r L D M H.
  exact (C155_edge XO T U dT m g g' s d u r L (fun e He => clear_unmet g ps s d e D (M e He)) H).
Qed.
Print Assumptions C155_plane.

Local Open Scope R_scope.
Definition two_rows : list point := [P2 0 0; P2 4 0; P2 2 (-1); P2 2 1; P2 0 10; P2 4 10].
Definition rows_graph : PlanarGraph XO nat nat :=
  MkGraph (map (fun p => MkNode (xp p) 0%nat DEFAULT_LABEL) two_rows)
    [MkEdge 0 1 10%nat DEFAULT_LABEL; MkEdge 4 5 20%nat DEFAULT_LABEL].

Lemma dist_up : forall a b : point, vy a - vy b <= dist a b /\ vy b - vy a <= dist a b.
Proof.
  intros a b. pose proof (dist_nonneg a b) as N. pose proof (dist_sq a b) as S. pose proof (Rle_0_sqr (vx b - vx a)) as X. unfold Rsqr in X.
  split; apply Rnot_lt_le; intros L; nra.
Qed.

(** Drawing the short edge 2-3 over the lower row does not touch the upper one. *)
Example C155_example :
  drawn rows_graph two_rows /\ stands_clear two_rows 2 3 (MkEdge 4 5 20%nat DEFAULT_LABEL) /\
  left_out [true; false] (edges rows_graph) = [MkEdge 4 5 20%nat DEFAULT_LABEL].
Proof.
  assert (Eps : 0 < eps32) by exact eps32_pos.
  assert (Far : forall p : point, vy p <= 1 -> ~ near (P2 0 10) (P2 4 10) p).
  { intros p Hp (H & _ & _). pose proof (dist_up (P2 0 10) p) as [A _]. pose proof (dist_up p (P2 4 10)) as [_ B]. cbn [vx vy] in *.
    assert (Q : dist (P2 0 10) (P2 4 10) = 4) by (unfold dist; cbn [vx vy]; replace ((4 - 0) * (4 - 0) + (10 - 10) * (10 - 10)) with (4 * 4) by ring; apply sqrt_square; lra).
    rewrite Q in H. pose proof eps32_tiny. lra. }
  split; [reflexivity|]. split; [|reflexivity]. unfold stands_clear, edge_near, edge_on, pt. cbn [src dst length two_rows nth].
  split; [lia|]. split; [lia|]. split.
  - intros k Hk. destruct k as [|[|[|[|[|[|k]]]]]]; cbn [nth]; try (apply Far; cbn; lra); try lia.
    + intros (_ & H & _). rewrite dist_self0 in H. lra.
    + intros (_ & _ & H). rewrite dist_self0 in H. lra.
  - intros x (t & Ht & ->). unfold along; cbn [vx vy]. split; [|apply Far; cbn [vy]; lra].
    intros (t' & Ht' & E). unfold along in E; cbn [vx vy] in E. injection E as E1 E2. lra.
Qed.

(** Leaving out an edge that is met changes the result: without edge 0-1 the crossing edge
    2-3 is not split, and no node appears. *)
Definition nodes_after (r : res G) : nat := match r with Ok g => length (nodes g) | Panic => 0 end.
Example C155_fails_at_met :
  let g := build [N (-2) 0; N 2 0; N 0 (-2); N 0 2; E 0 1 10] in
  nodes_after (run 0%nat g [E 2 3 20]) = 5%nat /\ nodes_after (run 0%nat (part [false] g) [E 2 3 20]) = 4%nat.
Proof. vm_compute. split; reflexivity. Qed.

Example C155_history_example :
  unmets 0%nat [true; false] rows_graph [OAddEdge 2 3 30%nat] /\
  (forall n, In n (nodes rows_graph) -> misses (nodes rows_graph) (MkEdge 4 5 20%nat DEFAULT_LABEL) (position n)).
Proof.
  destruct C155_example as (D & C & L).
  pose proof (clear_unmet rows_graph two_rows 2 3 _ D C) as M. split; [|exact (proj1 M)].
  split; [|intros; exact Logic.I]. cbn [unmet_op]. rewrite L. intros e [<-|[]]. exact M.
Qed.
