(** * C158: the direction of the edges.

    [alike g h]: the same nodes in the same slots, the same edges in any order and
    direction. *)
From Coq Require Import List Arith Bool Lia Permutation ZArith.
From Flocq Require Import Core.Core IEEE754.BinarySingleNaN.
From Verif Require Import Scalar Utils Polygon Graph GraphSpec F32 Laws UtilsF32 GraphDemo ShuffleSpec Shuffle Properties_Shuffle DirectionSpec Direction.
Import ListNotations.

Theorem C158_add_node :
  forall (O : Ops) (T U : Type), Laws O -> forall (g h g' : PlanarGraph O T U) p v i c, alike g h ->
  add_node g p v = Ok (g', (i, c)) -> exists h' c', add_node h p v = Ok (h', (i, c')) /\ alike g' h'.
Proof. intros O T U L. exact (alike_add_node L). Qed.
Print Assumptions C158_add_node.

Theorem C158_remove_node :
  forall (O : Ops) (T U : Type) (g h g' : PlanarGraph O T U) id cn ce, alike g h ->
  remove_node g id = Ok (g', (cn, ce)) -> exists h' ce', remove_node h id = Ok (h', (cn, ce')) /\ alike g' h'.
Proof. intros O T U. exact alike_remove_node. Qed.
Print Assumptions C158_remove_node.

Theorem C158_remove_edge :
  forall (O : Ops) (T U : Type) (g h g' h' : PlanarGraph O T U) i j e f cn ce cn' ce', alike g h -> valid g ->
  nth_error (edges g) i = Some e -> nth_error (edges h) j = Some f -> (f = e \/ f = turned e) ->
  remove_edge g i = Ok (g', (cn, ce)) -> remove_edge h j = Ok (h', (cn', ce')) -> alike g' h' /\ cn' = cn.
Proof.
  intros O T U g h g' h' i j e f cn ce cn' ce' A V Hi Hj E. apply (alike_remove_edge g h g' h' i j e f cn ce cn' ce' A V Hi Hj).
  destruct E as [->| ->]; [reflexivity|]. now rewrite upward_turned.
Qed.
Print Assumptions C158_remove_edge.

Theorem C158_queries :
  forall (O : Ops) (T U : Type) (g h : PlanarGraph O T U), alike g h ->
  node_count h = node_count g /\ edge_count h = edge_count g /\
  (forall i, number_of_edges_incident_to h i = number_of_edges_incident_to g i) /\
  (forall a b, has_edge_between_nodes h a b = has_edge_between_nodes g a b) /\
  gather_node_positions h = gather_node_positions g.
Proof.
  intros O T U g h A. pose proof A as [N P]. unfold node_count, edge_count, gather_node_positions. rewrite N. split; [reflexivity|].
  split; [apply Permutation_length in P; rewrite !map_length in P; now symmetry|]. split; [intros i; now apply alike_incident|]. split; [|reflexivity].
  intros a b. now apply alike_between.
Qed.
Print Assumptions C158_queries.

(** A crossing with all edges turned and in the opposite order. *)
Definition flip (g : G) : G := MkGraph (nodes g) (map turned (rev (edges g))).
Lemma flip_alike : forall g, alike g (flip g).
Proof.
  intros g. split; [reflexivity|]. cbn [flip edges]. rewrite map_map. rewrite (map_ext _ upward upward_turned). rewrite map_rev. apply Permutation_rev.
Qed.
Example C158_example :
  Laws F /\ alike (build cross) (flip (build cross)) /\
  shape_of (run 0%nat (build cross) [N 1 0; RN 3]) = Some (5, [(0, 3, 10); (2, 3, 20); (1, 4, 10); (3, 4, 10)])%nat /\
  shape_of (run 0%nat (flip (build cross)) [N 1 0; RN 3]) = Some (5, [(3, 4, 10); (3, 2, 20); (3, 0, 10); (1, 4, 10)])%nat.
Proof. split; [exact (FO_laws lm0)|]. split; [apply flip_alike|]. split; vm_compute; reflexivity. Qed.

(** In f32 the crossing computed by add_edge depends on the direction of the edge it cuts. *)
Definition slant : list (@op F nat nat) := [N 0 0; N 17 3; N 1 13; N 5 (-11); E 0 1 10].
Definition at4 (r : res G) := match r with Ok g => where_is g 4 | Panic => None end.
Example C158_fails_at_add_edge :
  at4 (run 0%nat (build slant) [E 2 3 20]) = Some (SpecFloat.S754_finite false 12902478 (-22), SpecFloat.S754_finite false 9107632 (-24)) /\
  at4 (run 0%nat (flip (build slant)) [E 2 3 20]) = Some (SpecFloat.S754_finite false 12902476 (-22), SpecFloat.S754_finite false 9107632 (-24)).
Proof. split; vm_compute; reflexivity. Qed.

(** An edge alone and a triangle: removing the edge takes a different end first when it is
    turned, with the same result. *)
Definition apart : list (@op F nat nat) := [N 20 0; N 20 4] ++ [N 0 0; N 4 0; N 0 4; E 0 1 9; E 2 3 1; E 3 4 2; E 4 2 3].
Example C158_remove_edge_example :
  let g := build apart in
  alike g (flip g) /\ nth_error (shape g) 0 = Some (0, 1, 9)%nat /\ nth_error (shape (flip g)) 3 = Some (1, 0, 9)%nat /\
  shape_of (run 0%nat g [RE 0]) = Some (3, [(0, 1, 1); (1, 2, 2); (2, 0, 3)])%nat /\
  shape_of (run 0%nat (flip g) [RE 3]) = Some (3, [(0, 2, 3); (2, 1, 2); (1, 0, 1)])%nat.
Proof. split; [apply flip_alike|]. repeat split; vm_compute; reflexivity. Qed.
