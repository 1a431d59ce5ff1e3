(** * C157: the order of the edge slots.

    [shuffled g h]: the same nodes in the same slots, the same edges in any order. *)
From Coq Require Import List Arith Bool Lia Permutation ZArith.
From Flocq Require Import Core.Core IEEE754.BinarySingleNaN.
From Verif Require Import Scalar Utils Polygon Graph GraphSpec GraphDemo ShuffleSpec Shuffle.
Import ListNotations.

Theorem C157_add_node :
  forall (O : Ops) (T U : Type) (g h g' : PlanarGraph O T U) p v i c, shuffled g h ->
  add_node g p v = Ok (g', (i, c)) -> exists h' c', add_node h p v = Ok (h', (i, c')) /\ shuffled g' h'.
Proof. intros O T U. exact shuffle_add_node. Qed.
Print Assumptions C157_add_node.

Theorem C157_remove_node :
  forall (O : Ops) (T U : Type) (g h g' : PlanarGraph O T U) id cn ce, shuffled g h ->
  remove_node g id = Ok (g', (cn, ce)) -> exists h' ce', remove_node h id = Ok (h', (cn, ce')) /\ shuffled g' h'.
Proof. intros O T U. exact shuffle_remove_node. Qed.
Print Assumptions C157_remove_node.

Theorem C157_remove_edge :
  forall (O : Ops) (T U : Type) (g h g' h' : PlanarGraph O T U) i j e cn ce cn' ce', shuffled g h -> valid g ->
  nth_error (edges g) i = Some e -> nth_error (edges h) j = Some e ->
  remove_edge g i = Ok (g', (cn, ce)) -> remove_edge h j = Ok (h', (cn', ce')) -> shuffled g' h' /\ cn' = cn.
Proof. intros O T U. exact shuffle_remove_edge. Qed.
Print Assumptions C157_remove_edge.

Theorem C157_queries :
  forall (O : Ops) (T U : Type) (g h : PlanarGraph O T U), shuffled g h ->
  node_count h = node_count g /\ edge_count h = edge_count g /\
  (forall i, number_of_edges_incident_to h i = number_of_edges_incident_to g i) /\
  (forall a b, has_edge_between_nodes h a b = has_edge_between_nodes g a b) /\
  gather_node_positions h = gather_node_positions g.
Proof.
  intros O T U g h S. pose proof S as [N P]. unfold node_count, edge_count, gather_node_positions. rewrite N. split; [reflexivity|].
  split; [apply Permutation_length; now apply Permutation_sym|]. split; [intros i; now apply shuffle_incident|]. split; [|reflexivity].
  intros a b. apply shuffle_between. now apply Permutation_sym.
Qed.
Print Assumptions C157_queries.

(** A crossing with its edges in the opposite order. *)
Definition back (g : G) : G := MkGraph (nodes g) (rev (edges g)).
Lemma back_shuffled : forall g, shuffled g (back g).
Proof. intros g. split; [reflexivity|]. apply Permutation_rev. Qed.
Definition shape_of (r : res G) : option (nat * list (nat * nat * nat)) := match r with Ok g => Some (node_count g, shape g) | Panic => None end.
Example C157_example :
  shuffled (build cross) (back (build cross)) /\
  shape_of (run 0%nat (build cross) [N 1 0; RN 3]) = Some (5, [(0, 3, 10); (2, 3, 20); (1, 4, 10); (3, 4, 10)])%nat /\
  shape_of (run 0%nat (back (build cross)) [N 1 0; RN 3]) = Some (5, [(1, 4, 10); (2, 3, 20); (0, 3, 10); (3, 4, 10)])%nat.
Proof. split; [apply back_shuffled|]. split; vm_compute; reflexivity. Qed.

(** add_edge numbers the new nodes in the order of the slots, and remove_edge panics in the
    last slot. *)
Definition bars : list (@op F nat nat) := [N 0 (-2); N 0 2; N 2 (-2); N 2 2; N (-2) 0; N 4 0; E 0 1 10; E 2 3 20].
Example C157_fails_at_add_edge :
  shape_of (run 0%nat (build bars) [E 4 5 30]) <> shape_of (run 0%nat (back (build bars)) [E 4 5 30]) /\
  (let at6 := fun r => match r with Ok g => where_is g 6 | Panic => None end in
   at6 (run 0%nat (build bars) [E 4 5 30]) <> at6 (run 0%nat (back (build bars)) [E 4 5 30])).
Proof. split; vm_compute; discriminate. Qed.
Example C157_fails_at_remove_edge :
  let g := build triangle in
  nth_error (shape g) 2 = Some (2, 0, 3)%nat /\ nth_error (shape (back g)) 0 = Some (2, 0, 3)%nat /\
  shape_of (run 0%nat g [RE 2]) = None /\ shape_of (run 0%nat (back g) [RE 0]) <> None.
Proof. repeat split; vm_compute; try reflexivity. discriminate. Qed.
Example C157_remove_edge_example :
  let g := build triangle in
  nth_error (shape g) 1 = Some (1, 2, 2)%nat /\ nth_error (shape (back g)) 1 = Some (1, 2, 2)%nat /\
  shape_of (run 0%nat g [RE 1]) = Some (3, [(0, 1, 1); (2, 0, 3)])%nat /\
  shape_of (run 0%nat (back g) [RE 1]) = Some (3, [(2, 0, 3); (0, 1, 1)])%nat.
Proof. repeat split; vm_compute; reflexivity. Qed.
