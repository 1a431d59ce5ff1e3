(** * C140: the order of removals does not matter.

    [valid g]: both ends of every edge are nodes of g, as for all graphs a caller can hold
    (C01).  [leaves g s g']: g' has the nodes of g in their order except those that had
    an edge in g and have none in s, and the edges of s, renumbered (RemovalSpec.v). *)
From Coq Require Import List Arith Bool Permutation Lia.
From Verif Require Import Scalar Utils Polygon Graph ListSpec GraphSpec GraphRemove GraphHistory GraphDemo RemovalSpec Removal.
Import ListNotations.

(** Any sequence of removals leaves the graph of the surviving edges. *)
Theorem C140_what_is_left :
  forall (O : Ops) (T U : Type) (dT : T) os (g g' : PlanarGraph O T U),
  valid g -> no_loops g -> no_parallel g -> Forall removal os -> run dT g os = Ok g' ->
  exists survivors removed, Permutation (survivors ++ removed) (edges g) /\ leaves g survivors g'.
Proof. intros O T U dT os g g' V NL NP F H. exact (history_leaves dT os g g' F V NL (or_introl NP) H). Qed.
Print Assumptions C140_what_is_left.

(** The surviving edges determine what is left, up to the slots of the edges. *)
Theorem C140_determined :
  forall (O : Ops) (T U : Type) (g g1 g2 : PlanarGraph O T U) s1 s2,
  leaves g s1 g1 -> leaves g s2 g2 -> Permutation s1 s2 -> same_but_order g1 g2.
Proof. intros O T U. exact leaves_determined. Qed.
Print Assumptions C140_determined.

(** Hence edges can be removed in any order. *)
Theorem C140_any_order :
  forall (O : Ops) (T U : Type) (g g1 g2 : PlanarGraph O T U) l1 l2, valid g -> no_loops g ->
  removals g l1 g1 -> removals g l2 g2 -> Permutation l1 l2 -> same_but_order g1 g2.
Proof. intros O T U. exact removals_order. Qed.
Print Assumptions C140_any_order.

(** And remove_node does the same as removing the edges at the node one by one. *)
Theorem C140_remove_node :
  forall (O : Ops) (T U : Type) (g g1 g2 : PlanarGraph O T U) id r l,
  valid g -> no_loops g -> no_parallel g -> id < node_count g ->
  remove_node g id = Ok (g1, r) -> removals g l g2 -> Permutation l (filter (touchesb id) (edges g)) ->
  same_but_order g1 g2.
Proof. intros O T U. exact remove_node_by_edges. Qed.
Print Assumptions C140_remove_node.

(** Removing slot 0 again and again never panics, and ends with the nodes that had no
    edge. *)
Theorem C140_clear :
  forall (O : Ops) (T U : Type) (dT : T) (g : PlanarGraph O T U), valid g -> no_loops g ->
  exists g', run dT g (repeat (ORemoveEdge 0) (edge_count g)) = Ok g' /\ edges g' = [] /\
    exists keep, increasing keep /\ (forall i, In i keep <-> i < node_count g /\ degree g i = 0) /\
      List.Forall2 (fun n i => nth_error (nodes g) i = Some n) (nodes g') keep.
Proof.
  intros O T U dT g V NL. destruct (clear_all dT g V NL) as (g' & H & keep & K1 & K2 & K3 & K4).
  exists g'. split; [exact H|]. split; [now inversion K4|]. exists keep. split; [exact K1|]. split; [|exact K3].
  intros i. rewrite K2. unfold node_count. cbn [degree_in]. lia.
Qed.
Print Assumptions C140_clear.

(** A triangle, whatever its nodes: slots 0 and 1 removed in either order. *)
Definition tri {O : Ops} {T} (a b c : Node O T) : PlanarGraph O T nat :=
  MkGraph [a; b; c] [MkEdge 0 1 10 DEFAULT_LABEL; MkEdge 1 2 20 DEFAULT_LABEL; MkEdge 2 0 30 DEFAULT_LABEL].
Example C140_example :
  forall (O : Ops) (T : Type) (a b c : Node O T),
  let e01 := MkEdge 0 1 10 DEFAULT_LABEL in let e12 := MkEdge 1 2 20 DEFAULT_LABEL in
  let left := MkGraph [a; c] [MkEdge 1 0 30 DEFAULT_LABEL] in
  valid (tri a b c) /\ no_loops (tri a b c) /\ no_parallel (tri a b c) /\
  removals (tri a b c) [e01; e12] left /\ removals (tri a b c) [e12; e01] left /\
  Permutation [e12; e01] (filter (touchesb 1) (edges (tri a b c))) /\ remove_node (tri a b c) 1 = Ok (left, ([1; 2], [0; 1; 2])).
Proof.
  intros O T a b c e01 e12 left. split; [|split; [|split; [|split; [|split; [|split]]]]].
  - intros e [<-|[<-|[<-|[]]]]; cbn; lia.
  - intros e [<-|[<-|[<-|[]]]]; cbn; lia.
  - intros [|[|[|i]]] [|[|[|j]]] ei ej N Hi Hj; try (exfalso; apply N; reflexivity); cbn in Hi, Hj;
      try (destruct i; discriminate); try (destruct j; discriminate); injection Hi as <-; injection Hj as <-; intros [[? ?]|[? ?]]; discriminate.
  - eapply (removals_cons _ 0 e01 _ _ [e12] [e12]); [reflexivity|vm_compute; reflexivity|repeat constructor|].
    eapply (removals_cons _ 1 e12 _ _ [] []); [reflexivity|vm_compute; reflexivity|constructor|]. apply removals_nil.
  - eapply (removals_cons _ 1 e12 _ _ [e01] [e01]); [reflexivity|vm_compute; reflexivity|repeat constructor|].
    eapply (removals_cons _ 0 e01 _ _ [] []); [reflexivity|vm_compute; reflexivity|constructor|]. apply removals_nil.
  - apply perm_swap.
  - vm_compute. reflexivity.
Qed.

(** What can depend on the order is whether a call panics: slot 2 of the triangle cannot
    be removed first (C57), but after slot 0. *)
Theorem C140_panic_fails_at_last_slot :
  forall (O : Ops) (T : Type) (a b c : Node O T),
  remove_edge (tri a b c) 2 = Panic /\
  exists g', removals (tri a b c) [MkEdge 0 1 10 DEFAULT_LABEL; MkEdge 2 0 30 DEFAULT_LABEL] g'.
Proof.
  intros O T a b c. split; [vm_compute; reflexivity|].
  eexists. eapply (removals_cons _ 0 _ _ _ [MkEdge 2 0 30 DEFAULT_LABEL]); [reflexivity|vm_compute; reflexivity|repeat constructor|].
  eapply (removals_cons _ 0 _ _ _ [] []); [reflexivity|vm_compute; reflexivity|constructor|]. apply removals_nil.
Qed.
Print Assumptions C140_panic_fails_at_last_slot.

(** With parallel edges remove_node leaves a node that lost all its edges, which removing
    the edges one by one does not. *)
Theorem C140_remove_node_fails_at_parallel :
  forall (O : Ops) (T : Type) (a b : Node O T),
  let e := MkEdge 0 1 10 DEFAULT_LABEL in let f := MkEdge 0 1 20 DEFAULT_LABEL in
  let g := MkGraph [a; b] [e; f] in
  valid g /\ no_loops g /\ (exists r, remove_node g 0 = Ok (MkGraph [b] [], r)) /\
  removals g [e; f] (MkGraph [] []) /\ Permutation [e; f] (filter (touchesb 0) (edges g)).
Proof.
  intros O T a b e f g. split; [|split; [|split; [|split]]].
  - intros x [<-|[<-|[]]]; cbn; lia.
  - intros x [<-|[<-|[]]]; cbn; lia.
  - eexists. vm_compute. reflexivity.
  - eapply (removals_cons _ 0 e _ _ [f] [f]); [reflexivity|vm_compute; reflexivity|repeat constructor|].
    eapply (removals_cons _ 0 f _ _ [] []); [reflexivity|vm_compute; reflexivity|constructor|]. apply removals_nil.
  - apply Permutation_refl.
Qed.
Print Assumptions C140_remove_node_fails_at_parallel.
