(** * C159: exactly which nodes add_edge makes.

    [fresh g s d]: the cuts of the segment with the edges that are alone (no other cut within
    epsilon) and vacant (no node nearer than epsilon), in the order of the edges. *)
From Coq Require Import List Arith Bool Lia Permutation ZArith.
From Flocq Require Import Core.Core IEEE754.BinarySingleNaN.
From Verif Require Import Scalar Utils Polygon Graph GraphSpec GraphDemo Laws GraphAdd ShuffleSpec NewNodesSpec NewNodes.
Import ListNotations.

Theorem C159_new_nodes :
  forall (O : Ops), Laws O -> forall (T U : Type) (dT : T) (g : PlanarGraph O T U) s d u,
  valid g -> ~ adjacent g s d -> s < node_count g -> d < node_count g ->
  exists g' ce, add_edge dT g s d u = Ok (g', AddOk (seq (node_count g) (length (fresh g s d))) ce) /\
  nodes g' = nodes g ++ map (fun p => MkNode p dT DEFAULT_LABEL) (fresh g s d).
Proof.
  intros O L T U dT g s d u V A Ls Ld. destruct (add_edge_total dT g s d u V) as [[g' r] H].
  destruct (add_edge_fresh L dT g s d u g' r V A Ls Ld H) as [N [ce ->]]. eauto.
Qed.
Print Assumptions C159_new_nodes.

Theorem C159_any_order :
  forall (O : Ops), Laws O -> forall (T U : Type) (dT : T) (g h : PlanarGraph O T U) s d u,
  shuffled g h -> valid g -> ~ adjacent g s d -> s < node_count g -> d < node_count g ->
  exists g' h' cn ce ce', add_edge dT g s d u = Ok (g', AddOk cn ce) /\ add_edge dT h s d u = Ok (h', AddOk cn ce') /\
  Permutation (nodes g') (nodes h').
Proof.
  intros O L T U dT g h s d u Sh V A Ls Ld.
  assert (N : node_count h = node_count g) by (unfold node_count; now rewrite (proj1 Sh)).
  assert (V' : valid h).
  { intros e He. rewrite (proj1 Sh). apply V. eapply Permutation_in; [apply Permutation_sym; exact (proj2 Sh)|exact He]. }
  assert (A' : ~ adjacent h s d).
  { intros (e & He & J). apply A. exists e. split; [|exact J]. eapply Permutation_in; [apply Permutation_sym; exact (proj2 Sh)|exact He]. }
  destruct (C159_new_nodes O L T U dT g s d u V A Ls Ld) as (g' & ce & H & E).
  destruct (C159_new_nodes O L T U dT h s d u V' A') as (h' & ce' & H' & E'); [now rewrite N|now rewrite N|].
  pose proof (perm_fresh g h s d Sh) as P. rewrite N, <- (Permutation_length P) in H'.
  exists g', h'. do 3 eexists. split; [exact H|]. split; [exact H'|]. rewrite E, E', (proj1 Sh). now apply Permutation_app_head, Permutation_map.
Qed.
Print Assumptions C159_any_order.

(** Two bars and an edge that starts where the new edge starts: three cuts, of which the
    third is at a node; two nodes are made.  With the bars in the other order they are made
    in the other order. *)
Definition fence : list (@op F nat nat) :=
  [N 0 (-2); N 0 2; N 2 (-2); N 2 2; N (-2) 0; N 4 0; N (-2) 3; E 0 1 10; E 2 3 20; E 4 6 30].
Definition flip (g : G) : G := MkGraph (nodes g) (rev (edges g)).
Definition after (g : G) : G := got graph_new (run 0%nat g [E 4 5 40]).
Definition seen (l : list (Vec2 F)) := map (fun p : Vec2 F => (B2SF (vx p : f32), B2SF (vy p : f32))) l.
Example C159_example :
  let g := build fence in
  forallb (fun e => Nat.ltb (src e) (node_count g) && Nat.ltb (dst e) (node_count g)) (edges g) = true /\
  has_edge_between_nodes g 4 5 = false /\ node_count g = 7 /\
  (length (cuts g 4 5) = 3)%nat /\ (length (filter (alone (cuts g 4 5)) (cuts g 4 5)) = 3)%nat /\ (length (fresh g 4 5) = 2)%nat /\
  node_count (after g) = 9 /\ seen (map position (skipn 7 (nodes (after g)))) = seen (fresh g 4 5) /\
  seen (fresh (flip g) 4 5) = rev (seen (fresh g 4 5)) /\ (where_is (after (flip g)) 7 = where_is (after g) 8) /\
  where_is (after (flip g)) 7 <> where_is (after g) 7.
Proof. repeat split; try (vm_compute; reflexivity). vm_compute. discriminate. Qed.

(** Through the middle of a cross: the cuts are not alone, and none gets a node. *)
Definition star : list (@op F nat nat) := cross ++ [N (-2) (-2); N 2 2].
Example C159_crowded_example :
  let g := build star in
  length (cuts g 5 6) = 4 /\ filter (alone (cuts g 5 6)) (cuts g 5 6) = [] /\
  node_count (got graph_new (run 0%nat g [E 5 6 40])) = node_count g.
Proof. repeat split; vm_compute; reflexivity. Qed.
