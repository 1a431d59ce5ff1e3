(** * C79-C83: when the stored graph is a planar drawing.

    Exact arithmetic ([XO]: the same model text, real coordinates).  [ps] are the node
    positions; [well_drawn ps es] contains [planar_drawing] of PlaneSpec.v, the claim of
    C09: no node on an edge it is not an end of, two edges meet only in a common end. *)
From Coq Require Import Reals List Arith Bool Lia Lra.
From Verif Require Import Scalar Utils Graph GraphSpec PlaneSpec UtilsReal PlanarSpec GraphAdd
  GraphPlanar GraphReport PlanarDemo.
Import ListNotations.
Local Open Scope R_scope.

(** ** C79: add_edge *)
Theorem C79_add_edge_planar :
  forall (T U : Type) (dT : T) (g g' : PlanarGraph XO T U) ps s d u r,
  drawn g ps -> well_drawn ps (edges g) ->
  (s < length ps)%nat -> (d < length ps)%nat -> s <> d -> ~ adjacent g s d ->
  general_position ps (edges g) s d ->
  add_edge dT g s d u = Ok (g', r) ->
  exists qs, drawn g' (ps ++ qs) /\ well_drawn (ps ++ qs) (edges g') /\
    (* the picture is the old one and the new segment *)
    (forall x, covers (ps ++ qs) (edges g') x <->
       covers ps (edges g) x \/ on_segment (pt ps s) (pt ps d) x) /\
    (* new nodes stand at inner crossings only *)
    (forall q, In q qs -> q <> pt ps s /\ q <> pt ps d /\
       on_segment (pt ps s) (pt ps d) q /\ covers ps (edges g) q).
Proof.
  intros T U dT g g' ps s d u r D W Hs Hd N NA G H.
  exact (add_edge_planar dT g g' ps s d u r D W G N NA Hs Hd H).
Qed.
Print Assumptions C79_add_edge_planar.

Definition w4_graph : PlanarGraph XO nat nat :=
  MkGraph (map (fun p => MkNode (xp p) 7%nat DEFAULT_LABEL) w4) [MkEdge 0 1 10%nat DEFAULT_LABEL].

Lemma w4_drawn : drawn w4_graph w4 /\ well_drawn w4 (edges w4_graph).
Proof.
  split; [reflexivity|]. split; [|split; [|split; [|split]]].
  - intros e [<-|[]]. simpl. lia.
  - intros i j Hi Hj N. cbn in Hi, Hj.
    assert (i = 0 \/ i = 1 \/ i = 2 \/ i = 3)%nat as [->|[->|[->| ->]]] by lia;
    assert (j = 0 \/ j = 1 \/ j = 2 \/ j = 3)%nat as [->|[->|[->| ->]]] by lia;
      try (exfalso; now apply N); apply unit_apart; simpl; lra.
  - intros k e Hk [<-|[]] (H & H1 & H2). cbn in Hk.
    pose proof (dist_ge (P2 (-2) 0) (P2 0 (-2)) (14/5)) as A1. pose proof (dist_ge (P2 0 (-2)) (P2 2 0) (14/5)) as A2.
    pose proof (dist_ge (P2 (-2) 0) (P2 0 2) (14/5)) as A3. pose proof (dist_ge (P2 0 2) (P2 2 0) (14/5)) as A4.
    pose proof (dist_le (P2 (-2) 0) (P2 2 0) 4) as A5. simpl in A1, A2, A3, A4, A5. pose proof eps32_tiny.
    pose proof (Laws.eps32_pos).
    assert (k = 0 \/ k = 1 \/ k = 2 \/ k = 3)%nat as [->|[->|[->| ->]]] by lia; cbn in H, H1, H2.
    + rewrite dist_self0 in H1. lra.
    + rewrite dist_self0 in H2. lra.
    + lra.
    + lra.
  - intros k e Hk [<-|[]] NT (t & Ht & E). apply NT. cbn in Hk. unfold touches. cbn [src dst].
    assert (k = 0 \/ k = 1 \/ k = 2 \/ k = 3)%nat as [->|[->|[->| ->]]] by lia; auto;
      exfalso; cbn in E; unfold along in E; simpl in E; inversion E; lra.
  - intros [|[|i]] [|[|j]] ei ej x N Hi Hj; try discriminate. congruence.
Qed.

Example C79_example : drawn w4_graph w4 /\ well_drawn w4 (edges w4_graph) /\
  ~ adjacent w4_graph 2 3 /\ general_position w4 (edges w4_graph) 2 3 /\
  exists g', exists r, add_edge 0%nat w4_graph 2 3 20%nat = Ok (g', r).
Proof.
  split; [apply w4_drawn|]. split; [apply w4_drawn|]. split; [|split; [exact xcross_general|]].
  - intros (e & [<-|[]] & [[H _]|[H _]]); simpl in H; discriminate.
  - assert (V : valid w4_graph) by (intros e [<-|[]]; simpl; lia).
    destruct (add_edge_total 0%nat w4_graph 2 3 20%nat V) as [[g' r] H]. eauto.
Qed.

(** ** C80: add_node *)
Theorem C80_add_node_planar :
  forall (T U : Type) (g g' : PlanarGraph XO T U) ps p d i ces,
  drawn g ps -> well_drawn ps (edges g) -> good_place ps (edges g) p ->
  add_node g (xp p) d = Ok (g', (i, ces)) ->
  exists qs, drawn g' (ps ++ qs) /\ well_drawn (ps ++ qs) (edges g') /\
    (* the picture is unchanged, and the reported node stands where it was asked for *)
    (forall x, covers (ps ++ qs) (edges g') x <-> covers ps (edges g) x) /\
    (i < length (ps ++ qs))%nat /\ dist p (pt (ps ++ qs) i) < eps32.
Proof. intros T U. exact add_node_planar. Qed.
Print Assumptions C80_add_node_planar.

Example C80_example : (* a point on the edge *)
  good_place w4 (edges w4_graph) (P2 0 0) /\ covers w4 (edges w4_graph) (P2 0 0).
Proof.
  assert (O : edge_on w4 (MkEdge 0 1 10%nat DEFAULT_LABEL) (P2 0 0)).
  { exists (/2). split; [lra|]. unfold along. cbn. f_equal; lra. }
  split; [right; split|].
  - intros k Hk. cbn in Hk. assert (k = 0 \/ k = 1 \/ k = 2 \/ k = 3)%nat as [->|[->|[->| ->]]] by lia;
      apply unit_apart; simpl; lra.
  - intros e [<-|[]] _. exact O.
  - exists (MkEdge 0 1 10%nat DEFAULT_LABEL). split; [now left|exact O].
Qed.

(** ** C81: removals *)
Theorem C81_remove_node_planar :
  forall (T U : Type) (g g' : PlanarGraph XO T U) ps id r,
  drawn g ps -> well_drawn ps (edges g) -> remove_node g id = Ok (g', r) ->
  exists ps', drawn g' ps' /\ well_drawn ps' (edges g') /\ incl ps' ps /\
    (forall x, covers ps' (edges g') x <->
       exists e, In e (edges g) /\ ~ touches id e /\ edge_on ps e x).
Proof. intros T U. exact remove_node_planar. Qed.
Print Assumptions C81_remove_node_planar.

Theorem C81_remove_edge_planar :
  forall (T U : Type) (g g' : PlanarGraph XO T U) ps id r,
  drawn g ps -> well_drawn ps (edges g) -> remove_edge g id = Ok (g', r) ->
  exists ps', drawn g' ps' /\ well_drawn ps' (edges g') /\ incl ps' ps /\
    (forall x, covers ps' (edges g') x <->
       exists i e, i <> id /\ nth_error (edges g) i = Some e /\ edge_on ps e x).
Proof. intros T U. exact remove_edge_planar. Qed.
Print Assumptions C81_remove_edge_planar.

Example C81_example : drawn w4_graph w4 /\ well_drawn w4 (edges w4_graph) /\
  exists g', exists r, remove_edge w4_graph 0 = Ok (g', r).
Proof.
  split; [apply w4_drawn|]. split; [apply w4_drawn|]. eexists. eexists. reflexivity.
Qed.

(** ** C82: histories *)
Theorem C82_tidy_histories_planar :
  forall (T U : Type) (dT : T) os (g : PlanarGraph XO T U),
  tidy dT graph_new os -> run dT graph_new os = Ok g ->
  exists ps, drawn g ps /\ planar_drawing (pt ps) (length ps) (edges g) /\
    no_parallel g /\ no_loops g.
Proof.
  intros T U dT os g Ht H. destruct (@empty_drawn T U) as [D W].
  destruct (tidy_planar dT os _ _ _ D W Ht H) as (ps & D' & W').
  exists ps. split; [exact D'|]. split; [apply W'|].
  split; [eapply planar_no_parallel|eapply well_drawn_no_loops]; eassumption.
Qed.
Print Assumptions C82_tidy_histories_planar.

Example C82_example : tidy 0%nat graph_new xcross /\ exists g, run 0%nat graph_new xcross = Ok g.
Proof. exact (conj xcross_tidy xcross_runs). Qed.

(** ** C83: what add_edge reports *)
Theorem C83_add_edge_reports_exactly :
  forall (T U : Type) (dT : T) (g g' : PlanarGraph XO T U) ps s d u ns es,
  drawn g ps -> well_drawn ps (edges g) ->
  (s < length ps)%nat -> (d < length ps)%nat -> s <> d -> ~ adjacent g s d ->
  general_position ps (edges g) s d ->
  add_edge dT g s d u = Ok (g', AddOk ns es) ->
  (* the edge slots whose content changed, new ones included *)
  (forall i, In i es <-> (i < edge_count g')%nat /\ get_edge g' i <> get_edge g i) /\
  (* the new nodes *)
  (forall k, In k ns <-> (node_count g <= k < node_count g')%nat) /\
  (* the slot that received the new edge *)
  In (edge_count g) es.
Proof.
  intros T U dT g g' ps s d u ns es D W Hs Hd N NA G H.
  exact (add_edge_reports dT g g' ps s d u ns es D W G N NA Hs Hd H).
Qed.
Print Assumptions C83_add_edge_reports_exactly.

Example C83_example :
  general_position w4 (edges w4_graph) 2 3 /\ ~ adjacent w4_graph 2 3 /\
  exists g' ns es, add_edge 0%nat w4_graph 2 3 20%nat = Ok (g', AddOk ns es).
Proof.
  destruct C79_example as (_ & _ & NA & G & g' & r & H). split; [exact G|]. split; [exact NA|].
  exists g'. pose proof H as H0. apply add_edge_ok in H0.
  destruct H0 as [(A & _)|[(_ & B & _)|(_ & _ & _ & ns & es & _ & ->)]].
  - contradiction.
  - exfalso. apply B. simpl. lia.
  - exists ns. eexists. exact H.
Qed.
