(** * Properties C122-C124: a plane drawing is determined by its nodes and its picture, the
    order of drawing does not matter, and what happens to the total length of the edges
    (exact arithmetic). *)
From Coq Require Import Reals List Arith Bool Lia Lra Permutation.
From Verif Require Import Scalar Utils Graph GraphSpec Laws PlaneSpec UtilsReal PlanarSpec GraphAdd GraphPlanar PlanarDemo
  DrawSpec Draw Properties_Planar.
Import ListNotations.
Local Open Scope R_scope.

(** ** C122: uniqueness *)
Theorem C122_drawing_determined :
  forall (U V : Type) (ps qs : list point) (es : list (Edge U)) (fs : list (Edge V)),
  plane_drawing ps es -> plane_drawing qs fs -> (forall x, In x ps <-> In x qs) ->
  (forall x, covers ps es x <-> covers qs fs x) -> same_drawing ps es qs fs.
Proof. exact drawing_unique. Qed.
Print Assumptions C122_drawing_determined.

(** The node positions cannot be dropped: a segment drawn with and without a node in the
    middle is the same picture. *)
Definition seg2 : list point := [P2 0 0; P2 2 0].
Definition seg3 : list point := [P2 0 0; P2 2 0; P2 1 0].
Definition seg2_edges : list (Edge nat) := [MkEdge 0 1 5%nat DEFAULT_LABEL].
Definition seg3_edges : list (Edge nat) := [MkEdge 0 2 5%nat DEFAULT_LABEL; MkEdge 1 2 5%nat DEFAULT_LABEL].
Lemma seg2_plane : plane_drawing seg2 seg2_edges.
Proof.
  split; [repeat constructor; cbn; [intros [E|[]]; injection E; lra|intros []]|]. split; [intros e [<-|[]]; cbn; lia|]. split.
  - intros [|[|k]] e Hk [<-|[]] NT _; [apply NT; now left|apply NT; now right|cbn in Hk; lia].
  - intros [|[|i]] [|[|j]] e f x N Hi Hj; try discriminate. congruence.
Qed.
Lemma seg3_plane : plane_drawing seg3 seg3_edges.
Proof.
  split; [repeat constructor; cbn; [intros [E|[E|[]]]; injection E; lra|intros [E|[]]; injection E; lra|intros []]|].
  split; [intros e [<-|[<-|[]]]; cbn; lia|]. split.
  - intros [|[|[|k]]] e Hk [<-|[<-|[]]] NT (t & Ht & E); try (apply NT; unfold touches; cbn; auto; fail); try (cbn in Hk; lia);
      unfold along in E; cbn in E; injection E; lra.
  - assert (G : forall x, edge_on seg3 (MkEdge 0 2 5%nat DEFAULT_LABEL) x -> edge_on seg3 (MkEdge 1 2 5%nat DEFAULT_LABEL) x -> x = P2 1 0).
    { intros x (t & Ht & E) (t' & Ht' & E'). unfold along in E, E'. cbn in E, E'. rewrite E in E'. injection E' as E1 E2. rewrite E. f_equal; lra. }
    intros [|[|[|i]]] [|[|[|j]]] e f x N Hi Hj O1 O2; try discriminate; try (now exfalso; apply N); injection Hi as <-; injection Hj as <-;
      exists 2%nat; (split; [now right|]); (split; [now right|]); [exact (G x O1 O2)|exact (G x O2 O1)].
Qed.
Lemma seg_same_picture : forall x, covers seg2 seg2_edges x <-> covers seg3 seg3_edges x.
Proof.
  intros x. split.
  - intros (e & [<-|[]] & (t & Ht & ->)). destruct (Rle_dec t (/ 2)) as [L|L].
    + exists (MkEdge 0 2 5%nat DEFAULT_LABEL). split; [now left|]. exists (2 * t). split; [lra|]. unfold along; cbn; f_equal; lra.
    + exists (MkEdge 1 2 5%nat DEFAULT_LABEL). split; [right; now left|]. exists (2 * (1 - t)). split; [lra|]. unfold along; cbn; f_equal; lra.
  - intros (e & [<-|[<-|[]]] & (t & Ht & ->)); exists (MkEdge 0 1 5%nat DEFAULT_LABEL); (split; [now left|]).
    + exists (t / 2). split; [lra|]. unfold along; cbn; f_equal; lra.
    + exists (1 - t / 2). split; [lra|]. unfold along; cbn; f_equal; lra.
Qed.
Example C122_fails_at_same_picture : plane_drawing seg2 seg2_edges /\ plane_drawing seg3 seg3_edges /\
  (forall x, covers seg2 seg2_edges x <-> covers seg3 seg3_edges x) /\ ~ same_drawing seg2 seg2_edges seg3 seg3_edges.
Proof.
  split; [exact seg2_plane|]. split; [exact seg3_plane|]. split; [exact seg_same_picture|]. intros (_ & L & _). discriminate.
Qed.

(** The same two edges, numbered and directed differently. *)
Definition seg3' : list point := [P2 1 0; P2 2 0; P2 0 0].
Definition seg3'_edges : list (Edge bool) := [MkEdge 0 1 true DEFAULT_LABEL; MkEdge 0 2 true DEFAULT_LABEL].
Example C122_example : plane_drawing seg3 seg3_edges /\ plane_drawing seg3' seg3'_edges /\ (forall x, In x seg3 <-> In x seg3') /\
  (forall x, covers seg3 seg3_edges x <-> covers seg3' seg3'_edges x).
Proof.
  split; [exact seg3_plane|]. split; [|split; [intros x; cbn; tauto|]].
  - split; [repeat constructor; cbn; [intros [E|[E|[]]]; injection E; lra|intros [E|[]]; injection E; lra|intros []]|].
    split; [intros e [<-|[<-|[]]]; cbn; lia|]. split.
    + intros [|[|[|k]]] e Hk [<-|[<-|[]]] NT (t & Ht & E); try (apply NT; unfold touches; cbn; auto; fail); try (cbn in Hk; lia);
        unfold along in E; cbn in E; injection E; lra.
    + assert (G : forall x, edge_on seg3' (MkEdge 0 1 true DEFAULT_LABEL) x -> edge_on seg3' (MkEdge 0 2 true DEFAULT_LABEL) x -> x = P2 1 0).
      { intros x (t & Ht & E) (t' & Ht' & E'). unfold along in E, E'. cbn in E, E'. rewrite E in E'. injection E' as E1 E2. rewrite E. f_equal; lra. }
      intros [|[|[|i]]] [|[|[|j]]] e f x N Hi Hj O1 O2; try discriminate; try (now exfalso; apply N); injection Hi as <-; injection Hj as <-;
        exists 0%nat; (split; [now left|]); (split; [now left|]); [exact (G x O1 O2)|exact (G x O2 O1)].
  - intros x. split; intros (e & [<-|[<-|[]]] & (t & Ht & ->)).
    + exists (MkEdge 0 2 true DEFAULT_LABEL). split; [right; now left|]. exists (1 - t). split; [lra|]. unfold along; cbn; f_equal; lra.
    + exists (MkEdge 0 1 true DEFAULT_LABEL). split; [now left|]. exists (1 - t). split; [lra|]. unfold along; cbn; f_equal; lra.
    + exists (MkEdge 1 2 5%nat DEFAULT_LABEL). split; [right; now left|]. exists (1 - t). split; [lra|]. unfold along; cbn; f_equal; lra.
    + exists (MkEdge 0 2 5%nat DEFAULT_LABEL). split; [now left|]. exists (1 - t). split; [lra|]. unfold along; cbn; f_equal; lra.
Qed.

(** ** C123: the order of drawing *)
Theorem C123_order_irrelevant :
  forall (T U : Type) (dT : T) (g g1 g2 : PlanarGraph XO T U) ps l1 l2,
  drawn g ps -> well_drawn ps (edges g) ->
  Permutation (map fst l1) (map fst l2) ->
  (forall c, In c (map fst l1) -> (fst c < length ps)%nat /\ (snd c < length ps)%nat) ->
  draws dT g l1 g1 -> draws dT g l2 g2 ->
  exists ps1 ps2, drawn g1 ps1 /\ drawn g2 ps2 /\ same_drawing ps1 (edges g1) ps2 (edges g2).
Proof. intros T U dT g g1 g2 ps l1 l2 D W P I. exact (draws_order dT g g1 g2 ps l1 l2 D W P I). Qed.
Print Assumptions C123_order_irrelevant.

(** What is drawn: the new nodes stand where two of the segments, or a segment and an old
    edge, meet. *)
Theorem C123_nodes_at_crossings :
  forall (T U : Type) (dT : T) (g g' : PlanarGraph XO T U) ps l, drawn g ps -> well_drawn ps (edges g) ->
  (forall c, In c (map fst l) -> (fst c < length ps)%nat /\ (snd c < length ps)%nat) -> draws dT g l g' ->
  exists ps', drawn g' ps' /\ well_drawn ps' (edges g') /\
    (forall x, covers ps' (edges g') x <->
       covers ps (edges g) x \/ exists s d u, In (s, d, u) l /\ on_segment (pt ps s) (pt ps d) x) /\
    (forall x, In x ps' <-> In x ps \/
       (exists s d u, In (s, d, u) l /\ on_segment (pt ps s) (pt ps d) x /\ covers ps (edges g) x) \/
       (exists i j s d u s' d' u', i <> j /\ nth_error l i = Some (s, d, u) /\ nth_error l j = Some (s', d', u') /\
          on_segment (pt ps s) (pt ps d) x /\ on_segment (pt ps s') (pt ps d') x)).
Proof.
  intros T U dT g g' ps l D W I H. destruct (draws_picture dT l g g' ps H D W I) as (qs & D' & W' & C & N & _).
  exists (ps ++ qs). split; [exact D'|]. split; [exact W'|]. split.
  - intros x. rewrite C. split; (intros [Hx|Hx]; [now left|right]).
    + destruct Hx as (c & Hc & S). apply in_map_iff in Hc. destruct Hc as ([[s d] u] & <- & Hin). exists s, d, u. split; [exact Hin|exact S].
    + destruct Hx as (s & d & u & Hin & S). exists (s, d). split; [apply in_map_iff; exists (s, d, u); auto|exact S].
  - intros x. rewrite N, (twice_nth U ps l x). split; (intros [Hx|[Hx|Hx]]; [now left|right; left|right; right; exact Hx]).
    + destruct Hx as (c & Hc & S). apply in_map_iff in Hc. destruct Hc as ([[s d] u] & <- & Hin). exists s, d, u. split; [exact Hin|exact S].
    + destruct Hx as (s & d & u & Hin & S). exists (s, d). split; [apply in_map_iff; exists (s, d, u); auto|exact S].
Qed.
Print Assumptions C123_nodes_at_crossings.

Definition w4_empty : PlanarGraph XO nat nat := MkGraph (map (fun p => MkNode (xp p) 7%nat DEFAULT_LABEL) w4) [].
Definition w4_other : PlanarGraph XO nat nat := MkGraph (map (fun p => MkNode (xp p) 7%nat DEFAULT_LABEL) w4) [MkEdge 2 3 20%nat DEFAULT_LABEL].
Lemma w4_first : forall s d u, ((s = 0 /\ d = 1) \/ (s = 2 /\ d = 3))%nat -> general_position (U := nat) w4 [] s d /\
  exists r, add_edge 0%nat w4_empty s d u = Ok (MkGraph (nodes w4_empty) [MkEdge s d u DEFAULT_LABEL], r).
Proof.
  intros s d u Hsd. split; [split|].
  - intros k Hk N0 N1 (H & _). cbn in Hk.
    pose proof (dist_ge (P2 (-2) 0) (P2 0 (-2)) (14/5)) as A1. pose proof (dist_ge (P2 0 (-2)) (P2 2 0) (14/5)) as A2.
    pose proof (dist_ge (P2 (-2) 0) (P2 0 2) (14/5)) as A3. pose proof (dist_ge (P2 0 2) (P2 2 0) (14/5)) as A4.
    pose proof (dist_le (P2 (-2) 0) (P2 2 0) 4) as A5. pose proof (dist_le (P2 0 (-2)) (P2 0 2) 4) as A6.
    pose proof (dist_ge (P2 0 (-2)) (P2 (-2) 0) (14/5)) as B1. pose proof (dist_ge (P2 (-2) 0) (P2 0 2) (14/5)) as B2.
    pose proof (dist_ge (P2 0 (-2)) (P2 2 0) (14/5)) as B3. pose proof (dist_ge (P2 2 0) (P2 0 2) (14/5)) as B4.
    simpl in A1, A2, A3, A4, A5, A6, B1, B2, B3, B4. pose proof eps32_tiny.
    destruct Hsd as [[-> ->]|[-> ->]]; [assert (k = 2 \/ k = 3)%nat as [->| ->] by lia|assert (k = 0 \/ k = 1)%nat as [->| ->] by lia]; cbn in H; lra.
  - intros [|i] e x He; discriminate.
  - destruct Hsd as [[-> ->]|[-> ->]]; eexists; reflexivity.
Qed.
Lemma w4_general' : general_position w4 [MkEdge 2 3 20%nat DEFAULT_LABEL] 0 1.
Proof.
  split.
  - intros k Hk N0 N1. destruct (w4_first 0 1 10%nat ltac:(lia)) as [[G _] _]. now apply G.
  - intros [|[|i]] e x He On1 On2 N2 N3; try discriminate. injection He as <-.
    destruct On1 as (t & Ht & ->), On2 as (t' & Ht' & E). cbn in E. unfold along in E. simpl in E. inversion E.
    assert (Ex : along (pt w4 2) (pt w4 3) t = P2 0 0) by (unfold along; cbn; f_equal; lra).
    cbn [src dst] in *. rewrite Ex. split.
    + intros k Hk. cbn in Hk. assert (k = 0 \/ k = 1 \/ k = 2 \/ k = 3)%nat as [->|[->|[->| ->]]] by lia; apply unit_apart; simpl; lra.
    + intros [|[|j]] f Nj Hf; try discriminate. congruence.
Qed.
Lemma w4_empty_drawn : drawn w4_empty w4 /\ well_drawn w4 (edges w4_empty).
Proof.
  split; [reflexivity|]. destruct w4_drawn as [_ (_ & A & _)]. split; [intros e []|]. split; [exact A|]. split; [intros k e _ []|].
  split; [intros k e _ []|]. intros [|i] j ei ej x _ Hi; discriminate.
Qed.
Example C123_example : drawn w4_empty w4 /\ well_drawn w4 (edges w4_empty) /\
  exists g1 g2, draws 0%nat w4_empty [(0, 1, 10); (2, 3, 20)]%nat g1 /\ draws 0%nat w4_empty [(2, 3, 20); (0, 1, 10)]%nat g2.
Proof.
  split; [apply w4_empty_drawn|]. split; [apply w4_empty_drawn|].
  destruct (w4_first 0 1 10%nat ltac:(lia)) as [G1 [r1 E1]]. destruct (w4_first 2 3 20%nat ltac:(lia)) as [G2 [r2 E2]].
  assert (V1 : valid w4_graph) by (intros e [<-|[]]; simpl; lia). assert (V2 : valid w4_other) by (intros e [<-|[]]; simpl; lia).
  destruct (add_edge_total 0%nat w4_graph 2 3 20%nat V1) as [[g1 r3] E3]. destruct (add_edge_total 0%nat w4_other 0 1 10%nat V2) as [[g2 r4] E4].
  exists g1, g2. split.
  - apply (draws_cons 0%nat w4_empty w4 0 1 10%nat _ w4_graph r1); [apply w4_empty_drawn|lia|intros (e & [] & _)|exact G1|exact E1|].
    apply (draws_cons 0%nat w4_graph w4 2 3 20%nat _ g1 r3); [apply w4_drawn|lia|intros (e & [<-|[]] & [[H _]|[H _]]); discriminate|exact xcross_general|exact E3|constructor].
  - apply (draws_cons 0%nat w4_empty w4 2 3 20%nat _ w4_other r2); [apply w4_empty_drawn|lia|intros (e & [] & _)|exact G2|exact E2|].
    apply (draws_cons 0%nat w4_other w4 0 1 10%nat _ g2 r4); [reflexivity|lia|intros (e & [<-|[]] & [[H _]|[H _]]); discriminate|exact w4_general'|exact E4|constructor].
Qed.

(** ** C124: lengths *)
Theorem C124_adding_length :
  forall (T U : Type) (dT : T) (g : PlanarGraph XO T U) ps, drawn g ps -> well_drawn ps (edges g) ->
  (forall p d g' i ces, good_place ps (edges g) p -> add_node g (xp p) d = Ok (g', (i, ces)) ->
     exists ps', drawn g' ps' /\ total_length ps' (edges g') = total_length ps (edges g)) /\
  (forall s d u g' r, (s < length ps)%nat -> (d < length ps)%nat -> s <> d -> ~ adjacent g s d ->
     general_position ps (edges g) s d -> add_edge dT g s d u = Ok (g', r) ->
     exists ps', drawn g' ps' /\ total_length ps' (edges g') = total_length ps (edges g) + dist (pt ps s) (pt ps d)).
Proof.
  intros T U dT g ps D W. split.
  - intros p d g' i ces G H. exact (add_node_length g g' ps p d i ces D W G H).
  - intros s d u g' r Hs Hd N NA G H. destruct (add_edge_full dT g g' ps s d u r D W G N NA Hs Hd H) as (qs & D' & _ & _ & _ & L). now exists (ps ++ qs).
Qed.
Print Assumptions C124_adding_length.

Theorem C124_removing_length :
  forall (T U : Type) (g : PlanarGraph XO T U) ps, drawn g ps -> well_drawn ps (edges g) ->
  (forall id e g' r, nth_error (edges g) id = Some e -> remove_edge g id = Ok (g', r) ->
     exists ps', drawn g' ps' /\ total_length ps' (edges g') = total_length ps (edges g) - dist (pt ps (src e)) (pt ps (dst e))) /\
  (forall id g' r, remove_node g id = Ok (g', r) ->
     exists ps', drawn g' ps' /\
       total_length ps (edges g) = total_length ps' (edges g') + total_length ps (filter (fun e => Nat.eqb (src e) id || Nat.eqb (dst e) id) (edges g))).
Proof.
  intros T U g ps D W. split.
  - intros id e g' r E H. exact (remove_edge_length g g' ps id e r D W E H).
  - intros id g' r H. exact (remove_node_length g g' ps id r D W H).
Qed.
Print Assumptions C124_removing_length.

Example C124_example : drawn w4_graph w4 /\ well_drawn w4 (edges w4_graph) /\ good_place w4 (edges w4_graph) (P2 0 0) /\
  ~ adjacent w4_graph 2 3 /\ general_position w4 (edges w4_graph) 2 3 /\ total_length w4 (edges w4_graph) = 4.
Proof.
  split; [apply w4_drawn|]. split; [apply w4_drawn|]. split; [apply C80_example|]. split; [apply C79_example|]. split; [apply C79_example|].
  unfold total_length. cbn. apply Rle_antisym.
  - pose proof (dist_le (P2 (-2) 0) (P2 2 0) 4) as A. cbn in A. lra.
  - pose proof (dist_ge (P2 (-2) 0) (P2 2 0) 4) as A. cbn in A. lra.
Qed.
