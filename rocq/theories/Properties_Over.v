(** * Properties: drawing an edge along existing edges (C145). *)
From Coq Require Import Reals List Arith Bool Lia Lra ZArith.
From Verif Require Import Scalar F32 Utils Graph GraphSpec Laws Closest PlaneSpec UtilsReal PlanarSpec
  GraphAdd GraphPlanar PlanarDemo ThroughSpec Through Over Properties_Through.
Import ListNotations.
Local Open Scope R_scope.

(** ** C145: the new edge is laid over the edges it runs along *)
Theorem C145_over_edges :
  forall (T U : Type) (dT : T) (g g' : PlanarGraph XO T U) ps s d u r,
  drawn g ps -> well_drawn ps (edges g) -> no_near_miss ps (edges g) s d -> s <> d ->
  ~ adjacent g s d -> (s < length ps)%nat -> (d < length ps)%nat ->
  add_edge dT g s d u = Ok (g', r) ->
  exists qs, drawn g' (ps ++ qs) /\ NoDup (ps ++ qs) /\
    (* the picture gains the segment *)
    (forall x, covers (ps ++ qs) (edges g') x <->
       covers ps (edges g) x \/ on_segment (pt ps s) (pt ps d) x) /\
    (* the new nodes are its crossings, outside the old nodes, with edges not parallel to it *)
    (forall x, In x qs <-> on_segment (pt ps s) (pt ps d) x /\ ~ In x ps /\
       exists e, In e (edges g) /\ askew ps s d e /\ edge_on ps e x) /\
    (* it is split at exactly those passed nodes that have one edge not parallel to it *)
    (forall k, passes ps s d k ->
       (one_askew ps (edges g) s d k <-> forall e, In e (edges g') -> ~ crosses_node (ps ++ qs) k e)) /\
    (forall k e, (k < length (ps ++ qs))%nat -> In e (edges g') -> crosses_node (ps ++ qs) k e -> passes ps s d k) /\
    (* two edges meet in a common end, in a passed node without a split, or on an edge
       along which the segment runs *)
    (forall i j e f x, i <> j -> nth_error (edges g') i = Some e -> nth_error (edges g') j = Some f ->
       edge_on (ps ++ qs) e x -> edge_on (ps ++ qs) f x ->
       (exists k, touches k e /\ touches k f /\ x = pt (ps ++ qs) k) \/
       (exists k, passes ps s d k /\ ~ one_askew ps (edges g) s d k /\ x = pt ps k) \/
       doubled ps (edges g) s d x) /\
    (* and all of such an edge is covered twice *)
    (forall x, doubled ps (edges g) s d x -> twice (ps ++ qs) (edges g') x) /\
    (* so the drawing stays planar exactly if there is none and each passed node has one edge *)
    (well_drawn (ps ++ qs) (edges g') <->
       (forall e, In e (edges g) -> ~ overlaps ps s d e) /\ forall k, passes ps s d k -> degree g k = 1%nat).
Proof. intros T U. exact add_edge_over. Qed.
Print Assumptions C145_over_edges.

(** The segments of C137 are those that run along no edge. *)
Theorem C145_unambiguous :
  forall (U : Type) ps (es : list (Edge U)) s d,
  unambiguous ps es s d <-> no_near_miss ps es s d /\ forall e, In e es -> ~ overlaps ps s d e.
Proof. exact unambiguous_over. Qed.
Print Assumptions C145_unambiguous.

(** The five nodes of C137; the segment from node 2 to node 3 runs along the edge from
    node 0 to node 3. *)
Definition flat : Edge nat := MkEdge 0 3 20%nat DEFAULT_LABEL.
Lemma on_flat_edge : forall x, edge_on v5 flat x -> vy x = 0 /\ 0 <= vx x.
Proof. intros x (t & Ht & ->). unfold along; simpl. lra. Qed.

Lemma flat_es : forall es, incl es [up; flat] -> forall e, In e es -> e = up \/ e = flat.
Proof. intros es I e He. destruct (I e He) as [<-|[<-|[]]]; auto. Qed.

Lemma flat_over : overlaps v5 2 3 flat.
Proof.
  exists (P2 0 0), (P2 2 0). split; [intros E; injection E; lra|].
  split; [apply on_left|]. split; [apply on_right|]. split; [|apply on_right].
  exists (/ 2). split; [lra|]. unfold along, pt; simpl. f_equal; lra.
Qed.

Lemma flat_drawing : forall es, incl es [up; flat] -> NoDup es ->
  well_drawn v5 es /\ no_near_miss v5 es 2 3.
Proof.
  intros es I ND. pose proof (flat_es es I) as E. pose proof eps32_tiny as Te. pose proof eps32_pos as Pe.
  assert (K : forall k, (k < length v5)%nat -> k = 0%nat \/ k = 1%nat \/ k = 2%nat \/ k = 3%nat \/ k = 4%nat)
    by (intros k Hk; cbn in Hk; lia).
  assert (M : forall e x, In e es -> ~ overlaps v5 2 3 e -> edge_on v5 e x -> on_segment (pt v5 2) (pt v5 3) x -> x = pt v5 0).
  { intros e [x y] He NO O1 O2. apply on_flat in O2. destruct (E e He) as [-> | ->]; [apply on_up in O1|destruct (NO flat_over)];
      simpl in *; unfold pt; simpl; f_equal; lra. }
  split.
  - split; [intros e He; destruct (E e He) as [-> | ->]; simpl; lia|]. split; [|split].
    + intros i j Hi Hj N. destruct (K i Hi) as [->|[->|[->|[->| ->]]]], (K j Hj) as [->|[->|[->|[->| ->]]]];
        try contradiction; apply unit_apart; simpl; lra.
    + intros k e Hk He (H1 & H2 & H3).
      pose proof (dist_le (P2 0 0) (P2 0 2) 2) as A1. pose proof (dist_le (P2 0 0) (P2 2 0) 2) as A2.
      pose proof (dist_ge (P2 0 0) (P2 (-2) 0) 2) as B1. pose proof (dist_ge (P2 0 0) (P2 2 0) 2) as B2.
      pose proof (dist_ge (P2 0 0) (P2 0 2) 2) as B3. pose proof (dist_ge (P2 0 0) (P2 0 (-2)) 2) as B4.
      pose proof (dist_ge (P2 (-2) 0) (P2 0 2) 2) as C1. pose proof (dist_ge (P2 2 0) (P2 0 2) 2) as C2.
      pose proof (dist_ge (P2 0 2) (P2 2 0) 2) as C3. pose proof (dist_ge (P2 0 (-2)) (P2 2 0) 2) as C4.
      pose proof (dist_ge (P2 (-2) 0) (P2 2 0) 4) as C5. pose proof (dist_ge (P2 0 (-2)) (P2 0 2) 2) as C6.
      simpl in A1, A2, B1, B2, B3, B4, C1, C2, C3, C4, C5, C6.
      destruct (E e He) as [-> | ->], (K k Hk) as [->|[->|[->|[->| ->]]]];
        unfold pt in *; simpl in *; try rewrite dist_self0 in *; lra.
    + split.
      * intros k e Hk He Nt O. destruct (E e He) as [-> | ->]; [apply on_up in O|apply on_flat_edge in O];
          destruct (K k Hk) as [->|[->|[->|[->| ->]]]]; unfold pt, touches in *; simpl in *; first [lra|lia].
      * intros i j ei ej x N Hi Hj O1 O2.
        assert (Nij : ei <> ej).
        { intros Q. apply N. apply (proj1 (NoDup_nth_error es) ND); [apply nth_error_Some; congruence|congruence]. }
        exists 0%nat. apply nth_error_In in Hi, Hj.
        destruct (E ei Hi) as [-> | ->], (E ej Hj) as [-> | ->]; try congruence;
          (split; [now left|]; split; [now left|]).
        -- apply on_up in O1. apply on_flat_edge in O2. destruct x; unfold pt; simpl in *; f_equal; lra.
        -- apply on_flat_edge in O1. apply on_up in O2. destruct x; unfold pt; simpl in *; f_equal; lra.
  - split; [|split].
    + intros k Hk N2 N3 (H1 & _).
      pose proof (dist_le (P2 (-2) 0) (P2 2 0) 4) as A1.
      pose proof (dist_ge (P2 (-2) 0) (P2 0 2) (14/5)) as C1. pose proof (dist_ge (P2 0 2) (P2 2 0) (14/5)) as C2.
      pose proof (dist_ge (P2 (-2) 0) (P2 0 (-2)) (14/5)) as C3. pose proof (dist_ge (P2 0 (-2)) (P2 2 0) (14/5)) as C4.
      simpl in A1, C1, C2, C3, C4.
      destruct (K k Hk) as [->|[->|[->|[->| ->]]]]; try contradiction; unfold pt in *; simpl in *; try lra.
      exists (/ 2). split; [lra|]. unfold along; simpl. f_equal; lra.
    + intros i e x He H1 H2. apply nth_error_In in He. destruct (E e He) as [-> | ->]; [|left; exact flat_over].
      right. left. exists 0%nat. split; [simpl; lia|].
      apply (M up); auto. apply askew_not_over. unfold askew, cross, pt. simpl. lra.
    + intros e f x y He Hf NO1 NO2 H1 H2 H3 H4. left. rewrite (M e x He NO1 H1 H3), (M f y Hf NO2 H2 H4). reflexivity.
Qed.

Example C145_example : forall es, es = [flat] \/ es = [up; flat] ->
  drawn (v5_graph es) v5 /\ well_drawn v5 es /\ no_near_miss v5 es 2 3 /\ ~ adjacent (v5_graph es) 2 3 /\
  overlaps v5 2 3 flat /\ In flat es /\ passes v5 2 3 0 /\ (one_askew v5 es 2 3 0 <-> es = [up; flat]) /\
  exists g' r, add_edge 0%nat (v5_graph es) 2 3 30%nat = Ok (g', r).
Proof.
  intros es H.
  assert (Q : incl es [up; flat] /\ NoDup es /\ In flat es).
  { destruct H as [-> | ->]; (split; [intros e; simpl; tauto|]); (split; [|simpl; tauto]).
    - repeat constructor. intros [].
    - repeat constructor; simpl; [|tauto]. intros [A|[]]. discriminate. }
  destruct Q as (I & ND & Hin). destruct (flat_drawing es I ND) as [W G].
  assert (D : drawn (v5_graph es) v5) by reflexivity.
  assert (NA : ~ askew v5 2 3 flat) by (intros A; apply A; unfold cross, pt; simpl; lra).
  split; [exact D|]. split; [exact W|]. split; [exact G|].
  split; [|split; [exact flat_over|split; [exact Hin|split; [|split]]]].
  - intros (e & He & J). destruct (flat_es es I e He) as [-> | ->]; unfold joins in J; simpl in J; lia.
  - split; [simpl; lia|]. split; [lia|]. split; [lia|]. exists (/ 2). split; [lra|]. unfold along, pt; simpl. f_equal; lra.
  - destruct H as [-> | ->]; split.
    + intros (i & e & He & _ & A & _). apply nth_error_In in He. destruct He as [<-|[]]. contradiction.
    + discriminate.
    + reflexivity.
    + intros _. exists 0%nat, up. split; [reflexivity|]. split; [now left|]. split; [unfold askew, cross, pt; simpl; lra|].
      intros [|[|[|j]]] f Hf _ A; cbn in Hf; try discriminate; [reflexivity|].
      assert (f = flat) by congruence. subst f. contradiction.
  - destruct (add_edge_total 0%nat (v5_graph es) 2 3 30%nat) as [[g' r] Hr].
    + eapply well_drawn_valid; [exact D|exact W].
    + exists g', r. exact Hr.
Qed.

(** The same in f32: without a further edge at the passed node the long edge is laid over
    the short one; with one it is split there, and nodes 0 and 3 are joined by two edges. *)
Example C145_f32 : forall lm,
  f5_edges lm [flat] = Some [(0, 3); (2, 3)]%nat /\
  f5_edges lm [up; flat] = Some [(0, 1); (0, 3); (2, 0); (3, 0)]%nat.
Proof. intros lm. repeat split; vm_compute; reflexivity. Qed.
