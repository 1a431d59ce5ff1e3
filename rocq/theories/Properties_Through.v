(** * Properties: drawing an edge through existing nodes (C137). *)
From Coq Require Import Reals List Arith Bool Lia Lra ZArith.
From Verif Require Import Scalar F32 Utils Graph GraphSpec Laws Closest PlaneSpec UtilsReal PlanarSpec
  GraphAdd GraphPlanar PlanarDemo ThroughSpec Through.
Import ListNotations.
Local Open Scope R_scope.

(** ** C137: the new edge is split at exactly those nodes it passes that have one edge *)
Theorem C137_through_nodes :
  forall (T U : Type) (dT : T) (g g' : PlanarGraph XO T U) ps s d u r,
  drawn g ps -> well_drawn ps (edges g) -> unambiguous ps (edges g) s d -> s <> d ->
  ~ adjacent g s d -> (s < length ps)%nat -> (d < length ps)%nat ->
  add_edge dT g s d u = Ok (g', r) ->
  exists qs, drawn g' (ps ++ qs) /\ NoDup (ps ++ qs) /\
    (* the picture gains the segment *)
    (forall x, covers (ps ++ qs) (edges g') x <->
       covers ps (edges g) x \/ on_segment (pt ps s) (pt ps d) x) /\
    (* the new nodes are its crossings outside the old nodes *)
    (forall x, In x qs <-> on_segment (pt ps s) (pt ps d) x /\ covers ps (edges g) x /\ ~ In x ps) /\
    (* the drawing is planar except at the passed nodes with 0 or with 2 or more edges *)
    planar_except (fun k => passes ps s d k /\ degree g k <> 1%nat) (ps ++ qs) (edges g') /\
    (* through these an edge runs, through the others none *)
    (forall k, passes ps s d k ->
       (degree g k <> 1%nat <-> exists e, In e (edges g') /\ crosses_node (ps ++ qs) k e)) /\
    (* so the drawing stays planar exactly if each passed node has one edge *)
    (well_drawn (ps ++ qs) (edges g') <-> forall k, passes ps s d k -> degree g k = 1%nat).
Proof. intros T U. exact add_edge_thru. Qed.
Print Assumptions C137_through_nodes.

(** General position is the case without passed nodes. *)
Theorem C137_general_position :
  forall (U : Type) ps (es : list (Edge U)) s d,
  well_drawn ps es -> s <> d -> (s < length ps)%nat -> (d < length ps)%nat ->
  (forall e, In e es -> ~ joins s d e) ->
  general_position ps es s d -> unambiguous ps es s d /\ forall k, ~ passes ps s d k.
Proof. exact general_unambiguous. Qed.
Print Assumptions C137_general_position.

(** Five nodes; the segment from node 2 to node 3 passes through node 0, which has one
    edge in the first graph, two in the second. *)
Definition v5 : list point := [P2 0 0; P2 0 2; P2 (-2) 0; P2 2 0; P2 0 (-2)].
Definition up : Edge nat := MkEdge 0 1 10%nat DEFAULT_LABEL.
Definition down : Edge nat := MkEdge 0 4 20%nat DEFAULT_LABEL.
Definition v5_graph (es : list (Edge nat)) : PlanarGraph XO nat nat :=
  MkGraph (map (fun p => MkNode (xp p) 7%nat DEFAULT_LABEL) v5) es.

Lemma on_up : forall x, edge_on v5 up x -> vx x = 0 /\ 0 <= vy x.
Proof. intros x (t & Ht & ->). unfold along; simpl. lra. Qed.
Lemma on_down : forall x, edge_on v5 down x -> vx x = 0 /\ vy x <= 0.
Proof. intros x (t & Ht & ->). unfold along; simpl. lra. Qed.
Lemma on_flat : forall x, on_segment (pt v5 2) (pt v5 3) x -> vy x = 0.
Proof. intros x (t & Ht & ->). unfold along; simpl. lra. Qed.

Lemma v5_es : forall es, incl es [up; down] -> forall e, In e es -> e = up \/ e = down.
Proof. intros es I e He. destruct (I e He) as [<-|[<-|[]]]; auto. Qed.

Lemma v5_drawing : forall es, incl es [up; down] -> NoDup es ->
  well_drawn v5 es /\ unambiguous v5 es 2 3.
Proof.
  intros es I ND. pose proof (v5_es es I) as E. pose proof eps32_tiny as Te. pose proof eps32_pos as Pe.
  assert (K : forall k, (k < length v5)%nat -> k = 0%nat \/ k = 1%nat \/ k = 2%nat \/ k = 3%nat \/ k = 4%nat)
    by (intros k Hk; cbn in Hk; lia).
  assert (M : forall e x, In e es -> edge_on v5 e x -> on_segment (pt v5 2) (pt v5 3) x -> x = pt v5 0).
  { intros e [x y] He O1 O2. apply on_flat in O2. destruct (E e He) as [-> | ->]; [apply on_up in O1|apply on_down in O1];
      simpl in *; unfold pt; simpl; f_equal; lra. }
  split.
  - split; [intros e He; destruct (E e He) as [-> | ->]; simpl; lia|]. split; [|split].
    + intros i j Hi Hj N. destruct (K i Hi) as [->|[->|[->|[->| ->]]]], (K j Hj) as [->|[->|[->|[->| ->]]]];
        try contradiction; apply unit_apart; simpl; lra.
    + intros k e Hk He (H1 & H2 & H3).
      pose proof (dist_le (P2 0 0) (P2 0 2) 2) as A1. pose proof (dist_le (P2 0 0) (P2 0 (-2)) 2) as A2.
      pose proof (dist_ge (P2 0 0) (P2 (-2) 0) 2) as B1. pose proof (dist_ge (P2 0 0) (P2 2 0) 2) as B2.
      pose proof (dist_ge (P2 0 0) (P2 0 2) 2) as B3. pose proof (dist_ge (P2 0 0) (P2 0 (-2)) 2) as B4.
      pose proof (dist_ge (P2 (-2) 0) (P2 0 2) 2) as C1. pose proof (dist_ge (P2 2 0) (P2 0 2) 2) as C2.
      pose proof (dist_ge (P2 (-2) 0) (P2 0 (-2)) 2) as C3. pose proof (dist_ge (P2 2 0) (P2 0 (-2)) 2) as C4.
      pose proof (dist_ge (P2 0 2) (P2 0 (-2)) 2) as C5. pose proof (dist_ge (P2 0 (-2)) (P2 0 2) 2) as C6.
      simpl in A1, A2, B1, B2, B3, B4, C1, C2, C3, C4, C5, C6.
      destruct (E e He) as [-> | ->], (K k Hk) as [->|[->|[->|[->| ->]]]];
        unfold pt in *; simpl in *; try rewrite dist_self0 in *; lra.
    + split.
      * intros k e Hk He Nt O. destruct (E e He) as [-> | ->]; [apply on_up in O|apply on_down in O];
          destruct (K k Hk) as [->|[->|[->|[->| ->]]]]; unfold pt, touches in *; simpl in *; first [lra|lia].
      * intros i j ei ej x N Hi Hj O1 O2.
        assert (Nij : ei <> ej).
        { intros Q. apply N. apply (proj1 (NoDup_nth_error es) ND); [apply nth_error_Some; congruence|congruence]. }
        exists 0%nat. apply nth_error_In in Hi, Hj.
        destruct (E ei Hi) as [-> | ->], (E ej Hj) as [-> | ->]; try congruence;
          (split; [now left|]; split; [now left|]).
        -- apply on_up in O1. apply on_down in O2. destruct x; unfold pt; simpl in *; f_equal; lra.
        -- apply on_down in O1. apply on_up in O2. destruct x; unfold pt; simpl in *; f_equal; lra.
  - split; [|split; [|split]].
    + intros k Hk N2 N3 (H1 & _).
      pose proof (dist_le (P2 (-2) 0) (P2 2 0) 4) as A1.
      pose proof (dist_ge (P2 (-2) 0) (P2 0 2) (14/5)) as C1. pose proof (dist_ge (P2 0 2) (P2 2 0) (14/5)) as C2.
      pose proof (dist_ge (P2 (-2) 0) (P2 0 (-2)) (14/5)) as C3. pose proof (dist_ge (P2 0 (-2)) (P2 2 0) (14/5)) as C4.
      simpl in A1, C1, C2, C3, C4.
      destruct (K k Hk) as [->|[->|[->|[->| ->]]]]; try contradiction; unfold pt in *; simpl in *; try lra.
      exists (/ 2). split; [lra|]. unfold along; simpl. f_equal; lra.
    + intros e x y He H1 H2 H3 H4. rewrite (M e x He H1 H3), (M e y He H2 H4). reflexivity.
    + intros i e x He H1 H2. left. exists 0%nat. split; [simpl; lia|].
      apply (M e); auto. eapply nth_error_In; exact He.
    + intros e f x y He Hf H1 H2 H3 H4. left. rewrite (M e x He H1 H3), (M f y Hf H2 H4). reflexivity.
Qed.

Example C137_example : forall es, es = [up] \/ es = [up; down] ->
  drawn (v5_graph es) v5 /\ well_drawn v5 es /\ unambiguous v5 es 2 3 /\ ~ adjacent (v5_graph es) 2 3 /\
  passes v5 2 3 0 /\ degree (v5_graph es) 0 = length es /\
  exists g' r, add_edge 0%nat (v5_graph es) 2 3 30%nat = Ok (g', r).
Proof.
  intros es H.
  assert (Q : incl es [up; down] /\ NoDup es /\ degree (v5_graph es) 0 = length es).
  { destruct H as [-> | ->]; (split; [intros e; simpl; tauto|]); (split; [|reflexivity]).
    - repeat constructor. intros [].
    - repeat constructor; simpl; [|tauto]. intros [A|[]]. discriminate. }
  destruct Q as (I & ND & Dg). destruct (v5_drawing es I ND) as [W G].
  assert (D : drawn (v5_graph es) v5) by reflexivity.
  split; [exact D|]. split; [exact W|]. split; [exact G|].
  split; [|split; [|split; [exact Dg|]]].
  - intros (e & He & J). destruct (v5_es es I e He) as [-> | ->]; unfold joins in J; simpl in J; lia.
  - split; [simpl; lia|]. split; [lia|]. split; [lia|]. exists (/ 2). split; [lra|]. unfold along, pt; simpl. f_equal; lra.
  - destruct (add_edge_total 0%nat (v5_graph es) 2 3 30%nat) as [[g' r] Hr].
    + eapply well_drawn_valid; [exact D|exact W].
    + exists g', r. exact Hr.
Qed.

(** The same drawing in f32: with one edge at the passed node the new edge is split there
    (three edges), with none or two it is not (two and three edges, one of them running
    through node 0). *)
Definition f5 (lm : Libm) (es : list (Edge nat)) : PlanarGraph (FO lm) nat nat :=
  MkGraph (map (fun p : Z * Z => MkNode (@P2 (FO lm) (f32_of (fst p) 0) (f32_of (snd p) 0)) 0%nat DEFAULT_LABEL)
    [(0, 0); (0, 2); (-2, 0); (2, 0); (0, -2)]%Z) es.
Definition f5_edges (lm : Libm) (es : list (Edge nat)) : option (list (nat * nat)) :=
  match add_edge 0%nat (f5 lm es) 2 3 30%nat with
  | Ok (g, _) => Some (map (fun e => (src e, dst e)) (edges g)) | Panic => None end.
Example C137_f32 : forall lm,
  f5_edges lm [] = Some [(2, 3)]%nat /\
  f5_edges lm [up] = Some [(0, 1); (2, 0); (3, 0)]%nat /\
  f5_edges lm [up; down] = Some [(0, 1); (0, 4); (2, 3)]%nat.
Proof. intros lm. repeat split; vm_compute; reflexivity. Qed.
