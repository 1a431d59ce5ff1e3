(** * Properties C132-C133: repeating calls, and undoing them *)
From Coq Require Import ZArith Reals Lia Lra List Bool Arith String Permutation Psatz.
From Flocq Require Import Core.Core IEEE754.BinarySingleNaN.
From Verif Require Import Scalar Utils Polygon Graph ListSpec GraphSpec Laws F32 GraphAdd GraphRemove GraphHistory PlaneSpec PlanarSpec DrawSpec UtilsReal GraphDemo
  GraphPlanar PlanarDemo Undo.
Import ListNotations.

(** ** C132: add_node twice *)
Theorem C132_node_again :
  forall lm (T U : Type) (g g' : PlanarGraph (FO lm) T U) p d d' i es,
  is_finite (vx p : f32) = true -> is_finite (vy p : f32) = true ->
  add_node g p d = Ok (g', (i, es)) -> add_node g' p d' = Ok (g', (i, [])).
Proof. intros lm T U g g' p d d' i es Fx Fy. apply (node_again (FO_laws lm)). apply self_distance. now split. Qed.
Print Assumptions C132_node_again.

Theorem C132_node_again_exact :
  forall (T U : Type) (g g' : PlanarGraph XO T U) p d d' i es,
  add_node g (xp p) d = Ok (g', (i, es)) -> add_node g' (xp p) d' = Ok (g', (i, [])).
Proof.
  intros T U g g' p d d' i es. apply (node_again XO_laws).
  rewrite distance_xp. apply olt_eps. rewrite dist_self0. apply Laws.eps32_pos.
Qed.
Print Assumptions C132_node_again_exact.

(** A point with a NaN or infinite coordinate is added every time, and touches no edge. *)
Theorem C132_not_finite :
  forall lm (T U : Type) (dT : T) (g : PlanarGraph (FO lm) T U) p d, reachable dT g ->
  is_finite (vx p : f32) = false \/ is_finite (vy p : f32) = false ->
  add_node g p d = Ok (MkGraph (nodes g ++ [MkNode p d ""%string]) (edges g), (node_count g, [])).
Proof.
  intros lm T U dT g p d R W. apply wild_node; [now apply (reachable_valid dT)|]. intros [Fx Fy]. change (car (FO lm)) with f32 in *. destruct W as [W|W]; [rewrite W in Fx|rewrite W in Fy]; discriminate.
Qed.
Print Assumptions C132_not_finite.

(** A node on an edge of [cross] (it is split), and the same again. *)
Example C132_example : is_finite (vx (xy 1 0) : f32) = true /\ is_finite (vy (xy 1 0) : f32) = true /\
  snd (got (graph_new, (0, [])) (add_node (build cross) (xy 1 0) 5)) = (5, [2; 4]) /\
  is_finite (vx (P2 B754_nan (B754_zero false) : Vec2 F) : f32) = false /\ reachable 0 (build cross).
Proof. split; [reflexivity|]. split; [reflexivity|]. split; [vm_compute; reflexivity|]. split; [reflexivity|]. apply build_reachable, cross_ok. Qed.

(** ** C133: undoing *)
(** Drawing an edge that crosses nothing, and removing it again: it panics if both ends had
    edges, otherwise the ends that had none are removed too. *)
Theorem C133_undo_edge :
  forall (O : Ops) (T U : Type) (dT : T) (g g' : PlanarGraph O T U) s d u r, reachable dT g -> s <> d -> ~ adjacent g s d ->
  s < node_count g -> d < node_count g -> add_edge dT g s d u = Ok (g', r) ->
  node_count g' = node_count g -> edge_count g' = S (edge_count g) ->
  get_edge g' (edge_count g) = Some (MkEdge s d u ""%string) /\ r = AddOk [] [edge_count g] /\
  (0 < degree g s -> 0 < degree g d -> remove_edge g' (edge_count g) = Panic) /\
  (degree g s = 0 \/ degree g d = 0 ->
     exists g'' r' keep, remove_edge g' (edge_count g) = Ok (g'', r') /\
       restricts keep g g'' (fun i => (i = s \/ i = d) /\ degree g i = 0) (edges g)).
Proof.
  intros O T U dT g g' s d u r R N NA Hs Hd H Ln Le. apply reachable_valid in R.
  destruct (plain_edge dT g g' s d u r H NA Hs Hd Ln Le) as [-> ->].
  destruct (undo_edge g s d u R N Hs Hd) as [A B]. split; [|split; [reflexivity|split]].
  - unfold get_edge, edge_count. cbn [edges]. rewrite nth_error_app2, Nat.sub_diag by lia. reflexivity.
  - intros P Q. apply A; lia.
  - exact B.
Qed.
Print Assumptions C133_undo_edge.

(** Adding a node, and removing it again: it panics if the node touched no edge, otherwise
    the edges it touched are gone, with the ends that have no other edge. *)
Theorem C133_undo_node :
  forall (O : Ops) (T U : Type) (dT : T) (g g' : PlanarGraph O T U) p d k ces, reachable dT g -> no_loops g ->
  add_node g p d = Ok (g', (k, ces)) -> node_count g' = S (node_count g) ->
  let touched e := is_on_line_segment (pos_at (nodes g) (src e)) (pos_at (nodes g) (dst e)) p false in
  ((forall e, In e (edges g) -> touched e = false) -> remove_node g' k = Panic) /\
  ((exists e, In e (edges g) /\ touched e = true) ->
     exists g'' r keep, remove_node g' k = Ok (g'', r) /\
       restricts keep g g'' (fun i => degree g i = 1 /\ exists e, In e (edges g) /\ touched e = true /\ touches i e)
         (filter (fun e => negb (touched e)) (edges g))).
Proof. intros O T U dT g g' p d k ces R. apply undo_node. now apply (reachable_valid dT). Qed.
Print Assumptions C133_undo_node.

(** So the graph never comes back. *)
Theorem C133_never_restored :
  forall (O : Ops) (T U : Type) (dT : T) (g g' : PlanarGraph O T U), reachable dT g ->
  (forall s d u r r', s <> d -> ~ adjacent g s d -> s < node_count g -> d < node_count g -> add_edge dT g s d u = Ok (g', r) ->
     node_count g' = node_count g -> edge_count g' = S (edge_count g) -> remove_edge g' (edge_count g) <> Ok (g, r')) /\
  (forall p d k ces r', no_loops g -> add_node g p d = Ok (g', (k, ces)) -> node_count g' = S (node_count g) -> remove_node g' k <> Ok (g, r')).
Proof.
  intros O T U dT g g' R. split.
  - intros s d u r r' N NA Hs Hd H Ln Le E.
    destruct (C133_undo_edge O T U dT g g' s d u r R N NA Hs Hd H Ln Le) as (_ & _ & A & B).
    destruct (Nat.eq_dec (degree g s) 0) as [Zs|Zs]; [|destruct (Nat.eq_dec (degree g d) 0) as [Zd|Zd]].
    + destruct (B (or_introl Zs)) as (g'' & r'' & keep & E' & R1 & R2 & R3 & _). rewrite E in E'. injection E' as <- <-.
      apply Forall2_same_length in R3. apply increasing_nodup in R1.
      assert (I : incl (s :: keep) (seq 0 (node_count g))).
      { intros i [<-|Hi]; apply in_seq; [lia|]. apply R2 in Hi. unfold node_count. lia. }
      assert (ND : NoDup (s :: keep)) by (constructor; [intros Hi; apply R2 in Hi; destruct Hi as [_ Hi]; apply Hi; auto|exact R1]).
      pose proof (NoDup_incl_length ND I) as Q. rewrite seq_length in Q. cbn in Q. unfold node_count in Q. lia.
    + destruct (B (or_intror Zd)) as (g'' & r'' & keep & E' & R1 & R2 & R3 & _). rewrite E in E'. injection E' as <- <-.
      apply Forall2_same_length in R3. apply increasing_nodup in R1.
      assert (I : incl (d :: keep) (seq 0 (node_count g))).
      { intros i [<-|Hi]; apply in_seq; [lia|]. apply R2 in Hi. unfold node_count. lia. }
      assert (ND : NoDup (d :: keep)) by (constructor; [intros Hi; apply R2 in Hi; destruct Hi as [_ Hi]; apply Hi; auto|exact R1]).
      pose proof (NoDup_incl_length ND I) as Q. rewrite seq_length in Q. cbn in Q. unfold node_count in Q. lia.
    + rewrite A in E by lia. discriminate.
  - intros p d k ces r' NL H C E. destruct (C133_undo_node O T U dT g g' p d k ces R NL H C) as [A B].
    set (touched := fun e : Edge U => is_on_line_segment (pos_at (nodes g) (src e)) (pos_at (nodes g) (dst e)) p false).
    destruct (existsb touched (edges g)) eqn:X.
    + apply existsb_exists in X. destruct (B X) as (g'' & r'' & keep & E' & _ & _ & _ & R4). rewrite E in E'. injection E' as <- <-.
      apply Forall2_same_length in R4. destruct X as (e & Hin & Te).
      pose proof (filter_partition_length _ touched (edges g)) as Q. cbv beta delta [touched] in Q, Te.
      match type of Q with context [List.length (filter ?f (edges g))] => assert (I : In e (filter f (edges g))) by (apply filter_In; auto); destruct (filter f (edges g)); [easy|cbn in Q; lia] end.
    + rewrite A in E; [discriminate|]. intros e Hin. destruct (touched e) eqn:Te; [|exact Te]. exfalso. apply Bool.diff_false_true. rewrite <- X. apply existsb_exists. exists e; auto.
Qed.
Print Assumptions C133_never_restored.

(** Which nodes a removal leaves without an edge: the surviving nodes all of whose edges go
    to the removed node (two or more parallel edges, or none at all). *)
Theorem C133_strays_exactly :
  forall (O : Ops) (T U : Type) (dT : T) (g g' : PlanarGraph O T U) id r, reachable dT g -> id < node_count g -> ~ lonely_loop g id ->
  remove_node g id = Ok (g', r) ->
  exists keep, restricts keep g g' (to_delete g id) (filter (fun e => negb (touchesb id e)) (edges g)) /\
    forall k i, nth_error keep k = Some i -> (degree g' k = 0 <-> forall e, In e (edges g) -> touches i e -> touches id e).
Proof.
  intros O T U dT g g' id r R Hid NL H. apply reachable_valid in R. exists (keep_of g id).
  split; [eapply remove_node_restricts; eassumption|]. eapply stray_nodes; eassumption.
Qed.
Print Assumptions C133_strays_exactly.

(** The other way round works, in exact arithmetic on a plane drawing: an edge whose ends
    have other edges and that is not the last one, removed and drawn again, only changes its
    place in the list. *)
Theorem C133_redraw :
  forall (T U : Type) (dT : T) (g : PlanarGraph XO T U) ps id e, drawn g ps -> well_drawn ps (edges g) -> get_edge g id = Some e ->
  2 <= degree g (src e) -> 2 <= degree g (dst e) -> S id < edge_count g ->
  exists es1 r1, remove_edge g id = Ok (MkGraph (nodes g) es1, r1) /\ Permutation es1 (without id (edges g)) /\
    forall u, add_edge dT (MkGraph (nodes g) es1) (src e) (dst e) u =
      Ok (MkGraph (nodes g) (es1 ++ [MkEdge (src e) (dst e) u ""%string]), AddOk [] [edge_count g - 1]).
Proof. intros T U dT. exact (redraw dT). Qed.
Print Assumptions C133_redraw.

(** Examples: the last side of the triangle cannot be removed again (both its ends had
    edges); the first edge drawn takes both its ends along; a node on an edge of [cross]
    takes the edge along, a node in the plane panics. *)
Definition two_sides : list (@op F nat nat) := [N 0 0; N 4 0; N 0 3; E 0 1 1; E 1 2 2].
Definition plus_edge (g : G) s d : G := fst (got (graph_new, NoSuchVertex) (add_edge 0 g s d 9)).
Definition plus_node (g : G) p : G := fst (got (graph_new, (0, [])) (add_node g p 9)).
Example C133_example :
  reachable 0 (build two_sides) /\ degree (build two_sides) 2 = 1 /\ degree (build two_sides) 0 = 1 /\
  node_count (plus_edge (build two_sides) 2 0) = 3 /\ edge_count (plus_edge (build two_sides) 2 0) = 3 /\
  is_ok (remove_edge (plus_edge (build two_sides) 2 0) 2) = false /\
  shape (fst (got (graph_new, ([], [])) (remove_edge (plus_edge (build (two_sides ++ [N 9 9])) 2 3) 2))) = [(0, 1, 1); (1, 2, 2)] /\
  is_ok (remove_node (plus_node (build two_sides) (xy 9 9)) 3) = false /\
  shape (plus_node (build two_sides) (xy 1 0)) = [(0, 3, 1); (1, 2, 2); (1, 3, 1)] /\
  shape (fst (got (graph_new, ([], [])) (remove_node (plus_node (build two_sides) (xy 1 0)) 3))) = [(0, 1, 2)].
Proof.
  assert (K : is_ok (run 0 graph_new two_sides) = true) by (vm_compute; reflexivity).
  split; [apply build_reachable, K|]. repeat split; vm_compute; reflexivity.
Qed.

(** A triangle in exact arithmetic, for [C133_redraw]. *)
Definition tri3 : list point := [P2 0 0; P2 4 0; P2 0 4]%R.
Definition tri3_graph : PlanarGraph XO nat nat :=
  MkGraph (map (fun p => MkNode (xp p) 7 DEFAULT_LABEL) tri3) [MkEdge 0 1 10 DEFAULT_LABEL; MkEdge 1 2 11 DEFAULT_LABEL; MkEdge 2 0 12 DEFAULT_LABEL].
Lemma tri3_drawn : drawn tri3_graph tri3 /\ well_drawn tri3 (edges tri3_graph).
Proof.
  pose proof eps32_tiny as Et. pose proof Laws.eps32_pos as Ep.
  pose proof (dist_ge (P2 4 0) (P2 0 4) (11/2))%R as A1. pose proof (dist_le (P2 4 0) (P2 0 4) 6)%R as A2.
  pose proof (dist_ge (P2 0 0) (P2 4 0) 4)%R as A3. pose proof (dist_le (P2 0 0) (P2 4 0) 4)%R as A4.
  pose proof (dist_ge (P2 0 4) (P2 0 0) 4)%R as A5. pose proof (dist_le (P2 0 4) (P2 0 0) 4)%R as A6.
  cbn [vx vy] in *.
  pose proof (dist_sym (P2 4 0) (P2 0 4))%R as S1. pose proof (dist_sym (P2 0 0) (P2 4 0))%R as S2. pose proof (dist_sym (P2 0 4) (P2 0 0))%R as S3.
  split; [reflexivity|]. split; [|split; [|split; [|split]]].
  - intros e [<-|[<-|[<-|[]]]]; cbn; lia.
  - intros i j Hi Hj N. cbn in Hi, Hj.
    assert (i = 0 \/ i = 1 \/ i = 2) as [->|[->| ->]] by lia; assert (j = 0 \/ j = 1 \/ j = 2) as [->|[->| ->]] by lia;
      try (exfalso; now apply N); cbn [pt nth tri3]; lra.
  - intros k e Hk He (H & H1 & H2). cbn in Hk.
    destruct He as [<-|[<-|[<-|[]]]]; cbn [src dst] in *;
      assert (k = 0 \/ k = 1 \/ k = 2) as [->|[->| ->]] by lia; cbn [pt nth tri3] in *; rewrite ?dist_self0 in *; lra.
  - intros k e Hk He NT (t & Ht & E). apply NT. cbn in Hk. unfold touches.
    destruct He as [<-|[<-|[<-|[]]]]; cbn [src dst] in *;
      assert (k = 0 \/ k = 1 \/ k = 2) as [->|[->| ->]] by lia; auto;
      exfalso; cbn [pt nth tri3] in E; unfold along in E; cbn [vx vy] in E; injection E; intros; lra.
  - intros i j ei ej x Nij Hi Hj (t & Ht & Ex) (t' & Ht' & Ex').
    assert (Hi3 : i < List.length (edges tri3_graph)) by (apply nth_error_Some; rewrite Hi; discriminate). assert (Hj3 : j < List.length (edges tri3_graph)) by (apply nth_error_Some; rewrite Hj; discriminate). cbn [List.length edges tri3_graph] in Hi3, Hj3.
    assert (i = 0 \/ i = 1 \/ i = 2) as [->|[->| ->]] by lia; assert (j = 0 \/ j = 1 \/ j = 2) as [->|[->| ->]] by lia;
      try (exfalso; now apply Nij); cbn in Hi, Hj; injection Hi as <-; injection Hj as <-; cbn [src dst] in *;
      cbn [pt nth tri3] in *; rewrite Ex in Ex'; unfold along in Ex'; cbn [vx vy] in Ex'; injection Ex'; intros Q1 Q2.
    all: rewrite Ex; unfold along; cbn [vx vy].
    all: match goal with
    | |- exists k, touches k (MkEdge 0 1 _ _) /\ touches k (MkEdge 1 2 _ _) /\ _ => exists 1
    | |- exists k, touches k (MkEdge 1 2 _ _) /\ touches k (MkEdge 0 1 _ _) /\ _ => exists 1
    | |- exists k, touches k (MkEdge 0 1 _ _) /\ touches k (MkEdge 2 0 _ _) /\ _ => exists 0
    | |- exists k, touches k (MkEdge 2 0 _ _) /\ touches k (MkEdge 0 1 _ _) /\ _ => exists 0
    | |- _ => exists 2
    end; unfold touches; cbn [src dst pt nth]; (split; [auto|split; [auto|f_equal; lra]]).
Qed.
Example C133_redraw_example : drawn tri3_graph tri3 /\ well_drawn tri3 (edges tri3_graph) /\
  get_edge tri3_graph 1 = Some (MkEdge 1 2 11 DEFAULT_LABEL) /\ degree tri3_graph 1 = 2 /\ degree tri3_graph 2 = 2 /\ 2 < edge_count tri3_graph.
Proof. split; [apply tri3_drawn|]. split; [apply tri3_drawn|]. repeat split. cbn. lia. Qed.

(** Two parallel edges 0-3 (C17): removing node 3 leaves node 0 without any edge. *)
Example C133_strays_example : reachable 0 (build overlap) /\ ~ lonely_loop (build overlap) 3 /\ degree (build overlap) 0 = 2 /\
  (let g := fst (got (graph_new, ([], [])) (remove_node (build overlap) 3)) in (node_count g, edge_count g)) = (1, 0).
Proof.
  split; [apply build_reachable, overlap_ok|]. split; [|split; vm_compute; reflexivity].
  intros [_ D]. vm_compute in D. discriminate.
Qed.
