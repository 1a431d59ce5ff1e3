(** * C151: exactly which histories in exact arithmetic stay planar.

    [distinct dT g os]: nodes are added at good places, and requested edges are between
    different nodes and exist already, have a missing end, or have no near misses (C145).
    [frees dT g os]: every requested edge exists already, has a missing end, or runs along
    no edge and passes only nodes with exactly one edge.  [stays_exact dT g os]: g and
    every graph after one of the calls is a planar drawing. *)
From Coq Require Import List Arith Bool Lia Reals Lra ZArith.
From Flocq Require Import Core.Core IEEE754.BinarySingleNaN.
From Verif Require Import Scalar Utils Polygon Graph GraphSpec PlaneSpec PlanarSpec GridSpec F32 Laws UtilsReal UtilsF32
  PolyF32 PolyNewF32 GraphDemo GraphHistory GraphPlanar GraphSim GridUtils GridSeg GridPrim GridOn GridGraph GridInst GridCheck
  Properties_Utils Properties_Polygon Properties_Grid Properties_GridGraph
  ThroughSpec Through Over GridThroughSpec GridThrough GridThroughCheck GridOverSpec GridOver Properties_GridOver StaysSpec Stays.
Import ListNotations.
Local Open Scope R_scope.

Theorem C151_edge :
  forall (T U : Type) (dT : T) (g g' : PlanarGraph XO T U) ps s d u r,
  drawn g ps -> well_drawn ps (edges g) -> no_near_miss ps (edges g) s d -> s <> d ->
  ~ adjacent g s d -> (s < length ps)%nat -> (d < length ps)%nat -> add_edge dT g s d u = Ok (g', r) ->
  (planar_exact g' <-> (forall e, In e (edges g) -> ~ overlaps ps s d e) /\ forall k, passes ps s d k -> degree g k = 1%nat).
Proof. intros T U dT. exact (planar_clear dT). Qed.
Print Assumptions C151_edge.

Theorem C151_history :
  forall (T U : Type) (dT : T) (os : list (@op XO T U)), distinct dT graph_new os ->
  (stays_exact dT graph_new os <-> frees dT graph_new os).
Proof. intros T U dT os H. destruct (@empty_drawn T U) as [D W]. exact (stays_iff dT os graph_new _ D W H). Qed.
Print Assumptions C151_history.

Lemma neat_distinct : forall (T U : Type) (dT : T) os (o : @op XO T U) (g : PlanarGraph XO T U), neat dT g os ->
  (forall g', run dT g os = Ok g' -> distinct_op g' o) -> distinct dT g os /\ distinct dT g (os ++ [o]).
Proof.
  intros T U dT. induction os as [|o1 os IH]; intros o g N H.
  - split; [exact Logic.I|]. split; [apply H; reflexivity|]. intros g' _. exact Logic.I.
  - destruct N as [N1 N2].
    assert (D1 : distinct_op g o1).
    { destruct o1 as [p v|s d u|i|i]; cbn [neat_op distinct_op] in *; auto. destruct N1 as (Ne & [?|[?|(ps & D & UA & _)]]); (split; [exact Ne|]); auto.
      right. right. exists ps. split; [exact D|]. exact (proj1 (proj1 (unambiguous_over U ps _ s d) UA)). }
    assert (K : forall g', step dT g o1 = Ok g' -> distinct dT g' os /\ distinct dT g' (os ++ [o])).
    { intros g' S. apply IH; [exact (N2 g' S)|]. intros g2 R. apply H. cbn [run]. rewrite S. exact R. }
    split; (split; [exact D1|]); intros g' S; apply (K g' S).
Qed.

Lemma frees_last : forall (T U : Type) (dT : T) os (o : @op XO T U) (g g' : PlanarGraph XO T U),
  frees dT g (os ++ [o]) -> run dT g os = Ok g' -> free_op g' o.
Proof.
  intros T U dT. induction os as [|o1 os IH]; intros o g g' F R.
  - injection R as <-. exact (proj1 F).
  - cbn [run] in R. destruct (step dT g o1) as [g1|] eqn:E; [|discriminate]. exact (IH o g1 g' (proj2 F g1 E) R).
Qed.

(** The histories of C150 in exact arithmetic. *)
Example C151_example :
  distinct 0%nat graph_new (map exact_op tee_ops) /\ distinct 0%nat graph_new (map exact_op tee_over) /\
  frees 0%nat graph_new (map exact_op tee_ops) /\ stays_exact 0%nat graph_new (map exact_op tee_ops) /\
  ~ stays_exact 0%nat graph_new (map exact_op tee_over).
Proof.
  destruct C150_example as (HS & Do & Cl & _ & _ & E1 & _).
  destruct (see_ok _ _ _ E1) as (g & R & Pg & Eg).
  assert (D1 : draws 0%nat (grid_le 6 0) axis graph_new tee_ops) by (apply (drawsb_ok 0%nat 0 ltac:(lia) axis axisb (axisb_ok 0)); vm_compute; reflexivity).
  assert (St : straights 0%nat graph_new tee_ops) by (apply (straightsb_ok 0%nat 0 ltac:(lia)); vm_compute; reflexivity).
  destruct (drawable_ok 0 axis HS) as (He & H1 & H2 & H3).
  pose proof (proj2 (@empty_drawn nat nat)) as W0.
  destruct (fam_clears_well lm0 0 He 0%nat axis (H1 lm0) H2 H3 tee_ops graph_new g (new_inside _ _) W0 D1 Cl R) as [I W].
  assert (Nt : neat 0%nat graph_new (map exact_op tee_ops)) by exact (fam_neats lm0 0 He 0%nat axis (H1 lm0) H2 H3 tee_ops graph_new (new_inside _ _) W0 D1 St).
  assert (RX : run 0%nat graph_new (map exact_op tee_ops) = Ok (exact_graph g)).
  { pose proof (fam_run lm0 0 He 0%nat axis (H1 lm0) H2 H3 tee_ops graph_new (new_inside _ _) D1) as [Q _]. rewrite R in Q. exact Q. }
  assert (L : length (places g) = 4%nat) by now rewrite Pg.
  assert (O : overlaps (places g) 0 1 (MkEdge 0%nat 2%nat 0%nat String.EmptyString)).
  { rewrite Pg. exists (P2 (-4) 0), (P2 (-2) 0). split; [intros Q; injection Q; lra|].
    repeat split; [exists 0|exists (/ 2)|exists 0|exists (/ 4)]; (split; [lra|]); unfold along, pt, at_unit; cbn [map nth fst snd vx vy bpow src dst]; f_equal; lra. }
  assert (Ov : exists f, In f (edges g) /\ overlaps (places g) 0 1 f).
  { generalize dependent (edges g). clear - O. intros es Eg W. destruct es as [|e0 [|e1 [|e2 [|e3 l]]]]; try discriminate.
    injection Eg as _ _ S1 T1 _ _. exists e1. split; [right; now left|]. unfold overlaps, edge_on in *. rewrite S1, T1. exact O. }
  assert (NA : ~ adjacent (exact_graph g) 0 1).
  { clear - Eg. unfold adjacent, exact_graph; cbn [edges]. generalize dependent (edges g). intros es Eg. destruct es as [|e0 [|e1 [|e2 [|e3 l]]]]; try discriminate.
    injection Eg as S0 T0 S1 T1 S2 T2. intros (f & [<-|[<-|[<-|[]]]] & [[A B]|[A B]]); congruence. }
  assert (LX : length (nodes (exact_graph g)) = 4%nat).
  { clear - L. unfold places in L. unfold exact_graph; cbn [nodes]. rewrite map_length in *. exact L. }
  assert (X : distinct 0%nat graph_new (map exact_op tee_ops) /\ distinct 0%nat graph_new (map exact_op tee_ops ++ [OAddEdge 0 1 9%nat])).
  { apply neat_distinct; [exact Nt|]. intros g' R'. rewrite RX in R'. injection R' as <-. split; [lia|]. right. right.
    exists (places g). split; [apply exact_drawn|]. apply (grid_no_miss lm0 0 He axis (H1 lm0) H2 g 0%nat 1%nat I W); [lia..|].
    rewrite Pg. unfold axis, pt, at_unit; cbn [map nth fst snd vx vy bpow]. auto. }
  assert (EO : map exact_op tee_over = map exact_op tee_ops ++ [OAddEdge 0 1 9%nat]) by (unfold tee_over; rewrite map_app; reflexivity).
  assert (F : frees 0%nat graph_new (map exact_op tee_ops)).
  { destruct X as [X _]. clear - Nt. revert Nt. generalize (@graph_new XO nat nat). generalize (map (exact_op (lm := lm0)) tee_ops).
    induction l as [|o l IH]; intros g N; [exact Logic.I|]. destruct N as [N1 N2]. split; [|intros g' S; exact (IH g' (N2 g' S))].
    destruct o as [p v|s d u|i|i]; cbn [neat_op free_op] in *; auto. destruct N1 as (Ne & [?|[?|(ps & D & UA & Dg)]]); auto.
    right. right. exists ps. split; [exact D|]. split; [|exact Dg]. exact (proj2 (proj1 (unambiguous_over nat ps _ s d) UA)). }
  destruct X as [X1 X2]. rewrite EO. split; [exact X1|]. split; [exact X2|]. split; [exact F|].
  split; [exact (proj2 (C151_history _ _ _ _ X1) F)|]. intros Q. apply (C151_history _ _ _ _ X2) in Q.
  destruct (frees_last _ _ _ _ _ _ _ Q RX) as [A|[A|(ps & D & A & _)]]; [exact (NA A)|apply A; rewrite LX; lia|].
  assert (ps = places g) as -> by exact (drawn_fun _ _ _ D (exact_drawn lm0 g)).
  destruct Ov as (f & Hf & Ov). exact (A f Hf Ov).
Qed.
