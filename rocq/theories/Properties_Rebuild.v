(** * C141: a drawing can be built again from its nodes and edges.

    [rebuild g]: one add_node call for each node of g and then one add_edge call for each
    edge of g, in the order of the slots.  [plain g]: all labels are the default one. *)
From Coq Require Import List Arith Bool Lia Reals Lra ZArith.
From Flocq Require Import Core.Core IEEE754.BinarySingleNaN.
From Verif Require Import Scalar Utils Polygon Graph GraphSpec PlaneSpec PlanarSpec GridSpec GeoSpec F32 Laws UtilsReal UtilsF32
  PolyF32 PolyNewF32 GraphHistory GraphPlanar PlanarDemo GraphSim GridUtils GridSeg GridPrim GridOn GridGraph GridInst GridCheck
  MarginSpec MarginReal MarginGraph MarginAdd ThroughSpec Through GridThroughSpec GridThrough GridThroughCheck RebuildSpec Rebuild
  Properties_Utils Properties_Polygon Properties_Grid Properties_GridGraph Properties_GridThrough Properties_Margin GraphDemo.
Import ListNotations.
Local Open Scope R_scope.

(** Labels are never anything but the default one, whatever the arithmetic. *)
Theorem C141_labels :
  forall (O : Ops) (T U : Type) (dT : T) (g : PlanarGraph O T U), reachable dT g -> plain g.
Proof. intros O T U dT g (os & H). exact (run_plain dT os g H). Qed.
Print Assumptions C141_labels.

(** Exact arithmetic. *)
Theorem C141_exact :
  forall (T U : Type) (dT : T) (g : PlanarGraph XO T U) ps, drawn g ps -> well_drawn ps (edges g) -> plain g ->
  tidy dT graph_new (rebuild g) /\ run dT graph_new (rebuild g) = Ok g.
Proof. intros T U dT g ps D W P. split; [exact (rebuild_tidy dT g ps D W P)|exact (rebuild_exact dT g ps D W P)]. Qed.
Print Assumptions C141_exact.

(** Hence the histories of unambiguous calls (C82) lead to the well-drawn graphs with
    default labels, all of them and nothing else. *)
Theorem C141_all_drawings :
  forall (T U : Type) (dT : T) (g : PlanarGraph XO T U),
  (exists os, tidy dT graph_new os /\ run dT graph_new os = Ok g) <->
  (exists ps, drawn g ps /\ well_drawn ps (edges g)) /\ plain g.
Proof.
  intros T U dT g. split.
  - intros (os & Ht & H). split; [|exact (run_plain dT os g H)]. destruct (@empty_drawn T U) as [D W].
    exact (tidy_planar dT os _ _ _ D W Ht H).
  - intros ((ps & D & W) & P). exists (rebuild g). exact (C141_exact T U dT g ps D W P).
Qed.
Print Assumptions C141_all_drawings.

(** Also after histories that draw through nodes with one edge (C139). *)
Theorem C141_through :
  forall (T U : Type) (dT : T) os (g : PlanarGraph XO T U), neat dT graph_new os -> run dT graph_new os = Ok g ->
  run dT graph_new (rebuild g) = Ok g.
Proof.
  intros T U dT os g Ht H. destruct (@empty_drawn T U) as [D W]. destruct (neat_planar dT os _ _ _ D W Ht H) as (ps & D' & W').
  exact (rebuild_exact dT g ps D' W' (run_plain dT os g H)).
Qed.
Print Assumptions C141_through.

(** f32, bit for bit, after histories on the grids of C90. *)
Theorem C141_grid :
  forall lm e S (T U : Type) (dT : T) os (g : PlanarGraph (FO lm) T U), drawable e S ->
  draws dT (grid_le 6 e) S graph_new os -> straights dT graph_new os -> run dT graph_new os = Ok g ->
  run dT graph_new (rebuild g) = Ok g.
Proof.
  intros lm e S T U dT os g HS D C R. destruct (drawable_ok e S HS) as (He & H1 & H2 & H3).
  destruct (fam_straights lm e He dT S (H1 lm) H2 H3 os graph_new g (new_inside _ _) (proj2 (@empty_drawn T U)) D C R) as [I W].
  exact (rebuild_grid lm e He dT S (H1 lm) H2 H3 g I W (run_plain dT os g R)).
Qed.
Print Assumptions C141_grid.

(** f32, bit for bit, for every drawing with room to spare (C119): [clear_ways] says that
    every edge clears its way among the edges before it. *)
Theorem C141_margin :
  forall lm (T U : Type) (dT : T) M K dl (g : PlanarGraph (FO lm) T U), fine M K dl ->
  (forall n, In n (nodes g) -> pbound M (position n)) -> spaced dl (places g) (edges g) -> planar_f32 g ->
  clear_ways K dl g -> plain g -> run dT graph_new (rebuild g) = Ok g.
Proof. intros lm T U dT M K dl g Fn PB Sp Pl CW P. exact (rebuild_margin lm dT M K dl Fn g PB Sp Pl CW P). Qed.
Print Assumptions C141_margin.

(** The crossing of C82, built again. *)
Example C141_example :
  exists g, tidy 0%nat graph_new xcross /\ run 0%nat graph_new xcross = Ok g /\
    run 0%nat graph_new (rebuild g) = Ok g.
Proof.
  destruct xcross_runs as (g & H). exists g. split; [exact xcross_tidy|]. split; [exact H|].
  destruct (@empty_drawn nat nat) as [D W]. destruct (tidy_planar 0%nat _ _ _ _ D W xcross_tidy H) as (ps & D' & W').
  exact (rebuild_exact 0%nat g ps D' W' (run_plain 0%nat _ g H)).
Qed.
Example C141_grid_example :
  drawable 0 axis /\ draws 0%nat (grid_le 6 0) axis graph_new tee_bar /\ straights 0%nat graph_new tee_bar /\
  size (run 0%nat graph_new tee_bar) = (5, 3)%nat /\
  (forall g, run 0%nat graph_new tee_bar = Ok g -> rebuild g <> tee_bar).
Proof.
  destruct C139_example as (A & B & C & D & _). split; [exact A|]. split; [exact B|]. split; [exact C|]. split; [exact D|].
  intros g R E. rewrite R in D. cbn [size] in D. apply (f_equal (@length _)) in E. unfold rebuild in E. rewrite app_length, !map_length in E.
  injection D as D1 D2. unfold node_count, edge_count in *. rewrite D1, D2 in E. vm_compute in E. discriminate.
Qed.

Section Example.
Variable lm : Libm.
Local Notation graph := (PlanarGraph (FO lm) nat nat).
Let M := bpow radix2 (-9).
Let dl := bpow radix2 (-15).
Let q := bpow radix2 (-10).
Local Notation r0 := (P2 (0 * q) (0 * q)).
Local Notation r1 := (P2 (2 * q) (1 * q)).
Local Notation r2 := (P2 (1 * q) (0 * q)).
Local Notation r3 := (P2 (0 * q) (1 * q)).
Local Notation four := [r0; r1; r2; r3].
Definition side : Edge nat := MkEdge 2 0 8%nat DEFAULT_LABEL.
Definition wedge : graph := MkGraph (corners lm) [diagonal; side].
Lemma one_dl : 1 * bpow radix2 (-15) = dl. Proof. apply Rmult_1_l. Qed.
Lemma off_side : forall i, i = 1%nat \/ i = 3%nat -> off (1 * dl) (pt four 2) (pt four 0) (pt four i).
Proof.
  intros i Hi x (t & Ht & ->). destruct Hi as [-> | ->].
  - apply (far 1 _ _ ((1 + t) * (1 + t) + 1)); [lra|unfold along; cbn [pt nth vx vy]; fold q; ring|]. pose proof (Rle_0_sqr (1 + t)) as S. unfold Rsqr in S. lra.
  - apply (far 1 _ _ ((1 - t) * (1 - t) + 1)); [lra|unfold along; cbn [pt nth vx vy]; fold q; ring|]. pose proof (Rle_0_sqr (1 - t)) as S. unfold Rsqr in S. lra.
Qed.
Lemma wedge_spaced : spaced dl four [diagonal; side].
Proof.
  pose proof (ex_spaced 1 ltac:(lra)) as (V & A & C). rewrite one_dl in A, C. split; [intros e [<-|[<-|[]]]; cbn; lia|]. split; [exact A|].
  intros i e Hi [<-|[<-|[]]] NT; [apply C; [exact Hi|now left|exact NT]|]. rewrite <- (Rmult_1_l dl). apply off_side.
  cbn [length] in Hi. unfold touches, side in NT. cbn [src dst] in NT. lia.
Qed.
Example C141_margin_example :
  fine M 4 dl /\ (forall n, In n (nodes wedge) -> pbound M (position n)) /\ spaced dl (places wedge) (edges wedge) /\ planar_f32 wedge /\
  clear_ways 4 dl wedge /\ plain wedge.
Proof.
  split; [exact ex_fine|]. split; [apply ex_bound|]. unfold wedge at 1. rewrite ex_places. split; [exact wedge_spaced|]. split; [|split].
  - apply planar_places. unfold wedge. rewrite ex_places. pose proof wedge_spaced as (V & A & C). pose proof q_pos as Pq. pose proof dl_q as Pd. split.
    + intros k e Hk He NT On. pose proof (C k e Hk He NT _ On) as G. rewrite dist_self0 in G. fold q dl in Pq, Pd. lra.
    + assert (X : forall x, on_segment (pt four 0) (pt four 1) x -> on_segment (pt four 2) (pt four 0) x -> x = pt four 0).
      { intros x (t & Ht & ->) (t' & Ht' & E). unfold along in *. cbn [pt nth vx vy] in *. injection E as E1 E2.
        fold q in Pq. assert (t = 0) by nra. subst t. f_equal; ring. }
      intros [|[|[|i]]] [|[|[|j]]] ei ej x N Hi Hj O1 O2; try discriminate; try congruence; injection Hi as <-; injection Hj as <-.
      * exists 0%nat. split; [now left|]. split; [now right|]. exact (X x O1 O2).
      * exists 0%nat. split; [now right|]. split; [now left|]. exact (X x O2 O1).
  - pose proof (ex_clear0 1 ltac:(lra)) as C0. rewrite one_dl in C0. intros [|[|[|i]]] e H; try discriminate; injection H as <-; unfold wedge; rewrite ex_places.
    + exact C0.
    + split.
      * intros k Hk N1 N2. rewrite <- (Rmult_1_l dl). apply off_side. cbn [length side src dst] in *. lia.
      * intros [|[|i]] e H; try discriminate. injection H as <-. right. left. reflexivity.
  - split; [intros n [<-|[<-|[<-|[<-|[]]]]]; reflexivity|]. intros e [<-|[<-|[]]]; reflexivity.
Qed.
End Example.

(** Not for every graph a caller can hold: the two collinear edges of this history are
    split into parallel edges, and add_edge refuses the second of them. *)
Theorem C141_fails_at_parallel :
  exists g, reachable 0%nat g /\ run 0%nat graph_new overlap = Ok g /\ run 0%nat graph_new (rebuild g) <> Ok g.
Proof.
  assert (B : match run 0%nat graph_new overlap with
              | Ok g => match run 0%nat graph_new (rebuild g) with Ok g' => (edge_count g =? edge_count g')%nat | Panic => false end
              | Panic => true end = false) by (vm_compute; reflexivity).
  destruct (run 0%nat graph_new overlap) as [g|] eqn:R; [|discriminate]. exists g.
  split; [exists overlap; exact R|]. split; [reflexivity|]. intros E. rewrite E, Nat.eqb_refl in B. discriminate.
Qed.
Print Assumptions C141_fails_at_parallel.
