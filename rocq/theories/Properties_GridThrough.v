(** * C139: planar drawings from edges drawn through existing nodes, exact and in f32.

    [passes ps s d k]: node k is on the segment from node s to node d and is neither.
    [passes_ends g ps s d]: every node so passed has exactly one edge. *)
From Coq Require Import List Arith Bool Lia Reals Lra ZArith.
From Flocq Require Import Core.Core IEEE754.BinarySingleNaN.
From Verif Require Import Scalar Utils Polygon Graph GraphSpec PlaneSpec PlanarSpec GridSpec F32 Laws UtilsReal UtilsF32
  PolyF32 PolyNewF32 GraphDemo GraphHistory GraphPlanar GraphSim GridUtils GridSeg GridPrim GridOn GridGraph GridInst GridCheck
  ThroughSpec Through GridThroughSpec GridThrough GridThroughCheck Properties_Utils Properties_Polygon Properties_Grid Properties_GridGraph.
Import ListNotations.
Local Open Scope R_scope.

(** Exact arithmetic.  [neat dT g os]: every added node has a good place, and every
    requested edge is between different nodes and exists already, has a missing end, or
    is unambiguous and passes only nodes with exactly one edge. *)
Theorem C139_exact_planar :
  forall (T U : Type) (dT : T) os (g : PlanarGraph XO T U),
  neat dT graph_new os -> run dT graph_new os = Ok g ->
  exists ps, drawn g ps /\ planar_drawing (pt ps) (length ps) (edges g) /\ no_parallel g /\ no_loops g.
Proof.
  intros T U dT os g Ht H. destruct (@empty_drawn T U) as [D W].
  destruct (neat_planar dT os _ _ _ D W Ht H) as (ps & D' & W').
  exists ps. split; [exact D'|]. split; [apply W'|].
  split; [eapply planar_no_parallel|eapply well_drawn_no_loops]; eassumption.
Qed.
Print Assumptions C139_exact_planar.

(** f32 on the grids of C90.  [straights dT g os]: every requested edge exists already,
    has a missing end, or meets each edge in at most one point, which is a node or on no
    other edge, and passes only nodes with exactly one edge. *)
Theorem C139_grid_planar :
  forall lm e S (T U : Type) (dT : T) os (g : PlanarGraph (FO lm) T U), drawable e S ->
  draws dT (grid_le 6 e) S graph_new os -> straights dT graph_new os -> run dT graph_new os = Ok g ->
  planar_f32 g /\ no_parallel g /\ no_loops g /\
  (forall i j, (i < node_count g)%nat -> (j < node_count g)%nat -> i <> j -> pt (places g) i <> pt (places g) j).
Proof.
  intros lm e S T U dT os g HS D C R. destruct (drawable_ok e S HS) as (He & H1 & H2 & H3).
  destruct (fam_straights lm e He dT S (H1 lm) H2 H3 os graph_new g (new_inside _ _) (proj2 (@empty_drawn T U)) D C R) as [I W].
  exact (fam_planar_f32 lm e S g I W).
Qed.
Print Assumptions C139_grid_planar.

(** One more edge after such a history, through any nodes: the picture gains the segment;
    a passed node is left lying on an edge exactly if it has not exactly one edge; and the
    drawing is planar again exactly if every passed node has exactly one edge. *)
Theorem C139_grid_edge :
  forall lm e S (T U : Type) (dT : T) os (g g' : PlanarGraph (FO lm) T U) s d u r, drawable e S ->
  draws dT (grid_le 6 e) S graph_new os -> straights dT graph_new os -> run dT graph_new os = Ok g ->
  draws_op (grid_le 6 e) S g (OAddEdge s d u) -> straight_path g s d -> ~ adjacent g s d ->
  (s < node_count g)%nat -> (d < node_count g)%nat -> add_edge dT g s d u = Ok (g', r) ->
  (forall x, covers (places g') (edges g') x <-> covers (places g) (edges g) x \/ on_segment (pt (places g) s) (pt (places g) d) x) /\
  (forall k, passes (places g) s d k ->
     (degree g k <> 1%nat <-> exists f, In f (edges g') /\ crosses_node (places g') k f)) /\
  (planar_f32 g' <-> passes_ends g (places g) s d).
Proof.
  intros lm e S T U dT os g g' s d u r HS D C R Do Sp NA Ls Ld H. destruct (drawable_ok e S HS) as (He & H1 & H2 & H3).
  destruct (fam_straights lm e He dT S (H1 lm) H2 H3 os graph_new g (new_inside _ _) (proj2 (@empty_drawn T U)) D C R) as [I W].
  exact (fam_through lm e He dT S (H1 lm) H2 H3 g g' s d u r I W Do Sp NA Ls Ld H).
Qed.
Print Assumptions C139_grid_edge.

(** A stem that ends at node 2, and a bar drawn through node 2: the bar is split there. *)
Definition tee : list (@op (FO lm0) nat nat) :=
  map (fun p : Vec2 (FO lm0) => OAddNode p 7%nat) [xy (-4) 0; xy 4 0; xy 0 0; xy 0 (-4); xy 0 4] ++ [OAddEdge 2 3 1%nat].
Definition tee_bar : list (@op (FO lm0) nat nat) := tee ++ [OAddEdge 0 1 2%nat].
Lemma tee_draws : draws 0%nat (grid_le 6 0) axis graph_new tee_bar /\ straights 0%nat graph_new tee_bar.
Proof.
  split.
  - apply (drawsb_ok 0%nat 0 ltac:(lia) axis axisb (axisb_ok 0)). vm_compute. reflexivity.
  - apply (straightsb_ok 0%nat 0 ltac:(lia)). vm_compute. reflexivity.
Qed.
Example C139_example :
  drawable 0 axis /\ draws 0%nat (grid_le 6 0) axis graph_new tee_bar /\ straights 0%nat graph_new tee_bar /\
  size (run 0%nat graph_new tee_bar) = (5, 3)%nat /\ neat 0%nat graph_new (map exact_op tee_bar).
Proof.
  assert (HS : drawable 0 axis) by (left; split; [lia|reflexivity]).
  split; [exact HS|]. split; [apply tee_draws|]. split; [apply tee_draws|]. split; [vm_compute; reflexivity|].
  destruct (drawable_ok 0 axis HS) as (He & H1 & H2 & H3).
  exact (fam_neats lm0 0 He 0%nat axis (H1 lm0) H2 H3 tee_bar graph_new (new_inside _ _) (proj2 (@empty_drawn nat nat)) (proj1 tee_draws) (proj2 tee_draws)).
Qed.

(** With a second edge at node 2, the same bar is left running across node 2. *)
Definition cross_tee : list (@op (FO lm0) nat nat) := tee ++ [OAddEdge 2 4 2%nat].
Definition bar_of (r : res (PlanarGraph (FO lm0) nat nat)) : bool :=
  match r with
  | Ok g => forallb (fun e => negb ((src e =? 0) && (dst e =? 1) || (src e =? 1) && (dst e =? 0))%nat) (edges g) &&
      match all_places 0 (nodes g) with Some ks => straightb ks (edges g) 0 1 | None => false end &&
      (degree_in (edges g) 2 =? 2)%nat && (node_count g =? 5)%nat &&
      match add_edge 0%nat g 0 1 9%nat with Ok (g', _) => existsb (fun e => (src e =? 0)%nat && (dst e =? 1)%nat) (edges g') | Panic => false end
  | Panic => false
  end.
Theorem C139_fails_at_two_edges :
  exists g g' r, draws 0%nat (grid_le 6 0) axis graph_new cross_tee /\ straights 0%nat graph_new cross_tee /\
    run 0%nat graph_new cross_tee = Ok g /\ straight_path g 0 1 /\ ~ adjacent g 0 1 /\ degree g 2 = 2%nat /\
    add_edge 0%nat g 0 1 9%nat = Ok (g', r) /\ exists f, In f (edges g') /\ src f = 0%nat /\ dst f = 1%nat.
Proof.
  assert (B : bar_of (run 0%nat graph_new cross_tee) = true) by (vm_compute; reflexivity).
  destruct (run 0%nat graph_new cross_tee) as [g|] eqn:R; [|discriminate].
  unfold bar_of in B. rewrite !andb_true_iff in B. destruct B as ((((B1 & B3) & B4) & B5) & B6).
  destruct (add_edge 0%nat g 0 1 9%nat) as [[g' r]|] eqn:A; [|discriminate]. exists g, g', r.
  split; [apply (drawsb_ok 0%nat 0 ltac:(lia) axis axisb (axisb_ok 0)); vm_compute; reflexivity|].
  split; [apply (straightsb_ok 0%nat 0 ltac:(lia)); vm_compute; reflexivity|].
  split; [reflexivity|]. split.
  { destruct (all_places 0 (nodes g)) as [ks|] eqn:E; [|discriminate].
    exact (straightb_ok 0 g ks 0 1 (all_places_ok 0 ltac:(lia) _ _ E) B3). }
  split.
  { intros (f & Hf & Q). rewrite forallb_forall in B1. specialize (B1 f Hf). apply negb_true_iff in B1.
    destruct Q as [[Q1 Q2]|[Q1 Q2]]; rewrite Q1, Q2 in B1; discriminate. }
  split; [apply Nat.eqb_eq; exact B4|]. split; [exact A|].
  apply existsb_exists in B6. destruct B6 as (f & Hf & Q). exists f. apply andb_true_iff in Q. rewrite !Nat.eqb_eq in Q. tauto.
Qed.
Print Assumptions C139_fails_at_two_edges.
