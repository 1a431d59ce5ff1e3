(** * C142: nodes and edges may be added in any order.

    [asks dT placed g os l g']: the calls os (add_node and add_edge) lead from g to g' and
    ask for the strokes l: for each add_node call the point of the node it returns, for
    each add_edge call between stored nodes not joined yet the segment between them.
    [same_strokes]: the same points, and the same segments in any order. *)
From Coq Require Import List Arith Bool Lia Reals Lra ZArith Permutation.
From Flocq Require Import Core.Core IEEE754.BinarySingleNaN.
From Verif Require Import Scalar Utils Polygon Graph GraphSpec PlaneSpec PlanarSpec GridSpec F32 Laws UtilsReal UtilsF32
  PolyF32 PolyNewF32 GraphDemo GraphAdd GraphHistory GraphPlanar GraphSim GridUtils GridSeg GridPrim GridOn GridGraph GridInst GridCheck
  ThroughSpec Through GridThroughSpec GridThrough GridThroughCheck AnyOrderSpec AnyOrder AnyOrderCheck
  Properties_Utils Properties_Polygon Properties_Grid Properties_GridGraph DrawSpec.
Import ListNotations.
Local Open Scope R_scope.

(** Exact arithmetic: two histories of unambiguous calls that ask for the same strokes
    draw the same.  [neat] (C139): every added node has a good place, and every requested
    edge is unambiguous and passes only nodes with exactly one edge. *)
Theorem C142_exact :
  forall (T U : Type) (dT : T) (g g1 g2 : PlanarGraph XO T U) ps os1 os2 l1 l2,
  drawn g ps -> well_drawn ps (edges g) -> neat dT g os1 -> neat dT g os2 ->
  asks dT drawn g os1 l1 g1 -> asks dT drawn g os2 l2 g2 -> same_strokes l1 l2 ->
  exists ps1 ps2, drawn g1 ps1 /\ drawn g2 ps2 /\ same_drawing ps1 (edges g1) ps2 (edges g2).
Proof. intros T U dT. exact (asks_order dT). Qed.
Print Assumptions C142_exact.

(** What is drawn: the edges cover the old edges and the segments; the nodes are the old
    ones, the points asked for, and the crossings of the segments with the old edges and
    with each other. *)
Theorem C142_picture :
  forall (T U : Type) (dT : T) (g g' : PlanarGraph XO T U) ps os l,
  drawn g ps -> well_drawn ps (edges g) -> neat dT g os -> asks dT drawn g os l g' ->
  exists ps', drawn g' ps' /\ well_drawn ps' (edges g') /\
    (forall x, covers ps' (edges g') x <-> covers ps (edges g) x \/ exists a b, In (a, b) (lines l) /\ on_segment a b x) /\
    (forall x, In x ps' <-> In x ps \/ dotted l x \/
       (exists a b, In (a, b) (lines l) /\ on_segment a b x /\ covers ps (edges g) x) \/
       (exists c c' l', Permutation (lines l) (c :: c' :: l') /\ on_segment (fst c) (snd c) x /\ on_segment (fst c') (snd c') x)).
Proof.
  intros T U dT g g' ps os l D W N A. destruct (asks_picture dT os l g g' ps A N D W) as (ps' & D' & W' & C & I).
  exists ps'. split; [exact D'|]. split; [exact W'|]. split; [exact C|]. intros x. rewrite I. split.
  - intros [H|[H|[((a & b & H & S) & Cv)|H]]]; [now left|right; now left|right; right; left; exists a, b; auto|do 3 right; exact H].
  - intros [H|[H|[(a & b & H & S & Cv)|H]]]; [now left|right; now left|right; right; left; split; [exists a, b; auto|exact Cv]|do 3 right; exact H].
Qed.
Print Assumptions C142_picture.

(** Every f32 history of additions asks for some strokes, and for only one list of them. *)
Theorem C142_asks :
  forall lm (T U : Type) (dT : T) os (g g' : PlanarGraph (FO lm) T U),
  (forall o, In o os -> match o with ORemoveNode _ | ORemoveEdge _ => False | _ => True end) -> run dT g os = Ok g' ->
  exists l, asks dT placed_f32 g os l g' /\ forall l' g'', asks dT placed_f32 g os l' g'' -> l' = l /\ g'' = g'.
Proof. intros lm T U dT. exact (asks_run dT). Qed.
Print Assumptions C142_asks.

(** f32 on the grids of C90. *)
Theorem C142_grid :
  forall lm e S (T U : Type) (dT : T) os0 os1 os2 l1 l2 (g g1 g2 : PlanarGraph (FO lm) T U), drawable e S ->
  GridSpec.draws dT (grid_le 6 e) S graph_new os0 -> straights dT graph_new os0 -> run dT graph_new os0 = Ok g ->
  GridSpec.draws dT (grid_le 6 e) S g os1 -> straights dT g os1 -> GridSpec.draws dT (grid_le 6 e) S g os2 -> straights dT g os2 ->
  asks dT placed_f32 g os1 l1 g1 -> asks dT placed_f32 g os2 l2 g2 -> same_strokes l1 l2 ->
  same_drawing (places g1) (edges g1) (places g2) (edges g2).
Proof.
  intros lm e S T U dT os0 os1 os2 l1 l2 g g1 g2 HS D0 St0 R. destruct (drawable_ok e S HS) as (He & H1 & H2 & H3).
  destruct (fam_straights lm e He dT S (H1 lm) H2 H3 os0 graph_new g (new_inside _ _) (proj2 (@empty_drawn T U)) D0 St0 R) as [I W].
  exact (fam_order lm e He dT S (H1 lm) H2 H3 g g1 g2 os1 os2 l1 l2 I W).
Qed.
Print Assumptions C142_grid.

(** A cross with a node on one arm: the nodes first, or each when it is needed. *)
Local Notation N x y := (OAddNode (xy x y : Vec2 (FO lm0)) 7%nat).
Definition planned : list (@op (FO lm0) nat nat) :=
  [N (-4) 0; N 4 0; N 0 (-4); N 0 4; OAddEdge 0 1 1%nat; OAddEdge 2 3 2%nat; N 2 0].
Definition on_the_go : list (@op (FO lm0) nat nat) :=
  [N 0 4; N 0 (-4); OAddEdge 1 0 2%nat; N (-4) 0; N 4 0; N 4 0; OAddEdge 2 3 1%nat; N 2 0].
Definition planned_z : list zstroke := [ZDot (-4, 0); ZDot (4, 0); ZDot (0, -4); ZDot (0, 4); ZLine (-4, 0) (4, 0); ZLine (0, -4) (0, 4); ZDot (2, 0)]%Z.
Definition on_the_go_z : list zstroke := [ZDot (0, 4); ZDot (0, -4); ZLine (0, -4) (0, 4); ZDot (-4, 0); ZDot (4, 0); ZDot (4, 0); ZLine (-4, 0) (4, 0); ZDot (2, 0)]%Z.
Example C142_example :
  exists g1 g2, let l1 := map (real_stroke 0) planned_z in let l2 := map (real_stroke 0) on_the_go_z in
  drawable 0 axis /\ GridSpec.draws 0%nat (grid_le 6 0) axis graph_new planned /\ straights 0%nat graph_new planned /\
  GridSpec.draws 0%nat (grid_le 6 0) axis graph_new on_the_go /\ straights 0%nat graph_new on_the_go /\
  asks 0%nat placed_f32 graph_new planned l1 g1 /\ asks 0%nat placed_f32 graph_new on_the_go l2 g2 /\ same_strokes l1 l2 /\
  neat 0%nat graph_new (map exact_op planned) /\ asks 0%nat drawn graph_new (map exact_op planned) l1 (exact_graph g1).
Proof.
  assert (Z1 : zstrokes 0%nat 0 graph_new planned = Some planned_z) by (vm_compute; reflexivity).
  assert (Z2 : zstrokes 0%nat 0 graph_new on_the_go = Some on_the_go_z) by (vm_compute; reflexivity).
  destruct (zstrokes_ok 0%nat 0 ltac:(lia) _ _ _ Z1) as (g1 & R1 & A1). destruct (zstrokes_ok 0%nat 0 ltac:(lia) _ _ _ Z2) as (g2 & R2 & A2).
  assert (HS : drawable 0 axis) by (left; split; [lia|reflexivity]).
  assert (D1 : GridSpec.draws 0%nat (grid_le 6 0) axis graph_new planned).
  { apply (drawsb_ok 0%nat 0 ltac:(lia) axis axisb (axisb_ok 0)). vm_compute. reflexivity. }
  assert (S1 : straights 0%nat graph_new planned) by (apply (straightsb_ok 0%nat 0 ltac:(lia)); vm_compute; reflexivity).
  exists g1, g2. split; [exact HS|]. split; [exact D1|]. split; [exact S1|].
  split; [apply (drawsb_ok 0%nat 0 ltac:(lia) axis axisb (axisb_ok 0)); vm_compute; reflexivity|].
  split; [apply (straightsb_ok 0%nat 0 ltac:(lia)); vm_compute; reflexivity|]. split; [exact A1|]. split; [exact A2|]. split.
  - split; [|apply perm_swap]. intros x. clear. split; apply dots_incl; intros k; cbn [planned_z on_the_go_z In]; intros H;
      repeat (destruct H as [H|H]; [try discriminate; rewrite <- H; tauto|]); destruct H.
  - destruct (drawable_ok 0 axis HS) as (He & H1 & H2 & H3). split.
    + exact (fam_neats lm0 0 He 0%nat axis (H1 lm0) H2 H3 planned graph_new (new_inside _ _) (proj2 (@empty_drawn nat nat)) D1 S1).
    + exact (fam_asks lm0 0 He 0%nat axis (H1 lm0) H2 H3 graph_new g1 planned _ A1 (new_inside _ _) D1).
Qed.

(** A node without edges in the way of a segment: drawn first, the segment runs across it
    (its request is not [straight]); added later, the node splits it. *)
Definition node_first : list (@op (FO lm0) nat nat) := [N (-4) 0; N 4 0; N 2 0; OAddEdge 0 1 1%nat].
Definition node_last : list (@op (FO lm0) nat nat) := [N (-4) 0; N 4 0; OAddEdge 0 1 1%nat; N 2 0].
Theorem C142_fails_at_isolated_node :
  exists l1 l2 g1 g2, asks 0%nat placed_f32 graph_new node_first l1 g1 /\ asks 0%nat placed_f32 graph_new node_last l2 g2 /\
    same_strokes l1 l2 /\ edge_count g1 <> edge_count g2.
Proof.
  assert (Z1 : zstrokes 0%nat 0 graph_new node_first = Some [ZDot (-4, 0); ZDot (4, 0); ZDot (2, 0); ZLine (-4, 0) (4, 0)]%Z) by (vm_compute; reflexivity).
  assert (Z2 : zstrokes 0%nat 0 graph_new node_last = Some [ZDot (-4, 0); ZDot (4, 0); ZLine (-4, 0) (4, 0); ZDot (2, 0)]%Z) by (vm_compute; reflexivity).
  destruct (zstrokes_ok 0%nat 0 ltac:(lia) _ _ _ Z1) as (g1 & R1 & A1). destruct (zstrokes_ok 0%nat 0 ltac:(lia) _ _ _ Z2) as (g2 & R2 & A2).
  eexists _, _, g1, g2. split; [exact A1|]. split; [exact A2|]. split.
  - split; [|apply Permutation_refl]. intros x. clear. split; apply dots_incl; intros k; cbn [In]; tauto.
  - assert (E1 : match run 0%nat graph_new node_first with Ok g => edge_count g | Panic => 9%nat end = 1%nat) by (vm_compute; reflexivity).
    assert (E2 : match run 0%nat graph_new node_last with Ok g => edge_count g | Panic => 9%nat end = 2%nat) by (vm_compute; reflexivity).
    rewrite R1 in E1. rewrite R2 in E2. rewrite E1, E2. discriminate.
Qed.
Print Assumptions C142_fails_at_isolated_node.
