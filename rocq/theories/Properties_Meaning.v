(** * C143: the calls are operations on sets of points.

    MeaningSpec.v gives each call a word (a node at a point, the segment between two points,
    erasing an edge or a node given by points) and each word an effect on a scene, which is
    the set of nodes and the set of covered points.  [tells]: the calls lead from the first
    graph to the last and say the words.  [shows]: the graph is a drawing of the scene. *)
From Coq Require Import List Arith Bool Lia Reals Lra ZArith Permutation.
From Flocq Require Import Core.Core IEEE754.BinarySingleNaN.
From Verif Require Import Scalar Utils Polygon Graph GraphSpec PlaneSpec PlanarSpec GridSpec F32 Laws UtilsReal UtilsF32
  PolyF32 PolyNewF32 GraphDemo GraphAdd GraphHistory GraphPlanar GraphSim GridUtils GridSeg GridPrim GridOn GridGraph GridInst GridCheck
  ThroughSpec Through GridThroughSpec GridThrough GridThroughCheck AnyOrderSpec AnyOrder AnyOrderCheck MeaningSpec Meaning MeaningCheck
  Properties_Utils Properties_Polygon Properties_Grid Properties_GridGraph DrawSpec Draw Properties_AnyOrder RemovalSpec Properties_Removal.
Import ListNotations.
Local Open Scope R_scope.

(** Exact arithmetic, calls of any kind: conditions on the words and the scene only. *)
Theorem C143_meaning :
  forall (T U : Type) (dT : T) (g g' : PlanarGraph XO T U) ps A os ws,
  tells dT drawn value_x g os ws g' -> drawn g ps -> well_drawn ps (edges g) -> shows ps (edges g) A -> plain_all A ws ->
  exists ps', drawn g' ps' /\ well_drawn ps' (edges g') /\ shows ps' (edges g') (after_all ws A).
Proof. intros T U dT. exact (words_show dT). Qed.
Print Assumptions C143_meaning.

(** A scene determines the drawing, and the links of the scene are the edges. *)
Theorem C143_links :
  forall (U : Type) ps (es : list (Edge U)) A, plane_drawing ps es -> shows ps es A ->
  forall a b, linked A a b <-> exists e, In e es /\ same_pair (pt ps (src e)) (pt ps (dst e)) a b.
Proof. exact linked_edge. Qed.
Print Assumptions C143_links.

(** The conditions on the words are those of C139 on the calls. *)
Theorem C143_conditions :
  forall (T U : Type) (dT : T) (g g' : PlanarGraph XO T U) ps A os ws,
  tells dT drawn value_x g os ws g' -> drawn g ps -> well_drawn ps (edges g) -> shows ps (edges g) A ->
  neat dT g os -> plain_all A ws.
Proof. intros T U dT. exact (neats_plain dT). Qed.
Print Assumptions C143_conditions.

(** Slots, directions and data do not matter: on two graphs with the same drawing, calls
    with the same words lead to the same drawing. *)
Theorem C143_slots :
  forall (T U : Type) (dT : T) (g1 g1' g2 g2' : PlanarGraph XO T U) ps1 ps2 os1 os2 ws1 ws2,
  drawn g1 ps1 -> well_drawn ps1 (edges g1) -> drawn g2 ps2 -> well_drawn ps2 (edges g2) ->
  same_drawing ps1 (edges g1) ps2 (edges g2) -> plain_all (scene_of ps1 (edges g1)) ws1 -> List.Forall2 same_word ws1 ws2 ->
  tells dT drawn value_x g1 os1 ws1 g1' -> tells dT drawn value_x g2 os2 ws2 g2' ->
  exists ps1' ps2', drawn g1' ps1' /\ drawn g2' ps2' /\ same_drawing ps1' (edges g1') ps2' (edges g2').
Proof.
  intros T U dT g1 g1' g2 g2' ps1 ps2 os1 os2 ws1 ws2 D1 W1 D2 W2 SD P F.
  exact (words_same dT g1 g1' g2 g2' ps1 ps2 _ os1 os2 ws1 ws2 D1 W1 (scene_shows _ _ _) D2 W2 (same_shows _ _ _ _ _ _ _ SD (scene_shows _ _ _)) P F).
Qed.
Print Assumptions C143_slots.

(** f32: every history says exactly one list of words. *)
Theorem C143_tells :
  forall lm (T U : Type) (dT : T) os (g g' : PlanarGraph (FO lm) T U), run dT g os = Ok g' ->
  exists ws, tells dT at_places value_f32 g os ws g' /\ forall ws' g'', tells dT at_places value_f32 g os ws' g'' -> ws' = ws /\ g'' = g'.
Proof. intros lm T U dT. exact (tells_run dT). Qed.
Print Assumptions C143_tells.

(** f32 on the grids of C90, from the empty graph. *)
Theorem C143_grid :
  forall lm e S (T U : Type) (dT : T) os ws (g : PlanarGraph (FO lm) T U), drawable e S ->
  GridSpec.draws dT (grid_le 6 e) S graph_new os -> straights dT graph_new os -> tells dT at_places value_f32 graph_new os ws g ->
  shows (places g) (edges g) (after_all ws blank).
Proof.
  intros lm e S T U dT os ws g HS D St Te. destruct (drawable_ok e S HS) as (He & H1 & H2 & H3).
  apply (fam_shows lm e He dT S (H1 lm) H2 H3 graph_new g blank os ws (new_inside _ _) (proj2 (@empty_drawn T U)) D St Te).
  split; intros x; cbn; [tauto|]. split; [intros (f & [] & _)|tauto].
Qed.
Print Assumptions C143_grid.

(** And slots do not matter in f32. *)
Theorem C143_grid_slots :
  forall lm e S (T U : Type) (dT : T) os01 os02 os1 os2 ws1 ws2 (g1 g1' g2 g2' : PlanarGraph (FO lm) T U), drawable e S ->
  GridSpec.draws dT (grid_le 6 e) S graph_new (os01 ++ os1) -> straights dT graph_new (os01 ++ os1) -> run dT graph_new os01 = Ok g1 ->
  GridSpec.draws dT (grid_le 6 e) S graph_new (os02 ++ os2) -> straights dT graph_new (os02 ++ os2) -> run dT graph_new os02 = Ok g2 ->
  same_drawing (places g1) (edges g1) (places g2) (edges g2) ->
  tells dT at_places value_f32 g1 os1 ws1 g1' -> tells dT at_places value_f32 g2 os2 ws2 g2' -> List.Forall2 same_word ws1 ws2 ->
  same_drawing (places g1') (edges g1') (places g2') (edges g2').
Proof.
  intros lm e S T U dT os01 os02 os1 os2 ws1 ws2 g1 g1' g2 g2' HS D1 St1 R1 D2 St2 R2 SD T1 T2 F.
  destruct (drawable_ok e S HS) as (He & H1 & H2 & H3).
  assert (Cut : forall os0 os (g0 g : PlanarGraph (FO lm) T U), run dT g0 os0 = Ok g ->
    GridSpec.draws dT (grid_le 6 e) S g0 (os0 ++ os) -> straights dT g0 (os0 ++ os) ->
    (GridSpec.draws dT (grid_le 6 e) S g0 os0 /\ straights dT g0 os0) /\ GridSpec.draws dT (grid_le 6 e) S g os /\ straights dT g os).
  { clear. induction os0 as [|o os0 IH]; intros os g0 g R D St; [injection R as <-; repeat split; assumption|].
    cbn [run] in R. apply bind_ok in R. destruct R as (g1 & R1 & R). destruct D as [Da Db]. destruct St as [Sa Sb].
    destruct (IH os g1 g R (Db g1 R1) (Sb g1 R1)) as ((Q1 & Q2) & Q3 & Q4).
    split; [|split; assumption]. split; (split; [assumption|]); intros g' R'; rewrite R1 in R'; injection R' as <-; assumption. }
  destruct (Cut os01 os1 graph_new g1 R1 D1 St1) as ((A1 & A2) & A3 & A4). destruct (Cut os02 os2 graph_new g2 R2 D2 St2) as ((B1 & B2) & B3 & B4).
  destruct (fam_straights lm e He dT S (H1 lm) H2 H3 os01 graph_new g1 (new_inside _ _) (proj2 (@empty_drawn T U)) A1 A2 R1) as [I1 W1].
  destruct (fam_straights lm e He dT S (H1 lm) H2 H3 os02 graph_new g2 (new_inside _ _) (proj2 (@empty_drawn T U)) B1 B2 R2) as [I2 W2].
  exact (fam_words lm e He dT S (H1 lm) H2 H3 g1 g1' g2 g2' _ os1 os2 ws1 ws2 I1 W1 I2 W2 (scene_shows _ _ _)
    (same_shows _ _ _ _ _ _ _ SD (scene_shows _ _ _)) A3 A4 B3 B4 T1 T2 F).
Qed.
Print Assumptions C143_grid_slots.

(** The cross of C142, built in two ways: one arm is erased, a corner added, and the node
    on an arm removed; the slots and directions differ. *)
Local Notation N x y := (OAddNode (xy x y : Vec2 (FO lm0)) 7%nat).
Definition tail1 : list (@op (FO lm0) nat nat) := [ORemoveEdge 1; N 4 4; OAddEdge 2 5 3%nat; ORemoveNode 4].
Definition tail2 : list (@op (FO lm0) nat nat) := [ORemoveEdge 0; N 4 4; OAddEdge 5 0 8%nat; ORemoveNode 4].
Definition tail_z1 : list zword := [ZErase (0, -4) (0, 0); ZPut (4, 4); ZJoin (0, 4) (4, 4); ZDrop (2, 0)]%Z.
Definition tail_z2 : list zword := [ZErase (0, -4) (0, 0); ZPut (4, 4); ZJoin (4, 4) (0, 4); ZDrop (2, 0)]%Z.
Example C143_example :
  exists g1 g1' g2 g2', let ws1 := map (real_word 0) tail_z1 in let ws2 := map (real_word 0) tail_z2 in
  drawable 0 axis /\
  GridSpec.draws 0%nat (grid_le 6 0) axis graph_new (planned ++ tail1) /\ straights 0%nat graph_new (planned ++ tail1) /\ run 0%nat graph_new planned = Ok g1 /\
  GridSpec.draws 0%nat (grid_le 6 0) axis graph_new (on_the_go ++ tail2) /\ straights 0%nat graph_new (on_the_go ++ tail2) /\ run 0%nat graph_new on_the_go = Ok g2 /\
  same_drawing (places g1) (edges g1) (places g2) (edges g2) /\
  tells 0%nat at_places value_f32 g1 tail1 ws1 g1' /\ tells 0%nat at_places value_f32 g2 tail2 ws2 g2' /\ List.Forall2 same_word ws1 ws2 /\
  (* and the same calls in exact arithmetic *)
  drawn (exact_graph g1) (places g1) /\ well_drawn (places g1) (edges g1) /\
  tells 0%nat drawn value_x (exact_graph g1) (map exact_op tail1) ws1 (exact_graph g1') /\ plain_all (scene_of (places g1) (edges g1)) ws1.
Proof.
  destruct C142_example as (g1 & g2 & HS & D1 & S1 & D2 & S2 & A1 & A2 & SS & _).
  assert (Ra : forall os l (g g' : PlanarGraph (FO lm0) nat nat), asks 0%nat placed_f32 g os l g' -> run 0%nat g os = Ok g').
  { clear. intros os l g g' A. induction A; [reflexivity|..]; cbn [run step]; rewrite H || (rewrite H2) || (rewrite H0); exact IHA. }
  pose proof (Ra _ _ _ _ A1) as R1. pose proof (Ra _ _ _ _ A2) as R2.
  assert (Z1 : match run 0%nat graph_new planned with Ok g => zwords 0%nat 0 g tail1 | Panic => None end = Some tail_z1) by (vm_compute; reflexivity).
  assert (Z2 : match run 0%nat graph_new on_the_go with Ok g => zwords 0%nat 0 g tail2 | Panic => None end = Some tail_z2) by (vm_compute; reflexivity).
  rewrite R1 in Z1. rewrite R2 in Z2.
  destruct (zwords_ok 0%nat 0 ltac:(lia) _ _ _ Z1) as (g1' & Q1 & T1). destruct (zwords_ok 0%nat 0 ltac:(lia) _ _ _ Z2) as (g2' & Q2 & T2).
  assert (Da : GridSpec.draws 0%nat (grid_le 6 0) axis graph_new (planned ++ tail1)).
  { apply (drawsb_ok 0%nat 0 ltac:(lia) axis axisb (axisb_ok 0)). vm_compute. reflexivity. }
  assert (Sa : straights 0%nat graph_new (planned ++ tail1)) by (apply (straightsb_ok 0%nat 0 ltac:(lia)); vm_compute; reflexivity).
  exists g1, g1', g2, g2'. split; [exact HS|]. split; [exact Da|]. split; [exact Sa|]. split; [exact R1|].
  split; [apply (drawsb_ok 0%nat 0 ltac:(lia) axis axisb (axisb_ok 0)); vm_compute; reflexivity|].
  split; [apply (straightsb_ok 0%nat 0 ltac:(lia)); vm_compute; reflexivity|]. split; [exact R2|]. split.
  { assert (D0 : GridSpec.draws 0%nat (grid_le 6 0) axis (graph_new : PlanarGraph (FO lm0) nat nat) []) by exact Logic.I.
    assert (S0 : straights 0%nat (graph_new : PlanarGraph (FO lm0) nat nat) []) by exact Logic.I.
    exact (C142_grid lm0 0 axis nat nat 0%nat [] planned on_the_go _ _ graph_new g1 g2 HS D0 S0 eq_refl D1 S1 D2 S2 A1 A2 SS). }
  split; [exact T1|]. split; [exact T2|]. split.
  { clear. unfold tail_z1, tail_z2. cbn [map real_word]. constructor; [left; auto|]. constructor; [reflexivity|]. constructor; [right; auto|]. constructor; [reflexivity|constructor]. }
  destruct (drawable_ok 0 axis HS) as (He & H1 & H2 & H3).
  destruct (fam_straights lm0 0 He 0%nat axis (H1 lm0) H2 H3 planned graph_new g1 (new_inside _ _) (proj2 (@empty_drawn nat nat)) D1 S1 R1) as [I1 W1].
  assert (Db : GridSpec.draws 0%nat (grid_le 6 0) axis g1 tail1 /\ straights 0%nat g1 tail1).
  { clear - Da Sa R1. revert Da Sa R1. generalize (graph_new : PlanarGraph (FO lm0) nat nat). induction planned as [|o os IH]; intros g0 Da Sa R.
    - injection R as <-. split; assumption.
    - cbn [run] in R. apply bind_ok in R. destruct R as (g & R1 & R). destruct Da as [_ Da]. destruct Sa as [_ Sa]. exact (IH g (Da g R1) (Sa g R1) R). }
  destruct Db as [Db Sb].
  pose proof (fam_tells lm0 0 He 0%nat axis (H1 lm0) H2 H3 g1 g1' tail1 _ T1 I1 Db) as Tx.
  split; [exact (exact_drawn lm0 g1)|]. split; [exact W1|]. split; [exact Tx|].
  exact (C143_conditions _ _ _ _ _ _ _ _ _ Tx (exact_drawn lm0 g1) W1 (scene_shows _ _ _) (fam_neats lm0 0 He 0%nat axis (H1 lm0) H2 H3 tail1 g1 I1 W1 Db Sb)).
Qed.

(** Only whether a removal panics depends on the slots (C57): the same nodes, the same
    edges in another order of slots, and the same edge to be removed. *)
Theorem C143_panic_fails_at_slots :
  forall (O : Ops) (T : Type) (a b c : Node O T),
  let g := tri a b c in
  let h := MkGraph [a; b; c] [MkEdge 2 0 30%nat DEFAULT_LABEL; MkEdge 0 1 10%nat DEFAULT_LABEL; MkEdge 1 2 20%nat DEFAULT_LABEL] in
  same_but_order g h /\ nth_error (edges g) 2 = nth_error (edges h) 0 /\ remove_edge g 2 = Panic /\ exists r, remove_edge h 0 = Ok r.
Proof.
  intros O T a b c g h. split; [split; [reflexivity|]|split; [reflexivity|split; [vm_compute; reflexivity|eexists; vm_compute; reflexivity]]].
  cbn [edges g h tri]. apply Permutation_sym. apply (Permutation_cons_append [MkEdge 0 1 10%nat DEFAULT_LABEL; MkEdge 1 2 20%nat DEFAULT_LABEL] (MkEdge 2 0 30%nat DEFAULT_LABEL)).
Qed.
Print Assumptions C143_panic_fails_at_slots.
