(** * C152: edges from a node to itself do not take part in the splitting.

    [strip g] is g without its loops, [loops g] the loops, [plain o] says that the call o
    does not ask for a loop. *)
From Coq Require Import List Arith Bool Lia Reals ZArith.
From Flocq Require Import Core.Core IEEE754.BinarySingleNaN.
From Verif Require Import Scalar Utils Polygon Graph GraphSpec PlaneSpec PlanarSpec GridSpec F32 Laws GraphAdd UtilsReal UtilsF32
  PolyF32 PolyNewF32 GraphDemo GraphHistory GraphPlanar GraphSim GridUtils GridSeg GridPrim GridOn GridGraph GridInst GridCheck
  Properties_Utils Properties_Polygon Properties_Grid Properties_GridGraph
  ThroughSpec GridThroughSpec GridThroughCheck GridOverSpec GridOver Properties_GridOver LoopsSpec Loops.
Import ListNotations.

Theorem C152_node :
  forall (O : Ops) (T U : Type) (g g' : PlanarGraph O T U) p v i ces, exact_or_f32 O -> add_node g p v = Ok (g', (i, ces)) ->
  loops g' = loops g /\ exists ces', add_node (strip g) p v = Ok (strip g', (i, ces')).
Proof.
  intros O T U g g' p v i ces [->|[lm ->]].
  - exact (strip_node XO_laws XO_on_flat g g' p v i ces).
  - exact (strip_node (FO_laws lm) (FO_on_flat lm) g g' p v i ces).
Qed.
Print Assumptions C152_node.

Theorem C152_edge :
  forall (O : Ops) (T U : Type) (dT : T) (g g' : PlanarGraph O T U) s d u r, exact_or_f32 O -> s <> d -> add_edge dT g s d u = Ok (g', r) ->
  loops g' = loops g /\ exists r', add_edge dT (strip g) s d u = Ok (strip g', r') /\ new_nodes r' = new_nodes r.
Proof.
  intros O T U dT g g' s d u r [->|[lm ->]].
  - exact (strip_edge dT XO_laws XO_on_flat XO_cut_flat_l g g' s d u r).
  - exact (strip_edge dT (FO_laws lm) (FO_on_flat lm) (FO_cut_flat_l lm) g g' s d u r).
Qed.
Print Assumptions C152_edge.

Theorem C152_loop :
  forall (O : Ops) (T U : Type) (dT : T) (g g' : PlanarGraph O T U) s u r, exact_or_f32 O -> add_edge dT g s s u = Ok (g', r) ->
  strip g' = strip g /\
  (~ adjacent g s s -> (s < node_count g)%nat ->
     g' = MkGraph (nodes g) (edges g ++ [MkEdge s s u DEFAULT_LABEL]) /\ r = AddOk [] [edge_count g]) /\
  (adjacent g s s \/ ~ (s < node_count g)%nat -> g' = g).
Proof.
  intros O T U dT g g' s u r [->|[lm ->]].
  - exact (loop_edge dT XO_cut_flat_r g g' s u r).
  - exact (loop_edge dT (FO_cut_flat_r lm) g g' s u r).
Qed.
Print Assumptions C152_loop.

(** Leaving out the requests for loops gives the same graph without the loops. *)
Theorem C152_history :
  forall (O : Ops) (T U : Type) (dT : T) os (g g' : PlanarGraph O T U), exact_or_f32 O -> Forall adding os -> run dT g os = Ok g' ->
  run dT (strip g) (filter plain os) = Ok (strip g') /\
  (forall e, In e (loops g) -> In e (loops g')) /\
  (forall e, In e (loops g') -> In e (loops g) \/ exists s u, In (OAddEdge s s u) os /\ e = MkEdge s s u DEFAULT_LABEL).
Proof.
  intros O T U dT os g g' [->|[lm ->]].
  - exact (strip_run dT XO_laws XO_on_flat XO_cut_flat_l XO_cut_flat_r os g g').
  - exact (strip_run dT (FO_laws lm) (FO_on_flat lm) (FO_cut_flat_l lm) (FO_cut_flat_r lm) os g g').
Qed.
Print Assumptions C152_history.

(** So C150 applies to histories with requests for loops. *)
Theorem C152_planar :
  forall lm e S (T U : Type) (dT : T) (os : list (@op (FO lm) T U)) g', drawable e S -> Forall adding os ->
  draws dT (grid_le 6 e) S graph_new (filter plain os) -> clears dT graph_new (filter plain os) -> run dT graph_new os = Ok g' ->
  planar_f32 (strip g').
Proof.
  intros lm e S T U dT os g' HS A D C R.
  destruct (C152_history (FO lm) T U dT os graph_new g' (or_intror (ex_intro _ lm eq_refl)) A R) as [R' _].
  change (strip (@graph_new (FO lm) T U)) with (@graph_new (FO lm) T U) in R'.
  destruct (drawable_ok e S HS) as (He & H1 & H2 & H3).
  destruct (fam_clears_well lm e He dT S (H1 lm) H2 H3 _ graph_new _ (new_inside _ _) (proj2 (@empty_drawn T U)) D C R') as [I W].
  exact (proj1 (fam_planar_f32 lm e S _ I W)).
Qed.
Print Assumptions C152_planar.

(** The bar of C150 through node 2, which has a loop besides the stem: the bar is still
    split there, although two edges end at node 2. *)
Local Notation N x y := (OAddNode (xy x y : Vec2 (FO lm0)) 7%nat).
Definition tee_loop : list (@op (FO lm0) nat nat) :=
  [N (-4) 0; N 4 0; OAddEdge 1 1 8%nat; N 0 0; N 0 (-4); OAddEdge 2 3 1%nat; OAddEdge 2 2 9%nat; OAddEdge 0 1 2%nat].
Example C152_example :
  Forall adding tee_loop /\ drawable 0 axis /\ draws 0%nat (grid_le 6 0) axis graph_new (filter plain tee_loop) /\
  clears 0%nat graph_new (filter plain tee_loop) /\
  see (run 0%nat graph_new tee_loop) =
    Some (Some [(-4, 0); (4, 0); (0, 0); (0, -4)]%Z, [(1, 1); (2, 3); (2, 2); (0, 2); (1, 2)]%nat) /\
  see (run 0%nat graph_new (filter plain tee_loop)) =
    Some (Some [(-4, 0); (4, 0); (0, 0); (0, -4)]%Z, [(2, 3); (0, 2); (1, 2)]%nat).
Proof.
  assert (HS : drawable 0 axis) by (left; split; [lia|reflexivity]).
  assert (D : draws 0%nat (grid_le 6 0) axis graph_new (filter plain tee_loop)) by (apply (drawsb_ok 0%nat 0 ltac:(lia) axis axisb (axisb_ok 0)); vm_compute; reflexivity).
  assert (St : straights 0%nat graph_new (filter plain tee_loop)) by (apply (straightsb_ok 0%nat 0 ltac:(lia)); vm_compute; reflexivity).
  split; [repeat constructor|]. split; [exact HS|]. split; [exact D|]. split.
  - destruct (drawable_ok 0 axis HS) as (He & H1 & H2 & H3).
    exact (fam_clears lm0 0 He 0%nat axis (H1 lm0) H2 H3 _ graph_new (new_inside _ _) (proj2 (@empty_drawn nat nat)) D St).
  - split; vm_compute; reflexivity.
Qed.

(** Removals do see loops: node 1 goes with its only neighbour 0, unless it has a loop. *)
Theorem C152_fails_at_removal :
  see (run 0%nat graph_new [N 0 0; N 4 0; OAddEdge 0 1 1%nat; OAddEdge 1 1 2%nat; ORemoveNode 0%nat]) = Some (Some [(4, 0)]%Z, [(0, 0)]%nat) /\
  see (run 0%nat graph_new [N 0 0; N 4 0; OAddEdge 0 1 1%nat; ORemoveNode 0%nat]) = Some (Some [], []).
Proof. split; vm_compute; reflexivity. Qed.
Print Assumptions C152_fails_at_removal.
