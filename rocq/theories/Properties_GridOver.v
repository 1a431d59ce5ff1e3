(** * C150: when f32 histories on the grids of C90 stay planar.

    [overlaps ps s d e]: the segment from node s to node d and the edge e have more than
    one point in common.  [passes ps s d k]: the segment passes through node k.
    [one_askew]: exactly one edge at the node is not parallel to the segment. *)
From Coq Require Import List Arith Bool Lia Reals Lra ZArith.
From Flocq Require Import Core.Core IEEE754.BinarySingleNaN.
From Verif Require Import Scalar Utils Polygon Graph GraphSpec PlaneSpec PlanarSpec GridSpec F32 Laws UtilsReal UtilsF32
  PolyF32 PolyNewF32 GraphDemo GraphHistory GraphPlanar GraphSim GridUtils GridSeg GridPrim GridOn GridGraph GridInst GridCheck
  Properties_Utils Properties_Polygon Properties_Grid Properties_GridGraph
  ThroughSpec Through Over GridThroughSpec GridThrough GridThroughCheck GridOverSpec GridOver.
Import ListNotations.
Local Open Scope R_scope.

(** Any further edge after a history that stayed planar. *)
Theorem C150_edge :
  forall lm e S (T U : Type) (dT : T) os (g g' : PlanarGraph (FO lm) T U) s d u r, drawable e S ->
  draws dT (grid_le 6 e) S graph_new os -> clears dT graph_new os -> run dT graph_new os = Ok g ->
  draws_op (grid_le 6 e) S g (OAddEdge s d u) -> ~ adjacent g s d ->
  (s < node_count g)%nat -> (d < node_count g)%nat -> add_edge dT g s d u = Ok (g', r) ->
  let P := places g in let P' := places g' in
  (* the picture gains the segment *)
  (forall x, covers P' (edges g') x <-> covers P (edges g) x \/ on_segment (pt P s) (pt P d) x) /\
  (* the new nodes are its crossings with edges not parallel to it *)
  (forall x, In x P' <-> In x P \/ (on_segment (pt P s) (pt P d) x /\ exists f, In f (edges g) /\ askew P s d f /\ edge_on P f x)) /\
  (* it is split at exactly those passed nodes that have one edge not parallel to it *)
  (forall k, passes P s d k ->
     (one_askew P (edges g) s d k <-> forall f, In f (edges g') -> ~ crosses_node P' k f)) /\
  (forall k f, (k < node_count g')%nat -> In f (edges g') -> crosses_node P' k f -> passes P s d k) /\
  (* edges it runs along are covered twice *)
  (forall x, doubled P (edges g) s d x -> twice P' (edges g') x) /\
  (* planar exactly if there are none and each passed node has one edge *)
  (planar_f32 g' <-> (forall f, In f (edges g) -> ~ overlaps P s d f) /\ forall k, passes P s d k -> degree g k = 1%nat).
Proof.
  intros lm e S T U dT os g g' s d u r HS D C R Do NA Ls Ld H. destruct (drawable_ok e S HS) as (He & H1 & H2 & H3).
  pose proof (fam_clears_well lm e He dT S (H1 lm) H2 H3 os graph_new g (new_inside _ _) (proj2 (@empty_drawn T U)) D C R) as [I W].
  exact (fam_over lm e He dT S (H1 lm) H2 H3 g g' s d u r I W Do NA Ls Ld H).
Qed.
Print Assumptions C150_edge.

(** [stays_planar dT g os]: g and every graph after one of the calls is a planar drawing.
    [clears dT g os]: every add_edge call is for an edge that exists already, has a missing
    end, or runs along no edge and passes only nodes with exactly one edge. *)
Theorem C150_history :
  forall lm e S (T U : Type) (dT : T) (os : list (@op (FO lm) T U)), drawable e S ->
  draws dT (grid_le 6 e) S graph_new os -> (stays_planar dT graph_new os <-> clears dT graph_new os).
Proof.
  intros lm e S T U dT os HS D. destruct (drawable_ok e S HS) as (He & H1 & H2 & H3).
  exact (fam_stays lm e He dT S (H1 lm) H2 H3 os graph_new (new_inside _ _) (proj2 (@empty_drawn T U)) D).
Qed.
Print Assumptions C150_history.

(** A stem that ends at node 2, a bar through node 2, a further edge and its removal: the
    history stays planar.  One more edge, along the two halves of the bar: it does not. *)
Local Notation N x y := (OAddNode (xy x y : Vec2 (FO lm0)) 7%nat).
Definition tee_ops : list (@op (FO lm0) nat nat) :=
  [N (-4) 0; N 4 0; N 0 0; N 0 (-4); OAddEdge 2 3 1%nat; OAddEdge 0 1 2%nat; N 4 4; OAddEdge 1 4 3%nat; ORemoveNode 4%nat].
Definition tee_over : list (@op (FO lm0) nat nat) := tee_ops ++ [OAddEdge 0 1 9%nat].
Definition see (r : res (PlanarGraph (FO lm0) nat nat)) : option (option (list (Z * Z)) * list (nat * nat)) :=
  match r with Ok g => Some (all_places 0 (nodes g), map (fun f => (src f, dst f)) (edges g)) | Panic => None end.
Lemma see_ok : forall r ks es, see r = Some (Some ks, es) -> exists g : PlanarGraph (FO lm0) nat nat, r = Ok g /\ places g = map (at_unit 0) ks /\
  map (fun f => (src f, dst f)) (edges g) = es.
Proof.
  intros [g|] ks es H; [|discriminate]. exists g. split; [reflexivity|]. unfold see in H. inversion H as [[E1 E2]]. split; [|reflexivity].
  symmetry. exact (all_places_ok 0 ltac:(lia) _ _ E1).
Qed.
Lemma stays_last : forall os (g g' : PlanarGraph (FO lm0) nat nat), stays_planar 0%nat g os -> run 0%nat g os = Ok g' -> planar_f32 g'.
Proof.
  induction os as [|o os IH]; intros g g' [P N] R; [injection R as <-; exact P|].
  cbn [run] in R. destruct (step 0%nat g o) as [g1|] eqn:E; [|discriminate]. exact (IH g1 g' (N g1 eq_refl) R).
Qed.

Example C150_example :
  drawable 0 axis /\ draws 0%nat (grid_le 6 0) axis graph_new tee_over /\
  clears 0%nat graph_new tee_ops /\ stays_planar 0%nat graph_new tee_ops /\ ~ stays_planar 0%nat graph_new tee_over /\
  see (run 0%nat graph_new tee_ops) = Some (Some [(-4, 0); (4, 0); (0, 0); (0, -4)]%Z, [(2, 3); (0, 2); (1, 2)]%nat) /\
  see (run 0%nat graph_new tee_over) = Some (Some [(-4, 0); (4, 0); (0, 0); (0, -4)]%Z, [(2, 3); (0, 2); (1, 2); (0, 2); (1, 2)]%nat).
Proof.
  assert (E1 : see (run 0%nat graph_new tee_ops) = Some (Some [(-4, 0); (4, 0); (0, 0); (0, -4)]%Z, [(2, 3); (0, 2); (1, 2)]%nat)) by (vm_compute; reflexivity).
  assert (E2 : see (run 0%nat graph_new tee_over) = Some (Some [(-4, 0); (4, 0); (0, 0); (0, -4)]%Z, [(2, 3); (0, 2); (1, 2); (0, 2); (1, 2)]%nat)) by (vm_compute; reflexivity).
  assert (HS : drawable 0 axis) by (left; split; [lia|reflexivity]).
  assert (D : forall os, drawsb 0%nat 0 axisb (@graph_new (FO lm0) nat nat) os = true -> draws 0%nat (grid_le 6 0) axis graph_new os).
  { intros os B. exact (drawsb_ok 0%nat 0 ltac:(lia) axis axisb (axisb_ok 0) _ _ B). }
  assert (D1 : draws 0%nat (grid_le 6 0) axis graph_new tee_ops) by (apply D; vm_compute; reflexivity).
  assert (St : straights 0%nat graph_new tee_ops) by (apply (straightsb_ok 0%nat 0 ltac:(lia)); vm_compute; reflexivity).
  assert (C : clears 0%nat graph_new tee_ops).
  { destruct (drawable_ok 0 axis HS) as (He & H1 & H2 & H3).
    exact (fam_clears lm0 0 He 0%nat axis (H1 lm0) H2 H3 tee_ops graph_new (new_inside _ _) (proj2 (@empty_drawn nat nat)) D1 St). }
  split; [exact HS|]. split; [apply D; vm_compute; reflexivity|]. split; [exact C|].
  split; [exact (proj2 (C150_history lm0 0 axis nat nat 0%nat tee_ops HS D1) C)|]. split; [|exact (conj E1 E2)].
  intros Q. destruct (see_ok _ _ _ E2) as (g & R & Pg & Eg). apply (stays_last _ _ g Q) in R. clear - R Pg Eg.
  destruct R as (_ & R). assert (Pos : forall i, real_point (pos_at (nodes g) i) = pt (places g) i) by (exact (fam_pos lm0 g)).
  rewrite Pg in Pos. generalize dependent (edges g). clear - Pos. intros es R Eg. destruct es as [|e0 [|e1 [|e2 [|e3 [|e4 [|e5 l]]]]]]; try discriminate.
  injection Eg as _ _ S1 T1 _ _ S3 T3 _ _.
  destruct (R 1%nat 3%nat e1 e3 (P2 (-2) 0) ltac:(lia) eq_refl eq_refl) as (k & Tk & _ & Ek).
  1-2: rewrite !Pos, ?S1, ?T1, ?S3, ?T3; exists (/ 2); (split; [lra|]); unfold along, pt, at_unit; cbn [map nth fst snd vx vy bpow]; f_equal; lra.
  rewrite Pos in Ek. destruct Tk as [Tk|Tk]; rewrite <- Tk, ?S1, ?T1 in Ek; unfold pt, at_unit in Ek; cbn [map nth fst snd bpow] in Ek; injection Ek; lra.
Qed.
