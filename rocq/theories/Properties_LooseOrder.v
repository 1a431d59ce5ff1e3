(** * C149: additions in a different order, when edges may run through nodes.

    [asks dT placed g os l g'] (C142): the calls os lead from g to g' and ask for the
    strokes l.  [redrawn l l']: the same points, and the same segments in any order and
    from either end.  [passings ps es n]: there are n pairs of an edge and a node it runs
    through. *)
From Coq Require Import List Arith Bool Lia Reals Lra ZArith Permutation.
From Flocq Require Import Core.Core IEEE754.BinarySingleNaN.
From Verif Require Import Scalar Utils Polygon Graph GraphSpec PlaneSpec PlanarSpec GridSpec F32 Laws UtilsReal UtilsF32
  PolyF32 PolyNewF32 GraphDemo GraphHistory GraphPlanar GraphSim GridUtils GridSeg GridPrim GridOn GridGraph GridInst GridCheck
  ThroughSpec Through GridThroughSpec GridThrough GridThroughCheck DrawSpec Draw AnyOrderSpec AnyOrder AnyOrderCheck
  Properties_Utils Properties_Polygon Properties_Grid Properties_GridGraph LooseSpec Loose GridLooseSpec GridLoose GridLooseCheck
  Properties_Loose LooseOrderSpec LooseOrder.
Import ListNotations.
Local Open Scope R_scope.

(** What is drawn. *)
Theorem C149_picture :
  forall (T U : Type) (dT : T) (g g' : PlanarGraph XO T U) ps os l,
  drawn g ps -> loosely_drawn ps (edges g) -> loose dT g os -> asks dT drawn g os l g' ->
  exists ps', drawn g' ps' /\ loosely_drawn ps' (edges g') /\
    (forall x, covers ps' (edges g') x <-> covers ps (edges g) x \/ exists a b, In (a, b) (lines l) /\ on_segment a b x) /\
    (forall x, In x ps' <-> In x ps \/ dotted l x \/
       (exists a b, In (a, b) (lines l) /\ on_segment a b x /\ covers ps (edges g) x) \/
       (exists c c' l', Permutation (lines l) (c :: c' :: l') /\ on_segment (fst c) (snd c) x /\ on_segment (fst c') (snd c') x)).
Proof.
  intros T U dT g g' ps os l D W N A. destruct (asks_loose dT os l g g' ps A N D W) as (ps' & D' & W' & C & I).
  exists ps'. split; [exact D'|]. split; [exact W'|]. split; [exact C|]. intros x. rewrite I. split.
  - intros [H|[H|[((a & b & H & S) & Cv)|H]]]; [now left|right; now left|right; right; left; exists a, b; auto|do 3 right; exact H].
  - intros [H|[H|[(a & b & H & S & Cv)|H]]]; [now left|right; now left|right; right; left; split; [exists a, b; auto|exact Cv]|do 3 right; exact H].
Qed.
Print Assumptions C149_picture.

(** Two histories that ask for the same strokes: the same nodes and the same picture; the
    edges and the passed nodes together are as many; if no edge runs through a node, the
    same edges. *)
Theorem C149_order :
  forall (T U : Type) (dT : T) (g g1 g2 : PlanarGraph XO T U) ps os1 os2 l1 l2,
  drawn g ps -> loosely_drawn ps (edges g) -> loose dT g os1 -> loose dT g os2 ->
  asks dT drawn g os1 l1 g1 -> asks dT drawn g os2 l2 g2 -> redrawn l1 l2 ->
  exists ps1 ps2, drawn g1 ps1 /\ drawn g2 ps2 /\ loosely_drawn ps1 (edges g1) /\ loosely_drawn ps2 (edges g2) /\
    (forall x, In x ps1 <-> In x ps2) /\ length ps1 = length ps2 /\
    (forall x, covers ps1 (edges g1) x <-> covers ps2 (edges g2) x) /\
    (forall n1 n2, passings ps1 (edges g1) n1 -> passings ps2 (edges g2) n2 -> (length (edges g1) + n1 = length (edges g2) + n2)%nat) /\
    ((forall k, ~ crossed ps1 (edges g1) k) -> (forall k, ~ crossed ps2 (edges g2) k) -> same_drawing ps1 (edges g1) ps2 (edges g2)).
Proof. intros T U dT. exact (loose_order dT). Qed.
Print Assumptions C149_order.

(** The number of passed nodes exists and is unique. *)
Theorem C149_passings :
  forall (U : Type) ps (es : list (Edge U)), loosely_drawn ps es ->
  exists n, passings ps es n /\ (forall m, passings ps es m -> m = n) /\ (n = 0%nat <-> forall k, ~ crossed ps es k).
Proof.
  intros U ps es W. destruct (passings_some ps es) as (n & P). exists n. split; [exact P|]. split.
  - intros m P'. pose proof (loose_count U U ps ps es es n m W W ltac:(reflexivity) ltac:(reflexivity) P P'). lia.
  - clear W. split.
    + intros E k (Lk & e & He & C). induction P as [|f a es b (l & Nl & Ll & Hl) P IH]; [destruct He|].
      destruct He as [->|He]; [|apply IH; [lia|exact He]]. assert (In k l) by (apply Hl; auto). destruct l; [contradiction|cbn in Ll; lia].
    + intros N. induction P as [|f a es b (l & Nl & Ll & Hl) P IH]; [reflexivity|].
      assert (l = []) as ->.
      { destruct l as [|k l]; [reflexivity|]. exfalso. destruct (proj1 (Hl k) (or_introl eq_refl)) as [Lk C]. apply (N k). split; [exact Lk|]. exists f. split; [now left|exact C]. }
      cbn in Ll. rewrite IH; [lia|]. intros k (Lk & e & He & C). apply (N k). split; [exact Lk|]. exists e. split; [now right|exact C].
Qed.
Print Assumptions C149_passings.

(** C142 with segments drawn from either end. *)
Theorem C149_either_end :
  forall (T U : Type) (dT : T) (g g1 g2 : PlanarGraph XO T U) ps os1 os2 l1 l2,
  drawn g ps -> well_drawn ps (edges g) -> neat dT g os1 -> neat dT g os2 ->
  asks dT drawn g os1 l1 g1 -> asks dT drawn g os2 l2 g2 -> redrawn l1 l2 ->
  exists ps1 ps2, drawn g1 ps1 /\ drawn g2 ps2 /\ same_drawing ps1 (edges g1) ps2 (edges g2).
Proof.
  intros T U dT g g1 g2 ps os1 os2 l1 l2 D W N1 N2 A1 A2 R.
  destruct (asks_picture dT os1 l1 g g1 ps A1 N1 D W) as (qs1 & D1 & W1 & _).
  destruct (asks_picture dT os2 l2 g g2 ps A2 N2 D W) as (qs2 & D2 & W2 & _).
  destruct (loose_order dT g g1 g2 ps os1 os2 l1 l2 D (proj1 (proj1 (well_loose U ps _) W)) (neat_loose dT os1 l1 g g1 A1 N1) (neat_loose dT os2 l2 g g2 A2 N2) A1 A2 R)
    as (ps1 & ps2 & E1 & E2 & _ & _ & _ & _ & _ & _ & SD).
  exists ps1, ps2. split; [exact E1|]. split; [exact E2|]. rewrite (drawn_fun _ _ _ D1 E1) in W1. rewrite (drawn_fun _ _ _ D2 E2) in W2.
  apply SD; [exact (proj2 (proj1 (well_loose U _ _) W1))|exact (proj2 (proj1 (well_loose U _ _) W2))].
Qed.
Print Assumptions C149_either_end.

(** f32 on the grids of C90. *)
Theorem C149_grid :
  forall lm e S (T U : Type) (dT : T) os0 os1 os2 l1 l2 (g g1 g2 : PlanarGraph (FO lm) T U), drawable e S ->
  GridSpec.draws dT (grid_le 6 e) S graph_new os0 -> lays dT graph_new os0 -> run dT graph_new os0 = Ok g ->
  GridSpec.draws dT (grid_le 6 e) S g os1 -> lays dT g os1 -> GridSpec.draws dT (grid_le 6 e) S g os2 -> lays dT g os2 ->
  asks dT placed_f32 g os1 l1 g1 -> asks dT placed_f32 g os2 l2 g2 -> redrawn l1 l2 ->
  (forall x, In x (places g1) <-> In x (places g2)) /\ node_count g1 = node_count g2 /\
  (forall x, covers (places g1) (edges g1) x <-> covers (places g2) (edges g2) x) /\
  (forall n1 n2, passings (places g1) (edges g1) n1 -> passings (places g2) (edges g2) n2 ->
     (edge_count g1 + n1 = edge_count g2 + n2)%nat) /\
  ((forall k, ~ crossed (places g1) (edges g1) k) -> (forall k, ~ crossed (places g2) (edges g2) k) ->
     same_drawing (places g1) (edges g1) (places g2) (edges g2)).
Proof.
  intros lm e S T U dT os0 os1 os2 l1 l2 g g1 g2 HS D0 St0 R. destruct (drawable_ok e S HS) as (He & H1 & H2 & H3).
  destruct (fam_lays lm e He dT S (H1 lm) H2 H3 os0 graph_new g (new_inside _ _) (new_lays T U) D0 St0 R) as (I & W & _).
  exact (fam_loose_order lm e He dT S (H1 lm) H2 H3 g g1 g2 os1 os2 l1 l2 I W).
Qed.
Print Assumptions C149_grid.

(** A cross.  Its middle is added first: the second arm splits both arms.  It is added
    between the arms: the second arm runs through it. *)
Local Notation N x y := (OAddNode (gp (-5) x y : Vec2 (FO lm0)) 7%nat).
Definition middle_first : list (@op (FO lm0) nat nat) :=
  [N 0 0; N (-4) 0; N 4 0; N 0 (-4); N 0 4; OAddEdge 1 2 1%nat; OAddEdge 3 4 2%nat].
Definition middle_between : list (@op (FO lm0) nat nat) :=
  [N (-4) 0; N 4 0; OAddEdge 1 0 1%nat; N 0 0; N 0 (-4); N 0 4; OAddEdge 3 4 2%nat].
Definition middle_first_z : list zstroke :=
  [ZDot (0, 0); ZDot (-4, 0); ZDot (4, 0); ZDot (0, -4); ZDot (0, 4); ZLine (-4, 0) (4, 0); ZLine (0, -4) (0, 4)]%Z.
Definition middle_between_z : list zstroke :=
  [ZDot (-4, 0); ZDot (4, 0); ZLine (4, 0) (-4, 0); ZDot (0, 0); ZDot (0, -4); ZDot (0, 4); ZLine (0, -4) (0, 4)]%Z.

Example C149_example :
  exists g1 g2, let l1 := map (real_stroke (-5)) middle_first_z in let l2 := map (real_stroke (-5)) middle_between_z in
  drawable (-5) (pleat (-5)) /\
  GridSpec.draws 0%nat (grid_le 6 (-5)) (pleat (-5)) graph_new middle_first /\ lays 0%nat graph_new middle_first /\
  GridSpec.draws 0%nat (grid_le 6 (-5)) (pleat (-5)) graph_new middle_between /\ lays 0%nat graph_new middle_between /\
  asks 0%nat placed_f32 graph_new middle_first l1 g1 /\ asks 0%nat placed_f32 graph_new middle_between l2 g2 /\ redrawn l1 l2 /\
  loose 0%nat graph_new (map exact_op middle_between) /\ asks 0%nat drawn graph_new (map exact_op middle_between) l2 (exact_graph g2) /\
  edge_count g1 = 4%nat /\ edge_count g2 = 3%nat /\ forall n, passings (places g2) (edges g2) n -> (1 <= n)%nat.
Proof.
  assert (Z1 : zstrokes 0%nat (-5) graph_new middle_first = Some middle_first_z) by (vm_compute; reflexivity).
  assert (Z2 : zstrokes 0%nat (-5) graph_new middle_between = Some middle_between_z) by (vm_compute; reflexivity).
  destruct (zstrokes_ok 0%nat (-5) ltac:(lia) _ _ _ Z1) as (g1 & R1 & A1). destruct (zstrokes_ok 0%nat (-5) ltac:(lia) _ _ _ Z2) as (g2 & R2 & A2).
  destruct (laid middle_first g1 ltac:(vm_compute; reflexivity) ltac:(vm_compute; reflexivity) R1) as (L1 & _ & _ & _ & D1 & Y1).
  destruct (laid middle_between g2 ltac:(vm_compute; reflexivity) ltac:(vm_compute; reflexivity) R2) as (L2 & _ & _ & _ & D2 & Y2).
  assert (E1 : match run 0%nat graph_new middle_first with Ok g => edge_count g | Panic => 9%nat end = 4%nat) by (vm_compute; reflexivity).
  assert (E2 : match run 0%nat graph_new middle_between with Ok g => edge_count g | Panic => 9%nat end = 3%nat) by (vm_compute; reflexivity).
  rewrite R1 in E1. rewrite R2 in E2.
  assert (Rd : redrawn (map (real_stroke (-5)) middle_first_z) (map (real_stroke (-5)) middle_between_z)).
  { clear. split.
    - intros x. split; apply dots_incl; intros k; cbn [middle_first_z middle_between_z In]; intros H;
        repeat (destruct H as [H|H]; [try discriminate; rewrite <- H; tauto|]); destruct H.
    - eexists. split; [apply Permutation_refl|]. cbn [middle_first_z middle_between_z map real_stroke lines]. constructor; [now right|]. constructor; [now left|constructor]. }
  destruct (drawable_ok _ _ pleat5) as (He & H1 & H2 & H3).
  exists g1, g2. split; [exact pleat5|]. do 6 (split; [assumption|]). split; [exact Rd|]. split; [exact L2|]. split.
  { exact (fam_asks lm0 (-5) He 0%nat (pleat (-5)) (H1 lm0) H2 H3 graph_new g2 middle_between _ A2 (new_inside _ _) D2). }
  split; [exact E1|]. split; [exact E2|]. intros n P.
  destruct (passings_some (places g1) (edges g1)) as (m & Q).
  destruct (C149_grid lm0 (-5) (pleat (-5)) nat nat 0%nat [] middle_first middle_between _ _ graph_new g1 g2 pleat5 Logic.I Logic.I eq_refl D1 Y1 D2 Y2 A1 A2 Rd) as (_ & _ & _ & K & _).
  pose proof (K m n Q P) as S. rewrite E1, E2 in S. lia.
Qed.

(** So the edges may differ. *)
Theorem C149_fails_at_edges :
  exists (g1 g2 : PlanarGraph (FO lm0) nat nat) l1 l2, lays 0%nat graph_new middle_first /\ lays 0%nat graph_new middle_between /\
  asks 0%nat placed_f32 graph_new middle_first l1 g1 /\ asks 0%nat placed_f32 graph_new middle_between l2 g2 /\ redrawn l1 l2 /\
  ~ same_drawing (places g1) (edges g1) (places g2) (edges g2).
Proof.
  destruct C149_example as (g1 & g2 & _ & _ & Y1 & _ & Y2 & A1 & A2 & Rd & _ & _ & E1 & E2 & _).
  eexists g1, g2, _, _. do 4 (split; [eassumption|]). split; [exact Rd|]. intros (_ & _ & E & _).
  unfold edge_count in E1, E2. congruence.
Qed.
Print Assumptions C149_fails_at_edges.
