(** * Properties C119-C121: f32 drawings with room to spare stay planar, off any grid.

    [fine M K dl] (MarginSpec.v): coordinates up to [M], crossings conditioned up to [K] and
    the distance [dl] are such that the absolute tolerance f32::EPSILON of the code covers
    the rounding errors of the drawing and does not cover [dl]; for instance M = 2^-9, K = 4
    and dl = 2^-15.  [slip M K] = 2^-24 M (14 + 34 K) bounds the rounding error of a computed
    crossing.  [spaced dl]: nodes are [dl] apart, and [dl] off the edges they are not an end
    of.  [clear_way dl K]: the new segment is [dl] off the other nodes, and with every edge
    it shares an end, or one is beside the other, or they cross away from everything else. *)
From Coq Require Import ZArith Reals Lia Lra List Bool Arith Psatz.
From Flocq Require Import Core.Core IEEE754.BinarySingleNaN.
From Verif Require Import Scalar Utils F32 Laws Graph GraphSpec PlaneSpec PlanarSpec GridSpec GeoSpec GeoRound UtilsReal GraphAdd GraphAddProps GraphPlanar GridGraph
  MarginSpec MarginReal MarginSeg MarginGraph MarginAdd MarginHist.
Import ListNotations.
Local Open Scope R_scope.

(** ** C119: add_edge *)
Theorem C119_add_edge :
  forall lm (T U : Type) (dT : T) M K dl (g g' : PlanarGraph (FO lm) T U) s d u r, fine M K dl ->
  (forall n, In n (nodes g) -> pbound M (position n)) -> spaced dl (places g) (edges g) -> planar_f32 g ->
  s <> d -> (s < length (nodes g))%nat -> (d < length (nodes g))%nat -> ~ adjacent g s d ->
  clear_way dl K (places g) (edges g) s d -> add_edge dT g s d u = Ok (g', r) ->
  exists new xs, nodes g' = nodes g ++ new /\
    Forall2 (fun n x => pfin (position n) /\ dist (real_point (position n)) x <= slip M K) new xs /\ NoDup xs /\
    (forall x, In x xs <-> on_segment (pt (places g) s) (pt (places g) d) x /\ covers (places g) (edges g) x /\
       x <> pt (places g) s /\ x <> pt (places g) d) /\
    planar_f32 g' /\ spaced (dl - 2 * slip M K) (places g') (edges g') /\
    (forall y, covers (places g ++ xs) (edges g') y <-> covers (places g) (edges g) y \/ on_segment (pt (places g) s) (pt (places g) d) y).
Proof.
  intros lm T U dT M K dl g g' s d u r Fn PB Sp Pl Nsd Ls Ld NA CW H. rewrite <- place_len in Ls, Ld.
  exact (add_edge_margin lm dT M K dl Fn g s d PB Sp Pl Nsd NA Ls Ld CW u g' r H).
Qed.
Print Assumptions C119_add_edge.

(** ** C120: add_node *)
Theorem C120_add_node :
  forall lm (T U : Type) M K dl (g g' : PlanarGraph (FO lm) T U) p dat i ces, fine M K dl ->
  (forall n, In n (nodes g) -> pbound M (position n)) -> spaced dl (places g) (edges g) -> planar_f32 g ->
  pfin p -> room_at M K dl g (real_point p) -> add_node g p dat = Ok (g', (i, ces)) ->
  (g' = g /\ (i < length (nodes g))%nat /\ dist (real_point p) (pt (places g) i) < eps32 * (1 + 4 * u32)) \/
  (nodes g' = nodes g ++ [MkNode p dat DEFAULT_LABEL] /\ i = length (nodes g) /\ planar_f32 g' /\
   spaced (dl - 2 * slip M K) (places g') (edges g') /\
   exists x, dist (real_point p) x <= slip M K /\ lone dl (places g) (edges g) x /\
     forall y, covers (places g ++ [x]) (edges g') y <-> covers (places g) (edges g) y).
Proof.
  intros lm T U M K dl g g' p dat i ces Fn PB Sp Pl Fp Ro H. exact (add_node_margin lm M K dl Fn g PB Sp Pl p dat g' i ces Fp Ro H).
Qed.
Print Assumptions C120_add_node.

(** ** C121: histories *)
Theorem C121_histories :
  forall lm (T U : Type) (dT : T) M K dl os (g : PlanarGraph (FO lm) T U), fine M K dl ->
  roomy dT M K dl graph_new os -> run dT graph_new os = Ok g ->
  planar_f32 g /\ no_loops g /\ no_parallel g /\
  (forall i j, (i < length (nodes g))%nat -> (j < length (nodes g))%nat -> i <> j -> eps32 < dist (pt (places g) i) (pt (places g) j)).
Proof.
  intros lm T U dT M K dl os g Fn R H. exact (margin_run lm dT M K dl Fn os graph_new g (empty_proper lm) R H).
Qed.
Print Assumptions C121_histories.

(** ** Example: the diagonal of a 2 x 1 rectangle and a segment across it, meeting at
    (2/3, 1/3) -- which is not an f32 point -- in units of 2^-10. *)
Section Example.
Variable lm : Libm.
Local Notation graph := (PlanarGraph (FO lm) nat nat).
Definition unit_pt (x y : Z) : Vec2 (FO lm) := @P2 (FO lm) (f32_of x (-10)) (f32_of y (-10)).
Definition corner (x y : Z) : Node (FO lm) nat := MkNode (unit_pt x y) 0%nat DEFAULT_LABEL.
Definition corners : list (Node (FO lm) nat) := [corner 0 0; corner 2 1; corner 1 0; corner 0 1].
Definition diagonal : Edge nat := MkEdge 0 1 7%nat DEFAULT_LABEL.
Definition one_edge : graph := MkGraph corners [diagonal].
Definition hist : list (@op (FO lm) nat nat) :=
  [OAddNode (unit_pt 0 0) 0%nat; OAddNode (unit_pt 2 1) 0%nat; OAddNode (unit_pt 1 0) 0%nat; OAddNode (unit_pt 0 1) 0%nat;
   OAddEdge 0 1 7%nat; OAddEdge 2 3 8%nat; OAddNode (unit_pt 0 0) 1%nat].
Let M := bpow radix2 (-9).
Let dl := bpow radix2 (-15).
Let q := bpow radix2 (-10).

Lemma ex_fine : fine M 4 dl.
Proof. unfold fine, M, dl, u32. cbn. lra. Qed.
Lemma ex_fine2 : fine M 4 (2 * dl).
Proof. unfold fine, M, dl, u32. cbn. lra. Qed.
Lemma q_pos : 0 < q. Proof. apply bpow_gt_0. Qed.
Lemma dl_q : 32 * dl = q. Proof. unfold dl, q. cbn. lra. Qed.
Lemma M_q : M = 2 * q. Proof. unfold M, q. cbn. lra. Qed.
Lemma unit_real : forall x y, (0 <= x <= 2)%Z -> (0 <= y <= 2)%Z -> pfin (unit_pt x y) /\ real_point (unit_pt x y) = P2 (IZR x * q) (IZR y * q).
Proof.
  intros x y Hx Hy. destruct (f32_of_exact x (-10)) as [F1 E1]; [lia|lia|]. destruct (f32_of_exact y (-10)) as [F2 E2]; [lia|lia|].
  split; [split; assumption|]. unfold real_point, unit_pt. cbn [vx vy]. now rewrite E1, E2.
Qed.
Lemma unit_bound : forall x y, (0 <= x <= 2)%Z -> (0 <= y <= 2)%Z -> pbound M (unit_pt x y).
Proof.
  intros x y Hx Hy. destruct (unit_real x y Hx Hy) as [Fp E]. split; [exact Fp|]. enough (B : Rabs (vx (real_point (unit_pt x y))) <= M /\ Rabs (vy (real_point (unit_pt x y))) <= M) by exact B.
  rewrite E, M_q. cbn [vx vy]. pose proof q_pos.
  assert (0 <= IZR x <= 2) by (split; apply IZR_le; lia). assert (0 <= IZR y <= 2) by (split; apply IZR_le; lia).
  split; rewrite Rabs_pos_eq by (apply Rmult_le_pos; lra); apply Rmult_le_compat_r; lra.
Qed.

(** Distances, in units of [q]. *)
Lemma far : forall k (a b : point) w, 0 <= k <= 2 -> (vx b - vx a) * (vx b - vx a) + (vy b - vy a) * (vy b - vy a) = q * q * w -> 1 / 9 <= w -> k * dl <= dist a b.
Proof.
  intros k a b w Hk E Hw. pose proof q_pos. pose proof dl_q. apply Rle_trans with (2 * dl); [apply Rmult_le_compat_r; lra|].
  apply sq_le; [apply dist_nonneg|]. rewrite dist_sq, E. replace (2 * dl) with (q / 16) by lra.
  replace (q / 16 * (q / 16)) with (q * q * (1 / 256)) by field. apply Rmult_le_compat_l; [nra|lra].
Qed.
Local Notation r0 := (P2 (0 * q) (0 * q)).
Local Notation r1 := (P2 (2 * q) (1 * q)).
Local Notation r2 := (P2 (1 * q) (0 * q)).
Local Notation r3 := (P2 (0 * q) (1 * q)).
Local Notation four := [r0; r1; r2; r3].
Lemma ex_places : forall es, places (MkGraph corners es : graph) = four.
Proof.
  intros es. unfold places, corners, corner. cbn [nodes map position].
  rewrite (proj2 (unit_real 0 0 ltac:(lia) ltac:(lia))), (proj2 (unit_real 2 1 ltac:(lia) ltac:(lia))), (proj2 (unit_real 1 0 ltac:(lia) ltac:(lia))), (proj2 (unit_real 0 1 ltac:(lia) ltac:(lia))). reflexivity.
Qed.
Ltac afar w := match goal with |- ?k * dl <= dist _ _ => apply (far k _ _ w); [lra|cbn [pt nth vx vy along]; ring|lra] end.
Lemma nodes_far : forall k i j, 0 <= k <= 2 -> (i < 4)%nat -> (j < 4)%nat -> i <> j -> k * dl <= dist (pt four i) (pt four j).
Proof.
  intros k i j Hk Hi Hj N. destruct i as [|[|[|[|i]]]]; [| | | |lia]; (destruct j as [|[|[|[|j]]]]; [| | | |lia]); try congruence;
    first [afar 5|afar 1|afar 2|afar 4].
Qed.
Lemma off_edge : forall k i, 0 <= k <= 2 -> (2 <= i < 4)%nat -> off (k * dl) (pt four 0) (pt four 1) (pt four i).
Proof.
  intros k i Hk Hi x (t & Ht & ->). assert (C : i = 2%nat \/ i = 3%nat) by lia. destruct C as [-> | ->].
  - apply (far k _ _ ((2 * t - 1) * (2 * t - 1) + t * t)); [lra|unfold along; cbn [pt nth vx vy]; ring|]. pose proof (Rle_0_sqr (5 * t - 2)) as S. unfold Rsqr in S. lra.
  - apply (far k _ _ ((2 * t) * (2 * t) + (t - 1) * (t - 1))); [lra|unfold along; cbn [pt nth vx vy]; ring|]. pose proof (Rle_0_sqr (5 * t - 1)) as S. unfold Rsqr in S. lra.
Qed.
Lemma off_new : forall k i, 0 <= k <= 2 -> (i < 2)%nat -> off (k * dl) (pt four 2) (pt four 3) (pt four i).
Proof.
  intros k i Hk Hi x (t & Ht & ->). assert (C : i = 0%nat \/ i = 1%nat) by lia. destruct C as [-> | ->].
  - apply (far k _ _ ((1 - t) * (1 - t) + t * t)); [lra|unfold along; cbn [pt nth vx vy]; ring|]. pose proof (Rle_0_sqr (2 * t - 1)) as S. unfold Rsqr in S. lra.
  - apply (far k _ _ ((1 + t) * (1 + t) + (1 - t) * (1 - t))); [lra|unfold along; cbn [pt nth vx vy]; ring|]. pose proof (Rle_0_sqr t) as S. unfold Rsqr in S. lra.
Qed.
Lemma ex_spaced0 : forall k, 0 <= k <= 2 -> spaced (U := nat) (k * dl) four [].
Proof. intros k Hk. split; [intros e []|]. split; [intros i j Hi Hj N; now apply nodes_far|]. intros i e _ []. Qed.
Lemma ex_spaced : forall k, 0 <= k <= 2 -> spaced (k * dl) four [diagonal].
Proof.
  intros k Hk. split; [intros e [<-|[]]; cbn; lia|]. split; [intros i j Hi Hj N; now apply nodes_far|].
  intros i e Hi [<-|[]] NT. apply off_edge; [exact Hk|]. cbn [length] in Hi. unfold touches, diagonal in NT. cbn [src dst] in NT. lia.
Qed.
Lemma ex_clear0 : forall k, 0 <= k <= 2 -> clear_way (U := nat) (k * dl) 4 four [] 0 1.
Proof.
  intros k Hk. split; [intros i Hi N1 N2; apply off_edge; [exact Hk|]; cbn [length] in Hi; lia|]. intros [|i] e H; discriminate.
Qed.
Lemma ex_clear : forall k, 0 <= k <= 2 -> clear_way (k * dl) 4 four [diagonal] 2 3.
Proof.
  intros k Hk. split; [intros i Hi N1 N2; apply off_new; [exact Hk|]; cbn [length] in Hi; lia|].
  intros [|[|i]] e H; try discriminate. injection H as <-. cbn [diagonal src dst]. do 6 right.
  pose proof q_pos as Pq. assert (Pq2 : 0 < q * q) by nra.
  assert (Cr : cross (pt four 0) (pt four 1) (pt four 2) (pt four 3) = 3 * (q * q)) by (unfold cross; cbn [pt nth vx vy]; ring).
  split; [split|].
  - intro Z. assert (3 * (q * q) = 0) by exact (eq_trans (eq_sym Cr) Z). lra.
  - unfold cond. match goal with |- context [cross ?a ?b ?c ?d] => replace (cross a b c d) with (3 * (q * q)) by (symmetry; exact Cr) end. rewrite Rabs_pos_eq by lra. apply (Rmult_le_reg_r (3 * (q * q))); [lra|]. unfold Rdiv. rewrite Rmult_assoc, Rinv_l, Rmult_1_r by lra.
    assert (D1 : dist (pt four 0) (pt four 1) <= 3 * q) by (apply sq_le; [lra|]; rewrite dist_sq; cbn [pt nth vx vy]; nra).
    assert (D2 : dist (pt four 2) (pt four 3) <= 2 * q) by (apply sq_le; [lra|]; rewrite dist_sq; cbn [pt nth vx vy]; nra).
    assert (D3 : dist (pt four 0) (pt four 1) * dist (pt four 2) (pt four 3) <= 3 * q * (2 * q)) by (apply Rmult_le_compat; auto using dist_nonneg).
    assert (T : bpow radix2 (-100) <= q * q) by (unfold q; rewrite <- bpow_plus; apply bpow_le; lia).
    apply Rle_trans with (3 * q * (2 * q) + q * q); [exact (Rplus_le_compat _ _ _ _ D3 T)|lra].
  - exists (P2 (2 / 3 * q) (1 / 3 * q)). split; [|split; [|split]].
    + exists (1 / 3). split; [lra|]. unfold along, diagonal. cbn [pt nth vx vy src dst]. apply (f_equal2 (@P2 R)); field.
    + exists (1 / 3). split; [lra|]. unfold along, diagonal. cbn [pt nth vx vy src dst]. apply (f_equal2 (@P2 R)); field.
    + intros i Hi. destruct i as [|[|[|[|i]]]]; [| | | |cbn [length] in Hi; lia].
      * apply (far k _ _ (5 / 9)); [lra|cbn [pt nth vx vy]; field|lra].
      * apply (far k _ _ (20 / 9)); [lra|cbn [pt nth vx vy]; field|lra].
      * apply (far k _ _ (2 / 9)); [lra|cbn [pt nth vx vy]; field|lra].
      * apply (far k _ _ (8 / 9)); [lra|cbn [pt nth vx vy]; field|lra].
    + intros [|[|j]] e N H; try discriminate. congruence.
Qed.
Lemma ex_bound : forall es (n : Node (FO lm) nat), In n (nodes (MkGraph corners es : graph)) -> pbound M (position n).
Proof. intros es n [<-|[<-|[<-|[<-|[]]]]]; apply unit_bound; lia. Qed.
Lemma ex_planar : planar_f32 one_edge.
Proof.
  apply planar_places. unfold one_edge. rewrite ex_places. pose proof (ex_spaced 1 ltac:(lra)) as (V & A & C). split.
  - intros k e Hk He NT On. pose proof (C k e Hk He NT _ On) as G. rewrite dist_self0 in G. pose proof q_pos. pose proof dl_q. lra.
  - intros [|[|i]] [|[|j]] ei ej x N Hi Hj; try discriminate; congruence.
Qed.

Example C119_example :
  fine M 4 dl /\ (forall n, In n (nodes one_edge) -> pbound M (position n)) /\ spaced dl (places one_edge) (edges one_edge) /\ planar_f32 one_edge /\
  (2 <> 3 /\ 2 < length (nodes one_edge) /\ 3 < length (nodes one_edge))%nat /\ ~ adjacent one_edge 2 3 /\
  clear_way dl 4 (places one_edge) (edges one_edge) 2 3 /\ exists g' r, add_edge 0%nat one_edge 2 3 8%nat = Ok (g', r).
Proof.
  split; [exact ex_fine|]. split; [apply ex_bound|]. unfold one_edge at 1 2. rewrite ex_places.
  pose proof (ex_spaced 1 ltac:(lra)) as S. pose proof (ex_clear 1 ltac:(lra)) as C. rewrite Rmult_1_l in S, C.
  split; [exact S|]. split; [exact ex_planar|]. split; [cbn; lia|]. split.
  - intros (e & [<-|[]] & [[E _]|[E _]]); discriminate.
  - split; [unfold one_edge at 1; rewrite ex_places; exact C|].
    destruct (add_edge_total 0%nat one_edge 2 3 8%nat) as ([g' r] & H); [|exists g', r; exact H].
    intros e [<-|[]]; cbn; lia.
Qed.

(** A node in the middle of the diagonal. *)
Definition middle : Vec2 (FO lm) := @P2 (FO lm) (f32_of 2 (-11)) (f32_of 1 (-11)).
Example C120_example :
  fine M 4 dl /\ (forall n, In n (nodes one_edge) -> pbound M (position n)) /\ spaced dl (places one_edge) (edges one_edge) /\ planar_f32 one_edge /\
  pfin middle /\ room_at M 4 dl one_edge (real_point middle) /\ exists g' i ces, add_node one_edge middle 5%nat = Ok (g', (i, ces)).
Proof.
  destruct C119_example as (E1 & E2 & E3 & E4 & _). split; [exact E1|]. split; [exact E2|]. split; [exact E3|]. split; [exact E4|].
  destruct (f32_of_exact 2 (-11)) as [F1 V1]; [lia|lia|]. destruct (f32_of_exact 1 (-11)) as [F2 V2]; [lia|lia|]. split; [split; assumption|].
  assert (Em : real_point middle = P2 (1 * q) (/ 2 * q)).
  { unfold real_point, middle. cbn [vx vy]. apply (f_equal2 (@P2 R)); [rewrite V1|rewrite V2]; unfold q; cbn; lra. }
  split.
  - right. exists (real_point middle). rewrite Em. pose proof q_pos. split; [rewrite dist_self0; apply (margins M 4 dl ex_fine)|].
    rewrite M_q. cbn [vx vy]. split; [rewrite Rabs_pos_eq; lra|]. split; [rewrite Rabs_pos_eq; lra|]. unfold one_edge. rewrite ex_places. split.
    + intros k Hk. rewrite <- (Rmult_1_l dl). destruct k as [|[|[|[|k]]]]; [| | | |cbn [length] in Hk; lia].
      * apply (far 1 _ _ (5 / 4)); [lra|cbn [pt nth vx vy]; field|lra].
      * apply (far 1 _ _ (5 / 4)); [lra|cbn [pt nth vx vy]; field|lra].
      * apply (far 1 _ _ (1 / 4)); [lra|cbn [pt nth vx vy]; field|lra].
      * apply (far 1 _ _ (5 / 4)); [lra|cbn [pt nth vx vy]; field|lra].
    + intros e [<-|[]]. left. exists (/ 2). split; [lra|]. unfold along, diagonal. cbn [pt nth vx vy src dst]. apply (f_equal2 (@P2 R)); field.
  - destruct (add_node_total one_edge middle 5%nat) as ([g' [i ces]] & H); [|exists g', i, ces; exact H]. intros e [<-|[]]; cbn; lia.
Qed.

(** The same drawing made from the empty graph, and a node asked for at the place of node 0. *)
Local Notation hist_graph k := (MkGraph (firstn k corners) [] : graph).
Lemma prefix_places : forall k, places (hist_graph k) = firstn k four.
Proof. intros k. unfold places. cbn [nodes]. rewrite <- (ex_places []). unfold places. cbn [nodes]. now rewrite firstn_map. Qed.
Lemma prefix_pt : forall k i, (i < k)%nat -> pt (firstn k four) i = pt four i.
Proof.
  intros k i H. unfold pt. rewrite <- (firstn_skipn k four) at 2. destruct (Nat.lt_ge_cases i (length (firstn k four))) as [L|L]; [now rewrite app_nth1|].
  rewrite firstn_length in L. rewrite firstn_all2, skipn_all2, app_nil_r by lia. reflexivity.
Qed.
Lemma grow : forall k os, (k < 4)%nat -> roomy 0%nat M 4 dl (hist_graph (S k)) os ->
  roomy 0%nat M 4 dl (hist_graph k) (OAddNode (position (nth k corners (corner 0 0))) 0%nat :: os).
Proof.
  intros k os Hk R. assert (Lk : length (firstn k four) = k) by (rewrite firstn_length; cbn [length]; lia).
  assert (PB : forall n, In n (nodes (hist_graph k)) -> pbound M (position n)).
  { intros n Hn. apply (ex_bound []). cbn [nodes] in *. rewrite <- (firstn_skipn k corners). apply in_or_app. now left. }
  assert (PN : pbound M (position (nth k corners (corner 0 0)))) by (apply (ex_bound []), nth_In; cbn; lia).
  assert (Ep : real_point (position (nth k corners (corner 0 0))) = pt four k).
  { rewrite <- (ex_places []), place_pos. unfold pos_at. cbn [nodes]. now rewrite (nth_error_nth' corners (corner 0 0) (n := k)) by (cbn; lia). }
  assert (Far : forall i, (i < length (firstn k four))%nat -> dl <= dist (pt four k) (pt (firstn k four) i)).
  { intros i Hi. rewrite Lk in Hi. rewrite prefix_pt by exact Hi. rewrite <- (Rmult_1_l dl). apply nodes_far; lra || lia. }
  cbn [roomy]. split; [exact PB|]. split; [|split; [split|]].
  - rewrite prefix_places. split; [intros e []|]. split; [|intros i e _ []]. intros i j Hi Hj N. rewrite Lk in Hi, Hj. rewrite !prefix_pt by assumption.
    rewrite <- (Rmult_1_l dl). apply nodes_far; lra || lia.
  - exact (proj1 PN).
  - right. rewrite prefix_places. exists (pt four k). rewrite Ep, dist_self0. split; [apply (margins M 4 dl ex_fine)|]. rewrite <- Ep. split; [apply PN|]. split; [apply PN|].
    split; [rewrite Ep; exact Far|intros e []].
  - intros g' H. cbn [step] in H. apply bind_ok in H. destruct H as ([g1 [i ces]] & H & Q). injection Q as ->. apply add_node_ok in H.
    assert (NN : ~ near_node (hist_graph k) (position (nth k corners (corner 0 0)))).
    { apply (far_old lm M 4 dl ex_fine _ (firstn k four) _ (pt four k)).
      - rewrite <- prefix_places. exact (at_rel lm M 4 dl ex_fine _ PB).
      - exact (proj1 PN).
      - rewrite Ep, dist_self0. apply (margins M 4 dl ex_fine).
      - exact Far. }
    destruct H as [(dd & Fc & Lt & _)|(dd & j & Fc & Lt & _ & Hn & He & _)].
    + exfalso. apply NN, (closest_not_near (FO_laws lm) (hist_graph k) _ i dd Fc). exact Lt.
    + replace g' with (hist_graph (S k)); [exact R|]. destruct g' as [ns es]. cbn [nodes edges] in Hn, He. rewrite He. cbn [split_edges]. f_equal.
      rewrite Hn. clear - Hk. destruct k as [|[|[|[|k]]]]; [reflexivity|reflexivity|reflexivity|reflexivity|lia].
Qed.
Lemma spaced_mono : forall a b ps (es : list (Edge nat)), a <= b -> spaced b ps es -> spaced a ps es.
Proof.
  intros a b ps es H (V & A & C). split; [exact V|]. split.
  - intros i j Hi Hj N. exact (Rle_trans _ _ _ H (A i j Hi Hj N)).
  - intros k e Hk He NT x Hx. exact (Rle_trans _ _ _ H (C k e Hk He NT x Hx)).
Qed.
Example C121_example : fine M 4 dl /\ roomy 0%nat M 4 dl (graph_new : graph) hist /\ exists g, run 0%nat (graph_new : graph) hist = Ok g.
Proof.
  split; [exact ex_fine|]. split.
  2: { assert (A : forall os (g : graph), valid g -> (forall o, In o os -> match o with OAddNode _ _ | OAddEdge _ _ _ => True | _ => False end) ->
      exists g', run 0%nat g os = Ok g').
    { induction os as [|o os IH]; intros g Hv Ho; [now exists g|]. cbn [run].
      assert (St : exists g1, step 0%nat g o = Ok g1).
      { pose proof (Ho o (or_introl eq_refl)) as Q. destruct o as [p d|s d u|i|i]; try destruct Q; cbn [step].
        - destruct (add_node_total g p d Hv) as [[g1 r] ->]. now exists g1.
        - destruct (add_edge_total 0%nat g s d u Hv) as [[g1 r] ->]. now exists g1. }
      destruct St as [g1 St]. rewrite St. cbn [bind]. apply IH; [exact (GraphHistory.step_valid 0%nat g o g1 Hv St)|]. intros; apply Ho; now right. }
    apply A; [intros e []|]. intros o Ho. unfold hist in Ho. cbn [In] in Ho. repeat (destruct Ho as [<-|Ho]; [exact I|]). destruct Ho. }
  apply (grow 0 _ ltac:(lia)), (grow 1 _ ltac:(lia)), (grow 2 _ ltac:(lia)), (grow 3 _ ltac:(lia)). change (firstn 4 corners) with corners.
  pose proof (ex_spaced0 1 ltac:(lra)) as S0. pose proof (ex_clear0 1 ltac:(lra)) as C0. pose proof (ex_spaced 1 ltac:(lra)) as S1. pose proof (ex_clear 1 ltac:(lra)) as C1.
  rewrite Rmult_1_l in S0, C0, S1, C1. cbn [roomy].
  split; [apply ex_bound|]. rewrite ex_places. split; [exact S0|]. split; [split; [lia|right; right; rewrite ex_places; exact C0]|].
  intros g1 H1. assert (E1 : Ok g1 = Ok one_edge) by (rewrite <- H1; reflexivity). injection E1 as ->.
  split; [apply ex_bound|]. unfold one_edge. rewrite ex_places. split; [exact S1|]. split; [split; [lia|right; right; rewrite ex_places; exact C1]|].
  intros g2 H2. split; [|split; [|split; [split; [apply unit_real; lia|left]|intros; exact I]]].
  all: cbn [step] in H2; apply bind_ok in H2; destruct H2 as ([g3 r] & H2 & Q); injection Q as ->.
  all: destruct (C119_add_edge lm nat nat 0%nat M 4 (2 * dl) one_edge g2 2 3 8%nat r ex_fine2) as (new & xs & Hn & Hx & _ & Hxs & _ & S2 & _);
    [apply ex_bound|unfold one_edge; rewrite ex_places; apply ex_spaced; lra|exact ex_planar|lia|cbn; lia|cbn; lia|apply C119_example|unfold one_edge; rewrite ex_places; apply ex_clear; lra|exact H2|].
  - intros n Hi. rewrite Hn in Hi. apply in_app_or in Hi. destruct Hi as [Hi|Hi]; [now apply (ex_bound [diagonal])|].
    assert (G : exists x, In x xs /\ pfin (position n) /\ dist (real_point (position n)) x <= slip M 4).
    { clear - Hx Hi. induction Hx as [|m x new xs P Hx IH]; [destruct Hi|]. destruct Hi as [->|Hi]; [exists x; split; [now left|exact P]|].
      destruct (IH Hi) as (y & Hy & P'). exists y. split; [now right|exact P']. }
    destruct G as (x & Ix & Fp & D). apply Hxs in Ix. destruct Ix as ((t & Ht & ->) & _). unfold one_edge in D. rewrite ex_places in D.
    assert (Cc : forall z : R, z * z <= dist (real_point (position n)) (along (pt four 2) (pt four 3) t) * dist (real_point (position n)) (along (pt four 2) (pt four 3) t) -> Rabs z <= slip M 4).
    { intros z Hz. apply Rabs_le. pose proof (dist_nonneg (real_point (position n)) (along (pt four 2) (pt four 3) t)). nra. }
    rewrite dist_sq in Cc. set (X := vx (along (pt four 2) (pt four 3) t) - vx (real_point (position n))) in *.
    set (Y := vy (along (pt four 2) (pt four 3) t) - vy (real_point (position n))) in *.
    assert (D1 : Rabs X <= slip M 4) by (apply Cc; nra). assert (D2 : Rabs Y <= slip M 4) by (apply Cc; nra).
    pose proof q_pos. pose proof (margins M 4 dl ex_fine) as (_ & _ & Hm & _). pose proof eps32_pos. pose proof dl_q. pose proof u_pos.
    assert (0 < eps32 * (1 + 4 * u32)) by (apply Rmult_lt_0_compat; lra).
    split; [exact Fp|]. rewrite M_q. unfold X, Y, along in D1, D2. cbn [pt nth vx vy] in D1, D2.
    assert (0 <= t * q <= q) by (split; [apply Rmult_le_pos; lra|]; rewrite <- (Rmult_1_l q) at 2; apply Rmult_le_compat_r; lra).
    assert (B1 : Rabs (vx (real_point (position n))) <= 2 * q) by (apply Rabs_le; apply Rabs_le_inv in D1; lra).
    assert (B2 : Rabs (vy (real_point (position n))) <= 2 * q) by (apply Rabs_le; apply Rabs_le_inv in D2; lra).
    split; [exact B1|exact B2].
  - refine (spaced_mono _ _ _ _ _ S2).
    pose proof (margins M 4 dl ex_fine) as (_ & _ & _ & Hm & _). lra.
  - exists 0%nat. split; [rewrite Hn, app_length; cbn; lia|]. rewrite place_pos. unfold pos_at. rewrite Hn. cbn [one_edge corners nodes app nth_error position corner].
    rewrite dist_self0. pose proof eps32_pos. apply Rmult_lt_0_compat; [lra|unfold u32; lra].
Qed.
End Example.
