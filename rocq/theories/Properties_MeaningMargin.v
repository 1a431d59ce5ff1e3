(** * C144: off the grids, f32 calls are operations on sets of points up to the drift.

    Words, scenes, [tells] and [shows] as in C143, strokes and [asks] as in C142, [steady],
    [calm], [drifted] and [alike] as in C126-C127.  The words and strokes are those of the
    exact program; the graphs are those of the f32 program. *)
From Coq Require Import ZArith Reals Lia Lra List Bool Arith Psatz Permutation.
From Flocq Require Import Core.Core IEEE754.BinarySingleNaN.
From Verif Require Import Scalar Utils F32 Laws Graph GraphSpec PlaneSpec PlanarSpec GridSpec GeoSpec GeoRound SimSpec UtilsReal GraphAdd GraphAddProps GraphPlanar GridGraph
  MarginSpec MarginReal MarginSeg MarginGraph MarginAdd MarginHist Follow MarginSim Drift MarginDrift CalmCheck SimOrder DrawSpec Draw Properties_Margin
  ThroughSpec Through GridThroughSpec AnyOrderSpec AnyOrder MeaningSpec Meaning MeaningMargin Properties_Sim.
Import ListNotations.
Local Open Scope R_scope.

(** What is drawn: the exact program holds a drawing of what the words make of the scene,
    and the f32 program the same edges, with nodes within the drift. *)
Theorem C144_meaning :
  forall lm (T U : Type) (dT : T) M K dl H G depth (g g1 : PlanarGraph (FO lm) T U) os l, steady M K dl H G ->
  (forall n, In n (nodes g) -> pfin (position n)) -> planar_f32 g -> calm dT M K dl H G depth (exact_graph g) os -> calls dT g os = Ok (g1, l) ->
  exists ws gx ps, tells dT drawn value_x (exact_graph g) (map exact_op os) ws gx /\ drawn gx ps /\
    shows ps (edges gx) (after_all ws (scene_of (places g) (edges g))) /\
    edges g1 = edges gx /\ List.Forall2 (drifted M K G depth) (nodes g1) (nodes gx).
Proof. intros lm T U dT M K dl H G depth g g1 os l St. exact (margin_shows dT M K dl H G St depth g g1 os l). Qed.
Print Assumptions C144_meaning.

(** Slots, directions and data do not matter. *)
Theorem C144_slots :
  forall lm (T U : Type) (dT : T) M K dl H G depth1 depth2 (g1 g2 : PlanarGraph (FO lm) T U) os1 os2 ws1 ws2 x1 x2, steady M K dl H G ->
  (forall n, In n (nodes g1) -> pfin (position n)) -> planar_f32 g1 -> (forall n, In n (nodes g2) -> pfin (position n)) -> planar_f32 g2 ->
  calm dT M K dl H G depth1 (exact_graph g1) os1 -> calm dT M K dl H G depth2 (exact_graph g2) os2 ->
  same_drawing (places g1) (edges g1) (places g2) (edges g2) ->
  tells dT drawn value_x (exact_graph g1) (map exact_op os1) ws1 x1 -> tells dT drawn value_x (exact_graph g2) (map exact_op os2) ws2 x2 ->
  List.Forall2 same_word ws1 ws2 ->
  exists h1 a1 h2 a2, calls dT g1 os1 = Ok (h1, a1) /\ calls dT g2 os2 = Ok (h2, a2) /\ alike (2 * drift M K G) h1 h2.
Proof.
  intros lm T U dT M K dl H G depth1 depth2 g1 g2 os1 os2 ws1 ws2 x1 x2 St. exact (margin_slots dT M K dl H G St depth1 depth2 g1 g2 os1 os2 ws1 ws2 x1 x2).
Qed.
Print Assumptions C144_slots.

(** Nodes and segments may be added in any order. *)
Theorem C144_order :
  forall lm (T U : Type) (dT : T) M K dl H G depth1 depth2 (g : PlanarGraph (FO lm) T U) os1 os2 l1 l2 x1 x2, steady M K dl H G ->
  (forall n, In n (nodes g) -> pfin (position n)) -> planar_f32 g ->
  calm dT M K dl H G depth1 (exact_graph g) os1 -> calm dT M K dl H G depth2 (exact_graph g) os2 ->
  asks dT drawn (exact_graph g) (map exact_op os1) l1 x1 -> asks dT drawn (exact_graph g) (map exact_op os2) l2 x2 -> same_strokes l1 l2 ->
  exists h1 a1 h2 a2, calls dT g os1 = Ok (h1, a1) /\ calls dT g os2 = Ok (h2, a2) /\ alike (2 * drift M K G) h1 h2.
Proof.
  intros lm T U dT M K dl H G depth1 depth2 g os1 os2 l1 l2 x1 x2 St. exact (margin_order dT M K dl H G St depth1 depth2 g os1 os2 l1 l2 x1 x2).
Qed.
Print Assumptions C144_order.

(** ** Examples, on the drawing of C126: the same drawing with other slots, where the nodes
    are in reverse order, and so are the edges, one of them with the ends swapped. *)
Section Example.
Variable lm : Libm.
Local Notation graph := (PlanarGraph (FO lm) nat nat).
Let v := bpow radix2 (-15).
Let w := v / IZR den.
Let M := 13 * v.
Let dl := IZR den * w.
Let depth : point -> nat := depth_at w deep.
Definition ends2 : list (Z * Z) := rev ends.
Definition start2 : graph := MkGraph (map (grid_node lm) ends2) [MkEdge 2 1 3%nat DEFAULT_LABEL; MkEdge 5 6 4%nat DEFAULT_LABEL].
Definition crossing_hist2 : list (@op (FO lm) nat nat) := [OAddEdge 3 4 1%nat; OAddEdge 0 7 2%nat; ORemoveNode 7].
Definition ends_z2 : list zpt := map (fun p => (fst p * den, snd p * den)%Z) ends2.

Lemma ends2_small : forall p, In p ends2 -> (-12 <= fst p <= 12)%Z /\ (-12 <= snd p <= 12)%Z.
Proof. intros p H. unfold ends2 in H. apply in_rev in H. now apply ends_small. Qed.
Lemma start2_fin : forall n, In n (nodes start2) -> pfin (position n).
Proof. intros n H. cbn [start2 nodes] in H. apply in_map_iff in H. destruct H as (p & <- & Hp). destruct (ends2_small p Hp). now apply grid_real. Qed.
Lemma start2_exact : exact_graph start2 = MkGraph (map (fun x => MkNode (xp x) 0%nat DEFAULT_LABEL) (map (at_w w) ends_z2)) (edges start2).
Proof.
  unfold exact_graph, start2. cbn [nodes edges]. f_equal. unfold ends_z2. rewrite !map_map. apply map_ext_in. intros p Hp. destruct (ends2_small p Hp) as [H1 H2].
  unfold exact_node, grid_node. cbn [position ndata nlabel]. now rewrite (proj2 (grid_real lm _ _ H1 H2)).
Qed.
Lemma start2_planar : planar_drawing (pt (map (at_w w) ends_z2)) (length (map (at_w w) ends_z2)) (edges start2).
Proof.
  pose proof (at_spaced w w_pos den ends_z2 (edges start2) ltac:(vm_compute; reflexivity)) as (V & A & C). pose proof (dl_pos w w_pos den den_pos) as Pd. split.
  - intros k e Hk He NT On. pose proof (C k e Hk He NT _ On) as Q. rewrite dist_self0 in Q. lra.
  - assert (Z : forall y, on_segment (pt (map (at_w w) ends_z2) 5) (pt (map (at_w w) ends_z2) 6) y -> on_segment (pt (map (at_w w) ends_z2) 2) (pt (map (at_w w) ends_z2) 1) y -> False).
    { intros y H1 H2. apply (beside_apart M 23 dl sim_fine (pt (map (at_w w) ends_z2) 5) (pt (map (at_w w) ends_z2) 6) (pt (map (at_w w) ends_z2) 2) (pt (map (at_w w) ends_z2) 1) y); [| |exact H2|exact H1].
      - intros E. assert (L0 : (5 < length (map (at_w w) ends_z2))%nat) by (cbn; lia). assert (L1 : (6 < length (map (at_w w) ends_z2))%nat) by (cbn; lia).
        pose proof (A 5%nat 6%nat L0 L1 ltac:(lia)) as Q. rewrite E, dist_self0 in Q. lra.
      - rewrite !at_pt. apply (at_beside w w_pos den). vm_compute. reflexivity. }
    intros i j ei ej x N Hi Hj O1 O2. destruct i as [|[|i]], j as [|[|j]]; try congruence; try (destruct j; discriminate); try (destruct i; discriminate).
    + injection Hi as <-. injection Hj as <-. destruct (Z x O2 O1).
    + injection Hi as <-. injection Hj as <-. destruct (Z x O1 O2).
Qed.
Lemma start2_holds : holds w 0%nat (exact_graph start2) ends_z2 (edges start2).
Proof. rewrite start2_exact. split; [reflexivity|]. split; [reflexivity|exact start2_planar]. Qed.
Lemma start_places : places (start lm) = map (at_w w) ends_z.
Proof. apply (drawn_fun (exact_graph (start lm))); [apply exact_drawn|exact (holds_drawn w 0%nat _ _ _ (start_holds lm))]. Qed.
Lemma start2_places : places start2 = map (at_w w) ends_z2.
Proof. apply (drawn_fun (exact_graph start2)); [apply exact_drawn|exact (holds_drawn w 0%nat _ _ _ start2_holds)]. Qed.
Lemma start2_plane : planar_f32 start2.
Proof. apply planar_places. rewrite start2_places. exact start2_planar. Qed.
Lemma start_same : same_drawing (places (start lm)) (edges (start lm)) (places start2) (edges start2).
Proof.
  rewrite start_places, start2_places. split; [|split; [reflexivity|split; [reflexivity|]]].
  - intros x. unfold ends_z2, ends2. rewrite map_rev, map_rev, <- in_rev. reflexivity.
  - split; intros e He; cbn [start start2 edges In] in He; destruct He as [<-|[<-|[]]].
    + eexists. split; [right; left; reflexivity|]. right. split; reflexivity.
    + eexists. split; [left; reflexivity|]. left. split; reflexivity.
    + eexists. split; [right; left; reflexivity|]. left. split; reflexivity.
    + eexists. split; [left; reflexivity|]. right. split; reflexivity.
Qed.
Definition es1' : list (Edge nat) := z_split ends_z2 (edges start2 ++ [MkEdge 3 4 1%nat DEFAULT_LABEL]) [cross1].
Definition zs1' : list zpt := ends_z2 ++ [cross1].
Definition es2' : list (Edge nat) := z_split zs1' (es1' ++ [MkEdge 0 7 2%nat DEFAULT_LABEL]) [cross2].
Definition zs2' : list zpt := zs1' ++ [cross2].
Definition passes2' : list (option zpt) := map (fun e : Edge nat => if (src e =? 2)%nat then Some cross2 else None) es1'.
Lemma sim2_calm : calm 0%nat M 2 dl 23 2 depth (exact_graph start2) crossing_hist2.
Proof.
  unfold crossing_hist2.
  apply (calm_edge w w_pos w_big den 2 (12 * den) den_pos M 23 2 sim_steady box_v deep 0%nat ends_z2 (edges start2) 3 4 1%nat [None; Some cross1] ltac:(vm_compute; reflexivity) _ _ start2_holds).
  intros g1 H1. change (z_somes [None; Some cross1]) with [cross1] in H1. fold zs1' es1' in H1.
  apply (calm_edge w w_pos w_big den 2 (12 * den) den_pos M 23 2 sim_steady box_v deep 0%nat zs1' es1' 0 7 2%nat passes2' ltac:(vm_compute; reflexivity) _ _ H1).
  intros g2 H2. change (z_somes passes2') with [cross2] in H2. fold zs2' es2' in H2.
  cbn [calm]. split; [|intros; exact I]. exists (map (at_w w) zs2'). split; [exact (holds_drawn w 0%nat _ _ _ H2)|].
  split; [apply (box_in w w_pos (12 * den) M 23 box_v); vm_compute; reflexivity|]. destruct H2 as (_ & E2 & _). rewrite E2. split; [|exact I]. apply (at_spaced w w_pos den). vm_compute. reflexivity.
Qed.
(** The words of the two histories. *)
Definition at_end (k : nat) : point := at_w w (zpt_at ends_z k).
Definition crossing_words : list word := [Join (at_end 2) (at_end 3); Join (at_w w cross1) (at_end 6); Drop (at_w w cross1)].
Definition crossing_words2 : list word := [Join (at_end 3) (at_end 2); Join (at_end 6) (at_w w cross1); Drop (at_w w cross1)].
Lemma exact_calls : forall (g : graph) os, (forall n, In n (nodes g) -> pfin (position n)) -> planar_f32 g -> calm (lm := lm) 0%nat M 2 dl 23 2 depth (exact_graph g) os ->
  match calls 0%nat g os with Ok _ => true | Panic => false end = true -> exists x l, calls 0%nat (exact_graph g) (map exact_op os) = Ok (x, l).
Proof.
  intros g os Fin Pl C B. pose proof (drift_histories lm 0%nat M 2 dl 23 2 depth sim_steady os g Fin Pl C) as A.
  destruct (calls 0%nat g os) as [[h l]|]; [|discriminate]. destruct (calls 0%nat (exact_graph g) (map exact_op os)) as [[x l']|]; [eexists _, _; reflexivity|destruct A].
Qed.
Example C144_example :
  exists x1 x2, steady M 2 dl 23 2 /\ (forall n, In n (nodes (start lm)) -> pfin (position n)) /\ planar_f32 (start lm) /\
  (forall n, In n (nodes start2) -> pfin (position n)) /\ planar_f32 start2 /\
  calm 0%nat M 2 dl 23 2 depth (exact_graph (start lm)) (crossing_hist lm) /\ calm 0%nat M 2 dl 23 2 depth (exact_graph start2) crossing_hist2 /\
  same_drawing (places (start lm)) (edges (start lm)) (places start2) (edges start2) /\
  tells 0%nat drawn value_x (exact_graph (start lm)) (map exact_op (crossing_hist lm)) crossing_words x1 /\
  tells 0%nat drawn value_x (exact_graph start2) (map exact_op crossing_hist2) crossing_words2 x2 /\
  List.Forall2 same_word crossing_words crossing_words2 /\ exists g l, calls 0%nat (start lm) (crossing_hist lm) = Ok (g, l).
Proof.
  destruct (exact_calls (start lm) (crossing_hist lm) (start_fin lm) (start_plane lm) (sim_calm lm) ltac:(vm_compute; reflexivity)) as (x1 & l1 & R1).
  destruct (exact_calls start2 crossing_hist2 start2_fin start2_plane sim2_calm ltac:(vm_compute; reflexivity)) as (x2 & l2 & R2).
  exists x1, x2. split; [exact sim_steady|]. split; [exact (start_fin lm)|]. split; [exact (start_plane lm)|]. split; [exact start2_fin|]. split; [exact start2_plane|].
  split; [exact (sim_calm lm)|]. split; [exact sim2_calm|]. split; [exact start_same|]. split; [|split; [|split]].
  - cbn [crossing_hist map exact_op calls call] in *. apply bind_ok in R1. destruct R1 as ([ga a] & Ha & R1). apply bind_ok in Ha. destruct Ha as ([ga' ra] & Ha & E). injection E as <- _.
    apply bind_ok in R1. destruct R1 as ([gt lt] & R1 & E). injection E as <- _. apply bind_ok in R1. destruct R1 as ([gb b] & Hb & R1). apply bind_ok in Hb. destruct Hb as ([gb' rb] & Hb & E). injection E as <- _.
    apply bind_ok in R1. destruct R1 as ([gu lu] & R1 & E). injection E as <- _. apply bind_ok in R1. destruct R1 as ([gc c] & Hc & R1). apply bind_ok in Hc. destruct Hc as ([gc' [nc ec]] & Hc & E). injection E as <- _.
    cbn [bind] in R1. injection R1 as <- _.
    pose proof (call_result w w_pos w_big den 2 (12 * den) den_pos M 23 2 sim_steady box_v deep 0%nat ends_z (edges (start lm)) 2 3 9%nat [Some cross1; None] ltac:(vm_compute; reflexivity) _ ga' ra (start_holds lm) Ha) as H1.
    change (z_somes [Some cross1; None]) with [cross1] in H1. fold zs1 in H1. change (holds w 0%nat ga' zs1 (es1 lm)) in H1.
    pose proof (call_result w w_pos w_big den 2 (12 * den) den_pos M 23 2 sim_steady box_v deep 0%nat zs1 (es1 lm) 7 6 10%nat (passes2 lm) ltac:(vm_compute; reflexivity) _ gb' rb H1 Hb) as H2.
    change (z_somes (passes2 lm)) with [cross2] in H2. change (holds w 0%nat gb' zs2 (es2 lm)) in H2.
    pose proof (holds_drawn w 0%nat _ _ _ (start_holds lm)) as D0. pose proof (holds_drawn w 0%nat _ _ _ H1) as D1. pose proof (holds_drawn w 0%nat _ _ _ H2) as D2.
    eapply tells_cons; [exact D0| |cbn [step]; rewrite Ha; reflexivity|].
    { apply (means_join value_x _ (map (at_w w) ends_z) 2 3 9%nat); cbn; lia. }
    eapply tells_cons; [exact D1| |cbn [step]; rewrite Hb; reflexivity|].
    { apply (means_join value_x _ (map (at_w w) zs1) 7 6 10%nat); cbn; lia. }
    eapply tells_cons; [exact D2| |cbn [step]; rewrite Hc; reflexivity|constructor].
    apply (means_drop value_x _ (map (at_w w) zs2) 7). cbn; lia.
  - cbn [crossing_hist2 map exact_op calls call] in *. apply bind_ok in R2. destruct R2 as ([ga a] & Ha & R2). apply bind_ok in Ha. destruct Ha as ([ga' ra] & Ha & E). injection E as <- _.
    apply bind_ok in R2. destruct R2 as ([gt lt] & R2 & E). injection E as <- _. apply bind_ok in R2. destruct R2 as ([gb b] & Hb & R2). apply bind_ok in Hb. destruct Hb as ([gb' rb] & Hb & E). injection E as <- _.
    apply bind_ok in R2. destruct R2 as ([gu lu] & R2 & E). injection E as <- _. apply bind_ok in R2. destruct R2 as ([gc c] & Hc & R2). apply bind_ok in Hc. destruct Hc as ([gc' [nc ec]] & Hc & E). injection E as <- _.
    cbn [bind] in R2. injection R2 as <- _.
    pose proof (call_result w w_pos w_big den 2 (12 * den) den_pos M 23 2 sim_steady box_v deep 0%nat ends_z2 (edges start2) 3 4 1%nat [None; Some cross1] ltac:(vm_compute; reflexivity) _ ga' ra start2_holds Ha) as H1.
    change (z_somes [None; Some cross1]) with [cross1] in H1. change (holds w 0%nat ga' zs1' es1') in H1.
    pose proof (call_result w w_pos w_big den 2 (12 * den) den_pos M 23 2 sim_steady box_v deep 0%nat zs1' es1' 0 7 2%nat passes2' ltac:(vm_compute; reflexivity) _ gb' rb H1 Hb) as H2.
    change (z_somes passes2') with [cross2] in H2. change (holds w 0%nat gb' zs2' es2') in H2.
    pose proof (holds_drawn w 0%nat _ _ _ start2_holds) as D0. pose proof (holds_drawn w 0%nat _ _ _ H1) as D1. pose proof (holds_drawn w 0%nat _ _ _ H2) as D2.
    eapply tells_cons; [exact D0| |cbn [step]; rewrite Ha; reflexivity|].
    { apply (means_join value_x _ (map (at_w w) ends_z2) 3 4 1%nat); cbn; lia. }
    eapply tells_cons; [exact D1| |cbn [step]; rewrite Hb; reflexivity|].
    { apply (means_join value_x _ (map (at_w w) zs1') 0 7 2%nat); cbn; lia. }
    eapply tells_cons; [exact D2| |cbn [step]; rewrite Hc; reflexivity|constructor].
    apply (means_drop value_x _ (map (at_w w) zs2') 7). cbn; lia.
  - constructor; [right; split; reflexivity|]. constructor; [right; split; reflexivity|]. constructor; [reflexivity|constructor].
  - assert (B : match calls 0%nat (start lm) (crossing_hist lm) with Ok _ => true | Panic => false end = true) by (vm_compute; reflexivity).
    destruct (calls 0%nat (start lm) (crossing_hist lm)) as [[g l]|]; [now exists g, l|discriminate].
Qed.

(** The two segments of C127 and a node asked for where one is: first the node and then the
    segments, or the segments in the other order and then the node. *)
Lemma again : forall (gx : PlanarGraph XO nat nat) zs es k dat, holds w 0%nat gx zs es -> spaced dl (map (at_w w) zs) es -> (k < length zs)%nat ->
  add_node gx (xp (at_w w (zpt_at zs k))) dat = Ok (gx, (k, [])).
Proof.
  intros gx zs es k dat Hh Sp Lk. pose proof (holds_drawn w 0%nat _ _ _ Hh) as D. pose proof Hh as (En & Ee & _).
  assert (Lx : length (map (at_w w) zs) = length (nodes gx)) by (symmetry; exact (drawn_length _ _ D)).
  assert (V : valid gx). { intros e He. rewrite Ee in He. destruct (proj1 Sp e He) as (_ & V1 & V2). rewrite <- Lx. split; assumption. }
  assert (P : forall i n, nth_error (nodes gx) i = Some n -> (i < length (map (at_w w) zs))%nat /\ position n = xp (pt (map (at_w w) zs) i)).
  { intros i n Hi. destruct (drawn_nth gx _ i n D Hi) as [A B]. split; assumption. }
  destruct (add_node_cases XO_laws gx (xp (at_w w (zpt_at zs k))) dat V) as (g' & i & ces & H & [(_ & -> & -> & n & Hn & Lt)|(F & _)]); rewrite <- at_pt in *.
  - rewrite H. destruct (P i n Hn) as [Li Pn]. rewrite Pn, distance_xp in Lt. apply olt_eps in Lt. destruct (Nat.eq_dec i k) as [->|N]; [reflexivity|]. exfalso.
    rewrite map_length in Li. pose proof (proj1 (proj2 Sp) k i ltac:(rewrite map_length; exact Lk) ltac:(rewrite map_length; exact Li) ltac:(congruence)) as Q.
    assert (eps32 < dl) by (assert (Ed : dl = v) by exact den_v; rewrite Ed; unfold v, eps32; cbn; lra). lra.
  - exfalso. apply F. destruct (nth_error (nodes gx) k) as [n|] eqn:Hn; [|apply nth_error_None in Hn; rewrite <- Lx, map_length in Hn; lia].
    exists k, n. split; [exact Hn|]. rewrite (proj2 (P k n Hn)), distance_xp. apply olt_eps. rewrite dist_self0. exact eps32_pos.
Qed.
Definition dot0 : @op (FO lm) nat nat := OAddNode (grid_pt lm (-10) (-4)) 5%nat.
Definition dot_first : list (@op (FO lm) nat nat) := dot0 :: adds segs1.
Definition dot_last : list (@op (FO lm) nat nat) := adds segs2 ++ [dot0].
Definition zs12 : list zpt := zs1 ++ [cross4; cross3].
Definition zs22 : list zpt := zs3 ++ [cross1; cross3].
Definition es22 : list (Edge nat) := z_split zs3 (es3 lm ++ [MkEdge 2 3 9%nat DEFAULT_LABEL]) [cross1; cross3].
Lemma dot0_real : pfin (grid_pt lm (-10) (-4)) /\ real_point (grid_pt lm (-10) (-4)) = at_w w (zpt_at ends_z 0).
Proof. destruct (grid_real lm (-10) (-4)) as [A B]; [lia|lia|]. split; [exact A|]. rewrite B. reflexivity. Qed.
Lemma dot_calm : forall gx zs es (os : list (@op (FO lm) nat nat)), holds w 0%nat gx (ends_z ++ zs) es -> z_spaced den (ends_z ++ zs) es = true -> forallb (z_box (12 * den)) (ends_z ++ zs) = true ->
  calm (lm := lm) 0%nat M 2 dl 23 2 depth gx os -> calm (lm := lm) 0%nat M 2 dl 23 2 depth gx (dot0 :: os).
Proof.
  intros gx zs es os Hh Sp Bx C. cbn [calm]. pose proof (at_spaced w w_pos den _ _ Sp) as Sp'. split.
  - exists (map (at_w w) (ends_z ++ zs)). split; [exact (holds_drawn w 0%nat _ _ _ Hh)|]. split; [exact (box_in w w_pos (12 * den) M 23 box_v _ Bx)|].
    rewrite (proj1 (proj2 Hh)). split; [exact Sp'|]. split; [exact (proj1 dot0_real)|]. left. exists 0%nat. split; [cbn; lia|]. rewrite (proj2 dot0_real), at_pt. change (zpt_at (ends_z ++ zs) 0) with (zpt_at ends_z 0).
    rewrite dist_self0. unfold slip, M, v, u32. cbn. lra.
  - intros g' Hs. unfold dot0 in Hs. cbn [step exact_op] in Hs. rewrite (proj2 dot0_real) in Hs. pose proof (again gx (ends_z ++ zs) es 0 5%nat Hh Sp' ltac:(cbn; lia)) as Q.
    change (zpt_at (ends_z ++ zs) 0) with (zpt_at ends_z 0) in Q. rewrite Q in Hs. injection Hs as <-. exact C.
Qed.
Definition strokes1 : list stroke := [Dot (at_end 0); Line (at_end 2) (at_end 3); Line (at_end 0) (at_end 6)].
Definition strokes2 : list stroke := [Line (at_end 0) (at_end 6); Line (at_end 2) (at_end 3); Dot (at_end 0)].
Example C144_order_example :
  exists x1 x2, steady M 2 dl 23 2 /\ (forall n, In n (nodes (start lm)) -> pfin (position n)) /\ planar_f32 (start lm) /\
  calm 0%nat M 2 dl 23 2 depth (exact_graph (start lm)) dot_first /\ calm 0%nat M 2 dl 23 2 depth (exact_graph (start lm)) dot_last /\
  asks 0%nat drawn (exact_graph (start lm)) (map exact_op dot_first) strokes1 x1 /\ asks 0%nat drawn (exact_graph (start lm)) (map exact_op dot_last) strokes2 x2 /\
  same_strokes strokes1 strokes2.
Proof.
  destruct (C127_example lm) as (_ & _ & _ & _ & _ & Nj & C1 & C2). pose proof (start_holds lm) as H0.
  assert (Ca : calm (lm := lm) 0%nat M 2 dl 23 2 depth (exact_graph (start lm)) dot_first).
  { unfold dot_first. apply (dot_calm _ [] (edges (start lm))); [exact H0|vm_compute; reflexivity|vm_compute; reflexivity|exact C1]. }
  assert (Cb : calm (lm := lm) 0%nat M 2 dl 23 2 depth (exact_graph (start lm)) dot_last).
  { apply (calm_edge w w_pos w_big den 2 (12 * den) den_pos M 23 2 sim_steady box_v deep 0%nat ends_z (edges (start lm)) 0 6 10%nat [None; Some cross4] ltac:(vm_compute; reflexivity) _ _ H0).
    intros g1 H1. change (z_somes [None; Some cross4]) with [cross4] in H1. change (holds w 0%nat g1 zs3 (es3 lm)) in H1.
    apply (calm_edge w w_pos w_big den 2 (12 * den) den_pos M 23 2 sim_steady box_v deep 0%nat zs3 (es3 lm) 2 3 9%nat [Some cross1; None; Some cross3; None; None] ltac:(vm_compute; reflexivity) _ _ H1).
    intros g2 H2. change (holds w 0%nat g2 (ends_z ++ [cross4; cross1; cross3]) es22) in H2.
    apply (dot_calm _ [cross4; cross1; cross3] es22); [exact H2|vm_compute; reflexivity|vm_compute; reflexivity|exact I]. }
  destruct (exact_calls (start lm) dot_first (start_fin lm) (start_plane lm) Ca ltac:(vm_compute; reflexivity)) as (x1 & a1 & R1).
  destruct (exact_calls (start lm) dot_last (start_fin lm) (start_plane lm) Cb ltac:(vm_compute; reflexivity)) as (x2 & a2 & R2).
  pose proof (holds_drawn w 0%nat _ _ _ H0) as D0.
  pose proof (again _ ends_z (edges (start lm)) 0 5%nat H0 (at_spaced w w_pos den ends_z (edges (start lm)) ltac:(vm_compute; reflexivity)) ltac:(cbn; lia)) as Z0.
  exists x1, x2. split; [exact sim_steady|]. split; [exact (start_fin lm)|]. split; [exact (start_plane lm)|]. split; [exact Ca|]. split; [exact Cb|]. split; [|split].
  - unfold strokes1, dot_first, dot0, adds, segs1 in R1 |- *. cbn [map exact_op calls call fst snd] in R1 |- *. rewrite (proj2 dot0_real) in R1 |- *. rewrite Z0 in R1. cbn [bind] in R1.
    apply bind_ok in R1. destruct R1 as ([gt lt] & R1 & E). injection E as -> _. apply bind_ok in R1. destruct R1 as ([ga a] & Ha & R1). apply bind_ok in Ha. destruct Ha as ([ga' ra] & Ha & E). injection E as <- _.
    apply bind_ok in R1. destruct R1 as ([gu lu] & R1 & E). injection E as -> _. apply bind_ok in R1. destruct R1 as ([gb b] & Hb & R1). apply bind_ok in Hb. destruct Hb as ([gb' rb] & Hb & E). injection E as <- _.
    cbn [bind] in R1. injection R1 as <- _.
    pose proof (call_result w w_pos w_big den 2 (12 * den) den_pos M 23 2 sim_steady box_v deep 0%nat ends_z (edges (start lm)) 2 3 9%nat [Some cross1; None] ltac:(vm_compute; reflexivity) _ ga' ra H0 Ha) as H1.
    change (holds w 0%nat ga' zs1 (es1 lm)) in H1. pose proof (holds_drawn w 0%nat _ _ _ H1) as D1.
    change (at_end 0) with (pt (map (at_w w) ends_z) 0) at 1. eapply asks_node; [exact Z0|exact D0|].
    change (at_end 2) with (pt (map (at_w w) ends_z) 2). change (at_end 3) with (pt (map (at_w w) ends_z) 3).
    eapply asks_edge; [| | |exact Ha|exact D0|].
    { apply (Nj (2, 3)%nat). left. reflexivity. }
    { cbn; lia. }
    { cbn; lia. }
    change (at_end 0) with (pt (map (at_w w) zs1) 0). change (at_end 6) with (pt (map (at_w w) zs1) 6).
    eapply asks_edge; [| | |exact Hb|exact D1|constructor].
    { intros (e & He & J). rewrite (proj1 (proj2 H1)) in He. vm_compute in He. repeat (destruct He as [<-|He]; [destruct J as [[A B]|[A B]]; cbn in A, B; discriminate|]). destruct He. }
    { rewrite (drawn_length _ _ D1). cbn; lia. }
    { rewrite (drawn_length _ _ D1). cbn; lia. }
  - unfold strokes2, dot_last, dot0, adds, segs2 in R2 |- *. cbn [map app exact_op calls call fst snd] in R2 |- *. rewrite (proj2 dot0_real) in R2 |- *.
    apply bind_ok in R2. destruct R2 as ([ga a] & Ha & R2). apply bind_ok in Ha. destruct Ha as ([ga' ra] & Ha & E). injection E as <- _.
    apply bind_ok in R2. destruct R2 as ([gu lu] & R2 & E). injection E as -> _. apply bind_ok in R2. destruct R2 as ([gb b] & Hb & R2). apply bind_ok in Hb. destruct Hb as ([gb' rb] & Hb & E). injection E as <- _.
    apply bind_ok in R2. destruct R2 as ([gv lv] & R2 & E). injection E as -> _.
    pose proof (call_result w w_pos w_big den 2 (12 * den) den_pos M 23 2 sim_steady box_v deep 0%nat ends_z (edges (start lm)) 0 6 10%nat [None; Some cross4] ltac:(vm_compute; reflexivity) _ ga' ra H0 Ha) as H1.
    change (holds w 0%nat ga' zs3 (es3 lm)) in H1. pose proof (holds_drawn w 0%nat _ _ _ H1) as D1.
    pose proof (call_result w w_pos w_big den 2 (12 * den) den_pos M 23 2 sim_steady box_v deep 0%nat zs3 (es3 lm) 2 3 9%nat [Some cross1; None; Some cross3; None; None] ltac:(vm_compute; reflexivity) _ gb' rb H1 Hb) as H2.
    change (holds w 0%nat gb' zs22 es22) in H2. pose proof (holds_drawn w 0%nat _ _ _ H2) as D2.
    pose proof (again _ zs22 es22 0 5%nat H2 (at_spaced w w_pos den zs22 es22 ltac:(vm_compute; reflexivity)) ltac:(cbn; lia)) as Z2. change (zpt_at zs22 0) with (zpt_at ends_z 0) in Z2.
    rewrite Z2 in R2. cbn [bind] in R2. injection R2 as <- _.
    change (at_end 0) with (pt (map (at_w w) ends_z) 0) at 1. change (at_end 6) with (pt (map (at_w w) ends_z) 6).
    eapply asks_edge; [| | |exact Ha|exact D0|].
    { apply (Nj (0, 6)%nat). right. left. reflexivity. }
    { cbn; lia. }
    { cbn; lia. }
    change (at_end 2) with (pt (map (at_w w) zs3) 2). change (at_end 3) with (pt (map (at_w w) zs3) 3).
    eapply asks_edge; [| | |exact Hb|exact D1|].
    { intros (e & He & J). rewrite (proj1 (proj2 H1)) in He. vm_compute in He. repeat (destruct He as [<-|He]; [destruct J as [[A B]|[A B]]; cbn in A, B; discriminate|]). destruct He. }
    { rewrite (drawn_length _ _ D1). cbn; lia. }
    { rewrite (drawn_length _ _ D1). cbn; lia. }
    change (at_end 0) with (pt (map (at_w w) zs22) 0). eapply asks_node; [exact Z2|exact D2|constructor].
  - split; [|apply perm_swap]. intros x. clear. unfold dotted, strokes1, strokes2. cbn [In]. split; intros H; repeat (destruct H as [H|H]; [try discriminate; tauto|]); destruct H.
Qed.
End Example.
