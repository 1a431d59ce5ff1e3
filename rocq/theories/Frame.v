(** * Edges that a call does not meet may be left out (proofs for C155). *)
From Coq Require Import List Arith Bool Lia Reals Lra ZArith.
From Flocq Require Import Core.Core IEEE754.BinarySingleNaN.
From Verif Require Import Scalar Utils Polygon Graph GraphSpec PlaneSpec PlanarSpec F32 Laws UtilsReal GraphAdd UtilsF32 GraphPlanar LoopsSpec Loops FrameSpec.
Import ListNotations.

Lemma chosen_app : forall A m1 m2 (l1 l2 : list A), length m1 = length l1 -> chosen (m1 ++ m2) (l1 ++ l2) = chosen m1 l1 ++ chosen m2 l2.
Proof.
  induction m1 as [|b m1 IH]; intros m2 [|x l1] l2 H; try discriminate; [reflexivity|]. cbn [app chosen]. cbn in H.
  rewrite IH by lia. now destruct b.
Qed.
Lemma chosen_all : forall A (l : list A), chosen (repeat true (length l)) l = l.
Proof. induction l as [|x l IH]; [reflexivity|]. cbn. now rewrite IH. Qed.
Lemma left_app : forall A m1 m2 (l1 l2 : list A), length m1 = length l1 -> left_out (m1 ++ m2) (l1 ++ l2) = left_out m1 l1 ++ left_out m2 l2.
Proof. intros. unfold left_out. rewrite map_app. apply chosen_app. now rewrite map_length. Qed.
Lemma left_none : forall A (l : list A), left_out (repeat true (length l)) l = [].
Proof. unfold left_out. induction l as [|x l IH]; [reflexivity|]. exact IH. Qed.
Lemma chosen_grown : forall A m (l1 l2 : list A), length m = length l1 -> chosen (grown m (length (l1 ++ l2))) (l1 ++ l2) = chosen m l1 ++ l2.
Proof.
  intros A m l1 l2 H. unfold grown. rewrite chosen_app by exact H. f_equal. rewrite app_length, H.
  replace (length l1 + length l2 - length l1)%nat with (length l2) by lia. apply chosen_all.
Qed.
Lemma left_grown : forall A m (l1 l2 : list A), length m = length l1 -> left_out (grown m (length (l1 ++ l2))) (l1 ++ l2) = left_out m l1.
Proof.
  intros A m l1 l2 H. unfold grown. rewrite left_app by exact H. rewrite app_length, H.
  replace (length l1 + length l2 - length l1)%nat with (length l2) by lia. rewrite left_none. apply app_nil_r.
Qed.
Lemma grown_len : forall m n, (length m <= n)%nat -> length (grown m n) = n.
Proof. intros. unfold grown. rewrite app_length, repeat_length. lia. Qed.
Lemma grown_grown : forall m n k, (length m <= n)%nat -> (n <= k)%nat -> grown (grown m n) k = grown m k.
Proof.
  intros m n k H1 H2. unfold grown at 1. rewrite grown_len by exact H1. unfold grown. rewrite <- app_assoc, <- repeat_app. do 2 f_equal. lia.
Qed.
Lemma grown_same : forall m, grown m (length m) = m.
Proof. intros. unfold grown. rewrite Nat.sub_diag. apply app_nil_r. Qed.
Lemma left_in : forall A m (l : list A) x, In x (left_out m l) -> In x l.
Proof.
  unfold left_out. induction m as [|b m IH]; intros [|y l] x H; try contradiction. cbn in H. destruct b; cbn in H; [right; now apply IH|].
  destruct H as [->|H]; [now left|right; now apply IH].
Qed.

Section Any.
Context {O : Ops} {T U : Type} (dT : T).
Local Notation graph := (PlanarGraph O T U).
Local Notation edge := (Edge U).

Lemma index_some : forall A (l : list A) i x, index l i = Ok x <-> nth_error l i = Some x.
Proof. intros. unfold index. destruct (nth_error l i); split; intros H; inv H; reflexivity. Qed.

Lemma frame_loop : forall (ns : list (Node O T)) id c, nth_error ns id = Some c ->
  forall m (es : list edge) idx idx' rw ad ch, length m = length es -> (forall e, In e (left_out m es) -> misses ns e (position c)) ->
  split_at_node_loop ns id idx es = Ok (rw, ad, ch) ->
  exists ch', split_at_node_loop ns id idx' (chosen m es) = Ok (chosen m rw, ad, ch') /\
    left_out m rw = left_out m es /\ length rw = length es.
Proof.
  intros ns id c Hid. induction m as [|k m IH]; intros [|e es] idx idx' rw ad ch L M H; try discriminate.
  - cbn [split_at_node_loop] in H. inv H. now exists [].
  - cbn [split_at_node_loop] in H. apply bind_ok in H. destruct H as (a & Ha & H). apply bind_ok in H. destruct H as (b & Hb & H).
    apply bind_ok in H. destruct H as (c' & Hc & H). apply bind_ok in H. destruct H as ([[rw1 ad1] ch1] & H1 & H).
    pose proof Hc as Hc'. apply index_some in Hc'. rewrite Hid in Hc'. inv Hc'. cbn in L.
    unfold left_out in *. cbn [map] in *. destruct k; cbn [negb chosen] in *.
    + destruct (IH es (S idx) (S idx') rw1 ad1 ch1 ltac:(lia) M H1) as (ch' & E1 & E2 & E3).
      cbn [split_at_node_loop]. rewrite Ha, Hb, Hc. cbn [bind]. rewrite E1. cbn [bind].
      destruct (is_on_line_segment (position a) (position b) (position c') false); inv H; eexists; cbn [chosen length]; (split; [reflexivity|]); rewrite E3; auto.
    + destruct (M e (or_introl eq_refl)) as (a' & b' & A1 & B1 & Off). apply index_some in Ha, Hb. rewrite Ha in A1; rewrite Hb in B1. inv A1. inv B1. rewrite Off in H. inv H.
      destruct (IH es (S idx) idx' rw1 ad ch ltac:(lia) (fun e He => M e (or_intror He)) H1) as (ch' & E1 & E2 & E3).
      exists ch'. cbn [chosen length]. rewrite E2, E3. auto.
Qed.

Lemma frame_split : forall m (g g' : graph) id ces, length m = edge_count g ->
  (forall e n, In e (left_out m (edges g)) -> In n (nodes g) -> misses (nodes g) e (position n)) ->
  split_edges_at_node g id = Ok (g', ces) ->
  nodes g' = nodes g /\ (edge_count g <= edge_count g')%nat /\ left_out (grown m (edge_count g')) (edges g') = left_out m (edges g) /\
  exists ces', split_edges_at_node (part m g) id = Ok (part (grown m (edge_count g')) g', ces').
Proof.
  intros m g g' id ces L M H. unfold split_edges_at_node in *. cbn [nodes part]. destruct (nth_error (nodes g) id) eqn:Hid.
  - apply bind_ok in H. destruct H as ([[rw ad] ch] & H & E). inv E.
    destruct (frame_loop (nodes g) id _ Hid m (edges g) 0 0 rw ad ch L (fun e He => M e _ He (nth_error_In _ _ Hid)) H) as (ch' & E1 & E2 & E3).
    unfold edge_count in *. cbn [edges nodes part]. rewrite E1. cbn [bind]. rewrite left_grown by congruence. unfold part. cbn [nodes edges]. rewrite chosen_grown by congruence.
    split; [reflexivity|]. split; [rewrite app_length; lia|]. split; [exact E2|]. eexists. reflexivity.
  - inv H. unfold edge_count in *. rewrite <- L, grown_same. eauto.
Qed.

Lemma misses_more : forall ns l (e : edge) p, misses (O := O) (T := T) ns e p -> misses (ns ++ l) e p.
Proof.
  intros ns l e p (a & b & A & B & Off). exists a, b. split; [|split; [|exact Off]];
  (rewrite nth_error_app1; [assumption|]; apply nth_error_Some; congruence).
Qed.

Lemma frame_node : forall m (g g' : graph) p v i ces, length m = edge_count g ->
  (forall e n, In e (left_out m (edges g)) -> In n (nodes g) -> misses (nodes g) e (position n)) ->
  (forall e, In e (left_out m (edges g)) -> misses (nodes g) e p) ->
  add_node g p v = Ok (g', (i, ces)) ->
  (forall e n, In e (left_out m (edges g)) -> In n (nodes g') -> misses (nodes g') e (position n)) /\
  (exists l, nodes g' = nodes g ++ l) /\
  (edge_count g <= edge_count g')%nat /\ left_out (grown m (edge_count g')) (edges g') = left_out m (edges g) /\
  exists ces', add_node (part m g) p v = Ok (part (grown m (edge_count g')) g', (i, ces')).
Proof.
  intros m g g' p v i ces L M Mp H. unfold add_node in *. change (gather_node_positions (part m g)) with (gather_node_positions g).
  destruct (find_closest_to p (gather_node_positions g)) as [k dist]. destruct (olt dist ceps).
  { inv H. split; [exact M|]. split; [exists []; now rewrite app_nil_r|]. rewrite <- L, grown_same. eauto. }
  apply bind_ok in H. destruct H as ([g2 ch] & H & E). inv E.
  set (nn := MkNode p v DEFAULT_LABEL) in *. set (g1 := {| nodes := nodes g ++ [nn]; edges := edges g |}) in *.
  assert (M1 : forall e n, In e (left_out m (edges g)) -> In n (nodes g ++ [nn]) -> misses (nodes g ++ [nn]) e (position n)).
  { intros e n He Hn. apply misses_more. apply in_app_or in Hn. destruct Hn as [Hn|[<-|[]]]; [now apply M|now apply Mp]. }
  destruct (frame_split m g1 g' _ _ L M1 H) as (N & E1 & E2 & ces' & E3).
  split; [rewrite N; exact M1|]. split; [exists [nn]; exact N|]. split; [exact E1|]. split; [exact E2|].
  exists ces'. change (split_edges_at_node {| nodes := nodes g ++ [nn]; edges := chosen m (edges g) |} (node_count g1 - 1) = Ok (part (grown m (edge_count g')) g', ces')) in E3.
  cbn [nodes edges part]. change (node_count {| nodes := nodes g ++ [nn]; edges := chosen m (edges g) |}) with (node_count g1).
  rewrite E3. reflexivity.
Qed.

Lemma frame_points : forall ps m (g g' : graph) cn ce ce' cn' x, length m = edge_count g ->
  (forall e n, In e (left_out m (edges g)) -> In n (nodes g) -> misses (nodes g) e (position n)) ->
  (forall e p, In e (left_out m (edges g)) -> In p ps -> misses (nodes g) e p) ->
  split_at_points dT g ps cn ce = Ok (g', (cn', x)) ->
  (edge_count g <= edge_count g')%nat /\ left_out (grown m (edge_count g')) (edges g') = left_out m (edges g) /\
  exists x', split_at_points dT (part m g) ps cn ce' = Ok (part (grown m (edge_count g')) g', (cn', x')).
Proof.
  induction ps as [|p ps IH]; intros m g g' cn ce ce' cn' x L M Mp H.
  - cbn [split_at_points] in *. inv H. rewrite <- L, grown_same. eauto.
  - cbn [split_at_points] in *. change (gather_node_positions (part m g)) with (gather_node_positions g).
    destruct (find_closest_to p (gather_node_positions g)) as [k dist]. destruct (olt dist ceps).
    + apply bind_ok in H. destruct H as ([g1 c1] & H1 & H). destruct (frame_split m _ _ _ _ L M H1) as (N & E1 & E2 & c2 & E3).
      rewrite E3. cbn [bind].
      destruct (IH (grown m (edge_count g1)) g1 g' cn (ce ++ c1) (ce' ++ c2) cn' x) as (Q1 & Q2 & Q3).
      * apply grown_len. lia.
      * rewrite E2, N. exact M.
      * rewrite E2, N. intros e q He Hq. apply Mp; [exact He|now right].
      * exact H.
      * rewrite grown_grown in Q2, Q3 by lia. rewrite E2 in Q2. split; [lia|]. split; [exact Q2|exact Q3].
    + apply bind_ok in H. destruct H as ([g1 [i c1]] & H1 & H).
      destruct (frame_node m _ _ _ _ _ _ L M (fun e He => Mp e p He (or_introl eq_refl)) H1) as (M1 & (l & N) & E1 & E2 & c2 & E3).
      rewrite E3. cbn [bind].
      destruct (IH (grown m (edge_count g1)) g1 g' (cn ++ [i]) (ce ++ c1) (ce' ++ c2) cn' x) as (Q1 & Q2 & Q3).
      * apply grown_len. lia.
      * rewrite E2. exact M1.
      * rewrite E2, N. intros e q He Hq. apply misses_more. apply Mp; [exact He|now right].
      * exact H.
      * rewrite grown_grown in Q2, Q3 by lia. rewrite E2 in Q2. split; [lia|]. split; [exact Q2|exact Q3].
Qed.

Lemma frame_cuts : forall (G G' : graph) id id' e, nodes G' = nodes G -> index (edges G) id = Ok e -> index (edges G') id' = Ok e ->
  forall m es idx idx' l, length m = length es -> (idx + length es = id)%nat -> (idx' + length (chosen m es) = id')%nat ->
  (forall f x, In f (left_out m es) -> ~ cut_at G (src e) (dst e) f x) ->
  intersections_loop G id idx (es ++ [e]) = Ok l ->
  intersections_loop G' id' idx' (chosen m es ++ [e]) = Ok l /\ forall x, In x l -> exists f, In f es /\ cut_at G (src e) (dst e) f x.
Proof.
  intros G G' id id' e N H1 H2. induction m as [|k m IH]; intros [|f es] idx idx' l L L1 L2 M H; try discriminate.
  - cbn in L1, L2. rewrite Nat.add_0_r in L1, L2. subst. cbn [app intersections_loop chosen] in *. rewrite Nat.eqb_refl in *. split; [exact H|].
    cbn [negb] in H. inv H. intros x [].
  - cbn [app intersections_loop] in H. cbn [length] in L, L1. replace (Nat.eqb id idx) with false in H by (symmetry; apply Nat.eqb_neq; lia). cbn [negb] in H.
    apply bind_ok in H. destruct H as (p & Hp & H). apply bind_ok in H. destruct H as (q & Hq & H). rewrite H1 in H. cbn [bind] in H.
    apply bind_ok in H. destruct H as (r & Hr & H). apply bind_ok in H. destruct H as (s & Hs & H). apply bind_ok in H. destruct H as (rest & HR & H).
    assert (C : forall x, calculate_line_segment_intersection (position p) (position q) (position r) (position s) = Some x -> cut_at G (src e) (dst e) f x).
    { intros x Hx. exists p, q, r, s. rewrite <- !index_some. auto. }
    unfold left_out in M. cbn [map] in M. cbn [chosen] in *. destruct k; cbn [negb chosen] in *.
    + cbn [length] in L2. cbn [app intersections_loop]. replace (Nat.eqb id' idx') with false by (symmetry; apply Nat.eqb_neq; lia). cbn [negb].
      rewrite N, Hp, Hq, H2. cbn [bind]. rewrite Hr, Hs. cbn [bind].
      destruct (IH es (S idx) (S idx') rest ltac:(lia) ltac:(lia) ltac:(lia) M HR) as (E1 & E2). rewrite E1. split; [exact H|].
      intros x Hx. destruct (calculate_line_segment_intersection (position p) (position q) (position r) (position s)) as [y|] eqn:Y; inv H.
      * destruct Hx as [<-|Hx]; [exists f; split; [now left|now apply C]|]. destruct (E2 x Hx) as (f' & F1 & F2). exists f'. split; [now right|exact F2].
      * destruct (E2 x Hx) as (f' & F1 & F2). exists f'. split; [now right|exact F2].
    + destruct (IH es (S idx) idx' rest ltac:(lia) ltac:(lia) ltac:(lia) (fun f' x Hf => M f' x (or_intror Hf)) HR) as (E1 & E2).
      destruct (calculate_line_segment_intersection (position p) (position q) (position r) (position s)) as [y|] eqn:Y.
      * exfalso. exact (M f y (or_introl eq_refl) (C y eq_refl)).
      * inv H. split; [exact E1|]. intros x Hx. destruct (E2 x Hx) as (f' & F1 & F2). exists f'. split; [now right|exact F2].
Qed.

Lemma between_chosen : forall s d m (es : list edge), length m = length es ->
  (forall e, In e (left_out m es) -> ~ (src e = s /\ dst e = d \/ src e = d /\ dst e = s)) ->
  edge_between_loop (chosen m es) s d = edge_between_loop es s d.
Proof.
  intros s d. induction m as [|k m IH]; intros [|e es] L M; try discriminate; [reflexivity|]. cbn in L. unfold left_out in M. cbn [map] in M. cbn [chosen].
  destruct k; cbn [negb chosen edge_between_loop] in *; [rewrite IH by (lia || exact M); reflexivity|].
  rewrite IH by (lia || (intros f Hf; apply M; now right)). specialize (M e (or_introl eq_refl)).
  destruct (Nat.eqb_spec s (src e)), (Nat.eqb_spec d (dst e)), (Nat.eqb_spec d (src e)), (Nat.eqb_spec s (dst e)); try reflexivity; exfalso; apply M; intuition congruence.
Qed.

Lemma unique_incl : forall (l : list (Vec2 O)) x, In x (unique_points_among l) -> In x l.
Proof.
  intros l. unfold unique_points_among. generalize l at 1. generalize 0%nat as i. induction l as [|y l IH]; intros i all x H; cbn [unique_loop] in H; [contradiction|].
  destruct (has_close_other y i 0 all); cbn [negb] in H; [right; exact (IH _ _ _ H)|]. destruct H as [<-|H]; [now left|right; exact (IH _ _ _ H)].
Qed.

Lemma frame_edge : forall m (g g' : graph) s d u r, length m = edge_count g ->
  (forall e, In e (left_out m (edges g)) -> unmet g s d e) ->
  add_edge dT g s d u = Ok (g', r) ->
  (edge_count g <= edge_count g')%nat /\ left_out (grown m (edge_count g')) (edges g') = left_out m (edges g) /\
  exists r', add_edge dT (part m g) s d u = Ok (part (grown m (edge_count g')) g', r') /\ new_nodes r' = new_nodes r.
Proof.
  intros m g g' s d u r L M H. unfold add_edge in *. unfold has_edge_between_nodes in *. cbn [edges part].
  rewrite between_chosen by (exact L || (intros e He; apply (M e He))).
  assert (Same : left_out (grown m (edge_count g)) (edges g) = left_out m (edges g) /\ part (grown m (edge_count g)) g = part m g) by now rewrite <- L, grown_same.
  destruct Same as [S1 S2].
  destruct (edge_between_loop (edges g) s d); cbn [negb] in *; [inv H; rewrite S1, S2; eauto|].
  change (get_vertex (part m g)) with (get_vertex g).
  destruct (get_vertex g s); [|inv H; rewrite S1, S2; eauto]. destruct (get_vertex g d); [|inv H; rewrite S1, S2; eauto]. clear S1 S2.
  apply bind_ok in H. destruct H as ([g2 [cn ce]] & H & E). inv E. unfold split_edges_along_edge in *.
  apply bind_ok in H. destruct H as (l & Hl & H). cbn [edges nodes part edge_count] in *.
  set (e := MkEdge s d u DEFAULT_LABEL) in *. set (g1 := {| nodes := nodes g; edges := edges g ++ [e] |}) in *.
  set (g1' := {| nodes := nodes g; edges := chosen m (edges g) ++ [e] |}).
  assert (Hl' : intersections_loop g1' (edge_count g1' - 1) 0 (edges g1') = Ok l /\ forall x, In x l -> exists f, In f (edges g) /\ cut_at g1 s d f x).
  { eapply (frame_cuts g1 g1' _ _ e); [reflexivity|apply index_last'|apply index_last'|exact L| | |intros f x Hf; exact (proj1 (proj2 (proj2 (M f Hf))) x)|exact Hl];
    unfold edge_count; cbn [g1 g1' edges]; rewrite app_length; cbn [length]; lia. }
  destruct Hl' as [Hl' Cuts]. fold g1'. change (edges g1') with (chosen m (edges g) ++ [e]) in Hl'. rewrite Hl'. cbn [bind].
  assert (L1 : length (grown m (edge_count g1)) = edge_count g1) by (apply grown_len; unfold edge_count in *; cbn [g1 edges]; rewrite app_length; lia).
  assert (X : left_out (grown m (edge_count g1)) (edges g1) = left_out m (edges g)) by (apply (left_grown _ m (edges g) [e] L)).
  assert (Y : chosen (grown m (edge_count g1)) (edges g1) = chosen m (edges g) ++ [e]) by (apply (chosen_grown _ m (edges g) [e] L)).
  assert (LE : (length m <= edge_count g1)%nat) by (unfold edge_count in *; cbn [g1 edges]; rewrite app_length; lia).
  destruct (frame_points _ _ _ _ _ _ [] _ _ L1 ltac:(rewrite X; intros f nn Hf; apply (proj1 (M f Hf)))
    ltac:(rewrite X; intros f q Hf Hq; apply unique_incl in Hq; destruct (Cuts q Hq) as (h & Hh & Hc); exact (proj1 (proj2 (M f Hf)) h q Hh Hc)) H) as (E1 & E2 & x' & E3).
  rewrite grown_grown in E2, E3 by lia. rewrite X in E2. split; [unfold edge_count in *; lia|]. split; [exact E2|].
  assert (Z : part (grown m (edge_count g1)) g1 = g1') by (unfold part; rewrite Y; reflexivity). rewrite Z in E3. rewrite E3. cbn [bind].
  eexists. split; reflexivity.
Qed.

Lemma frame_history : forall os m (g g' : graph), length m = edge_count g -> unmets dT m g os -> run dT g os = Ok g' ->
  (edge_count g <= edge_count g')%nat /\ left_out (grown m (edge_count g')) (edges g') = left_out m (edges g) /\
  run dT (part m g) os = Ok (part (grown m (edge_count g')) g').
Proof.
  induction os as [|o os IH]; intros m g g' L M R; cbn [run] in *.
  - inv R. split; [lia|]. now rewrite <- L, grown_same.
  - destruct M as [M N]. apply bind_ok in R. destruct R as (g1 & S & R).
    assert (K : (edge_count g <= edge_count g1)%nat /\ left_out (grown m (edge_count g1)) (edges g1) = left_out m (edges g) /\ step dT (part m g) o = Ok (part (grown m (edge_count g1)) g1)).
    { destruct o as [p v|s d u|i|i]; cbn [unmet_op step] in *; try contradiction.
      - apply bind_ok in S. destruct S as ([g2 [i c]] & S & E). inv E.
        destruct (frame_node m _ _ _ _ _ _ L (fun e n He => proj1 (M e He) n) (fun e He => proj2 (M e He)) S) as (_ & _ & E1 & E2 & c' & E3).
        rewrite E3. auto.
      - apply bind_ok in S. destruct S as ([g2 r] & S & E). inv E.
        destruct (frame_edge m _ _ _ _ _ _ L M S) as (E0 & E1 & r' & E2 & _). rewrite E2. auto. }
    destruct K as (K1 & K2 & K3). rewrite K3. cbn [bind].
    destruct (IH (grown m (edge_count g1)) g1 g' (grown_len m (edge_count g1) ltac:(lia)) (N g1 S) R) as (K4 & E1 & E2).
    rewrite grown_grown in E1, E2 by lia. rewrite E1, K2. split; [lia|auto].
Qed.
End Any.

Section Exact.
Context {T U : Type}.
Local Notation graph := (PlanarGraph XO T U).

Lemma node_place : forall (g : graph) ps i n, drawn g ps -> nth_error (nodes g) i = Some n -> position n = xp (pt ps i) /\ (i < length ps)%nat.
Proof.
  intros g ps i n D H. assert (L : (i < length ps)%nat) by (rewrite <- (drawn_length g ps D); apply nth_error_Some; congruence).
  split; [|exact L]. rewrite <- (drawn_pos (nodes g) ps i D L). unfold pos_at. now rewrite H.
Qed.
Lemma place_node : forall (g : graph) ps i, drawn g ps -> (i < length ps)%nat -> exists n, nth_error (nodes g) i = Some n /\ position n = xp (pt ps i).
Proof.
  intros g ps i D L. destruct (nth_error (nodes g) i) as [n|] eqn:H.
  - exists n. split; [reflexivity|]. exact (proj1 (node_place g ps i n D H)).
  - apply nth_error_None in H. rewrite (drawn_length g ps D) in H. lia.
Qed.

Lemma misses_place : forall (g : graph) ps (e : Edge U) p, drawn g ps -> (src e < length ps)%nat -> (dst e < length ps)%nat ->
  (misses (nodes g) e (xp p) <-> ~ edge_near ps e p).
Proof.
  intros g ps e p D L1 L2. destruct (place_node g ps _ D L1) as (a & A & PA). destruct (place_node g ps _ D L2) as (b & B & PB). split.
  - intros (a' & b' & A' & B' & Off) N. rewrite A in A'. rewrite B in B'. inv A'. inv B'. rewrite PA, PB in Off.
    apply (on_segment_test _ _ _ false) in N. congruence.
  - intros N. exists a, b. split; [exact A|]. split; [exact B|]. rewrite PA, PB. apply not_true_is_false. intros H. apply on_segment_test in H. exact (N H).
Qed.

Lemma clear_unmet : forall (g : graph) ps s d (e : Edge U), drawn g ps -> stands_clear ps s d e -> unmet g s d e.
Proof.
  intros g ps s d e D (L1 & L2 & K & X).
  assert (C : forall f x, cut_at g s d f x -> exists p, x = xp p /\ on_segment (pt ps s) (pt ps d) p /\ edge_on ps f p).
  { intros f x (a & b & p & q & A & B & P & Q & H).
    rewrite (proj1 (node_place g ps _ _ D A)), (proj1 (node_place g ps _ _ D B)), (proj1 (node_place g ps _ _ D P)), (proj1 (node_place g ps _ _ D Q)) in H.
    apply segment_intersection_spec in H. destruct H as (y & -> & _ & H1 & H2). exists y. auto. }
  split; [|split; [|split]].
  - intros n Hn. apply In_nth_error in Hn. destruct Hn as (k & Hk). destruct (node_place g ps k n D Hk) as [E L]. rewrite E.
    apply (misses_place g ps e _ D L1 L2). exact (K k L).
  - intros f x _ H. destruct (C f x H) as (p & -> & H1 & _). apply (misses_place g ps e _ D L1 L2). exact (proj2 (X p H1)).
  - intros x H. destruct (C e x H) as (p & _ & H1 & H2). exact (proj1 (X p H1) H2).
  - assert (S : forall a b, on_segment a b a /\ on_segment a b b).
    { intros [ax ay] [bx by_]. split; [exists 0%R|exists 1%R]; (split; [lra|]); unfold along; cbn; f_equal; lra. }
    intros [[Es Ed]|[Es Ed]]; destruct (S (pt ps s) (pt ps d)) as [S1 S2];
    [apply (proj1 (X _ S1))|apply (proj1 (X _ S2))]; unfold edge_on; rewrite Es, Ed; apply S.
Qed.
End Exact.
