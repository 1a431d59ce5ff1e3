(** * Bounds on the growth of any graph, for any scalars; and the size of f32 drawings. *)
From Coq Require Import Reals List Arith Bool Lia Lra Permutation.
From Verif Require Import Scalar Utils Graph GraphSpec Laws PlaneSpec PlanarSpec GraphAdd GraphAddProps GraphPlanar DrawSpec Draw
  SimSpec GeoSpec GeoRound MarginSpec MarginReal MarginSeg MarginGraph MarginAdd MarginHist MarginSim Follow Drift MarginDrift SimOrder GridSpec GridGraph Size.
Import ListNotations.

Lemma filter_le : forall (A : Type) (f : A -> bool) l, length (filter f l) <= length l.
Proof. intros A f l. induction l as [|a l IH]; cbn [filter length]; [lia|]. destruct (f a); cbn [length]; lia. Qed.

Section Any.
Context {O : Ops} {T U : Type} (dT : T).
Local Notation graph := (PlanarGraph O T U).

Lemma split_double : forall (on : Edge U -> bool) k es, length (split_edges on k es) <= 2 * length es.
Proof. intros. rewrite split_edges_length. pose proof (filter_le _ on es). lia. Qed.

Lemma add_node_growth : forall (g g' : graph) p d r, add_node g p d = Ok (g', r) ->
  length (nodes g') <= length (nodes g) + 1 /\ length (edges g') <= 2 * length (edges g).
Proof.
  intros g g' p d [i ces] H. apply add_node_ok in H. destruct H as [(dd & _ & _ & -> & _)|(dd & j & _ & _ & _ & Hn & He & _)]; [lia|].
  rewrite Hn, He, app_length. cbn [length]. split; [lia|]. apply split_double.
Qed.
Lemma split_points_growth : forall pts (g g' : graph) cn ce r, split_at_points dT g pts cn ce = Ok (g', r) ->
  length (nodes g') <= length (nodes g) + length pts /\ length (edges g') <= length (edges g) * 2 ^ length pts.
Proof.
  induction pts as [|p pts IH]; intros g g' cn ce r H; cbn [split_at_points] in H.
  - inversion H; subst. cbn. lia.
  - cbn [length]. rewrite Nat.pow_succ_r'. destruct (find_closest_to p (gather_node_positions g)) as [j dd]. destruct (olt dd ceps).
    + apply bind_ok in H. destruct H as ([g1 ces] & H1 & H). apply split_at_node_ok in H1. destruct H1 as (Hn & H1). apply IH in H. rewrite Hn in H.
      assert (length (edges g1) <= 2 * length (edges g)).
      { destruct H1 as [(_ & -> & _)|(_ & -> & _)]; [lia|apply split_double]. }
      nia.
    + apply bind_ok in H. destruct H as ([g1 [ni ces]] & H1 & H). apply add_node_growth in H1. apply IH in H. nia.
Qed.
Lemma inters_length : forall (g : graph) id es idx is, intersections_loop g id idx es = Ok is -> length is <= length es.
Proof.
  intros g id es. induction es as [|e es IH]; intros idx is H; cbn [intersections_loop] in H; [inversion H; cbn; lia|].
  destruct (negb (Nat.eqb id idx)); [|apply IH in H; cbn [length]; lia].
  do 5 (apply bind_ok in H; destruct H as (? & _ & H)). apply bind_ok in H. destruct H as (rest & Hr & H). apply IH in Hr.
  destruct (calculate_line_segment_intersection _ _ _ _); inversion H; subst; cbn [length]; lia.
Qed.
(** The new edge itself is skipped. *)
Lemma inters_skip : forall (g : graph) es e idx is, intersections_loop g (idx + length es) idx (es ++ [e]) = Ok is -> length is <= length es.
Proof.
  intros g es e. induction es as [|f es IH]; intros idx is H; cbn [app intersections_loop length] in H.
  - rewrite Nat.add_0_r, Nat.eqb_refl in H. cbn [negb] in H. inversion H; cbn; lia.
  - replace (idx + S (length es)) with (S idx + length es) in * by lia.
    destruct (negb (Nat.eqb (S idx + length es) idx)); [|apply IH in H; cbn [length]; lia].
    do 5 (apply bind_ok in H; destruct H as (? & _ & H)). apply bind_ok in H. destruct H as (rest & Hr & H). apply IH in Hr.
    destruct (calculate_line_segment_intersection _ _ _ _); inversion H; subst; cbn [length]; lia.
Qed.
Lemma unique_length : forall (all rest : list (Vec2 O)) i, length (unique_loop all rest i) <= length rest.
Proof. intros all rest. induction rest as [|a rest IH]; intros i; cbn [unique_loop length]; [lia|]. destruct (negb _); cbn [length]; specialize (IH (S i)); lia. Qed.

Theorem add_edge_growth : forall (g g' : graph) s d u r, add_edge dT g s d u = Ok (g', r) ->
  exists k, k <= length (edges g) /\ length (nodes g') <= length (nodes g) + k /\ length (edges g') <= (length (edges g) + 1) * 2 ^ k.
Proof.
  intros g g' s d u r H. unfold add_edge in H. destruct (has_edge_between_nodes g s d); cbn [negb] in H; [inversion H; subst; exists 0; cbn; lia|].
  destruct (get_vertex g s); [|inversion H; subst; exists 0; cbn; lia]. destruct (get_vertex g d); [|inversion H; subst; exists 0; cbn; lia].
  apply bind_ok in H. destruct H as ([g2 [cn ce]] & H1 & H). inversion H; subst. clear H. unfold split_edges_along_edge in H1.
  apply bind_ok in H1. destruct H1 as (is & Hi & H1). cbn [edges edge_count] in Hi. unfold edge_count in Hi. cbn [edges] in Hi. rewrite app_length in Hi. cbn [length] in Hi.
  replace (length (edges g) + 1 - 1) with (0 + length (edges g)) in Hi by lia. apply inters_skip in Hi.
  pose proof (unique_length is is 0) as Hu. apply split_points_growth in H1. cbn [nodes edges] in H1. rewrite app_length in H1. cbn [length] in H1.
  exists (length (unique_points_among is)). unfold unique_points_among in *. split; [lia|]. exact H1.
Qed.
End Any.

Section F32.
Context {lm : Libm} {T U : Type} (dT : T).
Local Notation F := (FO lm).
Variables (M K dl H : R) (G : nat).
Hypothesis St : steady M K dl H G.
Theorem f32_size : forall depth (g : PlanarGraph F T U) l, (forall n, In n (nodes g) -> pfin (position n)) -> planar_f32 g ->
  ForallOrdPairs differ (map fst l) ->
  (forall c, In c (map fst l) -> fst c <> snd c /\ fst c < length (nodes g) /\ snd c < length (nodes g) /\ ~ adjacent g (fst c) (snd c)) ->
  calm (lm := lm) dT M K dl H G depth (exact_graph g) (adds l) ->
  exists g' a k, calls dT g (adds l) = Ok (g', a) /\ length (nodes g') = length (nodes g) + k /\
    length (edges g') = length (edges g) + length l + 2 * k /\
    2 * k <= 2 * (length l * length (edges g)) + length l * (length l - 1).
Proof.
  intros depth g l Fin Pl Df Ok C. pose proof (proj1 (planar_places lm g) Pl) as Pp.
  assert (Ok1 : forall c, In c (map fst l) -> fst c <> snd c /\ fst c < length (places g) /\ snd c < length (places g) /\ ~ adjacent (exact_graph g) (fst c) (snd c)).
  { intros c Hc. rewrite place_len. exact (Ok c Hc). }
  destruct (calm_draws dT M K dl H G St depth l (exact_graph g) (places g) (exact_drawn lm g) Pp Ok1 Df C) as (x1 & a1 & X1 & R1).
  pose proof (drift_histories lm dT M K dl H G depth St (adds l) g Fin Pl C) as A1. rewrite X1 in A1.
  destruct (calls dT g (adds l)) as [[g1 b1]|] eqn:Cl; [|destruct A1]. cbn [agree] in A1. destruct A1 as (_ & Ee & Nn).
  assert (Ln : length (nodes g1) = length (nodes x1)) by (clear - Nn; induction Nn; cbn [length]; congruence).
  destruct l as [|c1 l].
  - cbn in Cl. inversion Cl; subst. exists g1, [], 0. cbn; repeat split; lia.
  - assert (W : well_drawn (places g) (edges (exact_graph g))).
    { cbn [adds map calm] in C. destruct C as ((X & D & Bx & Sp & _) & _). rewrite (drawn_fun _ _ _ D (exact_drawn lm g)) in *. exact (calm_well M K dl H G St (places g) _ Bx Sp Pp). }
    destruct (draws_size dT (c1 :: l) (exact_graph g) x1 (places g) R1 (exact_drawn lm g) W) as (k & E1 & E2 & E3).
    { intros c Hc. destruct (Ok1 c Hc) as (_ & Q1 & Q2 & _). split; assumption. }
    exists g1, b1, k. split; [reflexivity|]. rewrite Ln, Ee. assert (Lg : length (nodes (exact_graph g)) = length (nodes g)) by (cbn; now rewrite map_length).
    rewrite Lg in E1. cbn [exact_graph edges] in E2, E3. auto.
Qed.
End F32.
