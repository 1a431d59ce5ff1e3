(** * The reports of add_edge, in exact arithmetic and general position. *)
From Coq Require Import Reals List Arith Bool Lia Lra.
From Verif Require Import Scalar Utils Graph GraphSpec ListSpec Laws Closest PlaneSpec UtilsReal
  PlanarSpec GraphAdd GraphAddProps GraphPlanar.
Import ListNotations.
Local Open Scope R_scope.

Section Report.
Context {T U : Type}.
Variable dT : T.
Local Notation graph := (PlanarGraph XO T U).

Lemma report_nil : forall (on : Edge U -> bool) es, (forall e, In e es -> on e = false) ->
  split_report on es = [].
Proof.
  intros on es H. destruct (split_report on es) as [|i l] eqn:E; [reflexivity|]. exfalso.
  assert (Hi : In i (split_report on es)) by (rewrite E; now left).
  apply split_report_spec in Hi.
  replace (filter on es) with (@nil (Edge U)) in Hi.
  - destruct Hi as [(e & He & O)|Hi]; [|cbn [length] in Hi; lia].
    rewrite (H e) in O; [discriminate|eapply nth_error_In; eassumption].
  - symmetry. clear E Hi. induction es as [|e es IH]; [reflexivity|]. cbn [filter].
    rewrite (H e) by now left. apply IH. intros; apply H; now right.
Qed.

(** After a split at node [k] the reported slots hold edges ending in [k]. *)
Lemma report_dst : forall (on : Edge U -> bool) k es i, In i (split_report on es) ->
  exists e, nth_error (split_edges on k es) i = Some e /\ dst e = k.
Proof.
  intros on k es i H. apply split_report_spec in H. destruct H as [(e & He & O)|H].
  - rewrite (split_edges_old _ _ _ _ _ He), O. eexists. split; reflexivity.
  - unfold split_edges. rewrite nth_error_app2; rewrite map_length; [|lia].
    rewrite nth_error_map. destruct (nth_error (filter on es) (i - length es)) as [e|] eqn:E.
    + eexists. split; reflexivity.
    + apply nth_error_None in E. lia.
Qed.

Lemma split_points_report : forall pend (g g' : graph) ps cn ce rn re, drawn g ps ->
  inv_drawn ps (edges g) pend ->
  split_at_points dT g (map xp pend) cn ce = Ok (g', (rn, re)) ->
  exists ns es, rn = cn ++ ns /\ re = ce ++ es /\
    ns = seq (length ps) (length ns) /\ length (nodes g') = (length ps + length ns)%nat /\
    (forall i, In i es -> exists e, nth_error (edges g') i = Some e /\ (length ps <= dst e)%nat) /\
    (forall i, ~ In i es -> nth_error (edges g') i = nth_error (edges g) i) /\
    (forall n sd, nth_error (edges g) n = Some sd -> (forall y, In y pend -> edge_on ps sd y) ->
       In n es \/ (es = [] /\ edges g' = edges g)).
Proof.
  induction pend as [|p pend IH]; intros g g' ps cn ce rn re D I H; cbn [map split_at_points] in H.
  - inv H. exists [], []. rewrite !app_nil_r. cbn [length seq]. repeat split; auto; try easy.
    rewrite (drawn_length _ _ D). lia.
  - destruct (find_closest_to (xp p) (gather_node_positions g)) as [j dd] eqn:Fc.
    destruct (drawn_closest _ _ _ _ _ D Fc) as [Hc Hf].
    pose proof (proj1 (proj2 (proj2 (proj2 (proj2 I)))) p (or_introl eq_refl)) as Lp.
    destruct (olt dd ceps) eqn:L.
    + destruct (Hc eq_refl) as [Hj Hd].
      destruct Lp as [(k & Hk & Ek)|F]; [|pose proof (proj1 F j Hj); lra].
      assert (k = j).
      { destruct (Nat.eq_dec k j) as [|N]; [assumption|]. exfalso.
        pose proof (proj1 (proj2 I) k j Hk Hj N) as A. rewrite <- Ek in A. lra. }
      subst k. apply bind_ok in H. destruct H as ([g1 ces] & H1 & H).
      apply split_at_node_ok in H1. destruct H1 as (Hn & H1).
      assert (Off : forall e, In e (edges g) -> on_edge (nodes g) j e = false).
      { intros e Hin. destruct (on_edge (nodes g) j e) eqn:O; [|reflexivity]. exfalso.
        destruct (proj1 I e Hin) as (_ & Hs' & Hd').
        apply (drawn_on _ ps) in O; auto. exact (proj1 (proj2 (proj2 I)) j e Hj Hin O). }
      assert (E1 : edges g1 = edges g /\ ces = []).
      { destruct H1 as [(_ & -> & ->)|(_ & E & ->)]; [easy|]. rewrite E.
        split; [now apply split_noop|now apply report_nil]. }
      destruct E1 as [E1 ->]. rewrite app_nil_r in H.
      assert (D1 : drawn g1 ps) by (unfold drawn; now rewrite Hn).
      subst p. assert (I1 : inv_drawn ps (edges g1) pend) by (rewrite E1; eapply drop_node; eassumption).
      destruct (IH g1 g' ps _ _ _ _ D1 I1 H) as (ns & es & Q). exists ns, es. rewrite E1 in Q.
      destruct Q as (Q1 & Q2 & Q3 & Q4 & Q5 & Q6 & Q7). repeat (split; [assumption|]).
      intros n sd Hsd Hy. apply (Q7 n sd Hsd). intros y Hin. apply Hy. now right.
    + apply bind_ok in H. destruct H as ([g1 [ni ces]] & H1 & H).
      assert (F : fresh ps (edges g) p).
      { destruct Lp as [(k & Hk & Ek)|F]; [|exact F]. exfalso. specialize (Hf eq_refl k Hk).
        rewrite <- Ek, dist_self0 in Hf. pose proof eps32_pos. lra. }
      destruct (add_fresh _ _ _ _ _ _ _ _ D I F H1) as (D1 & I1 & C1).
      destruct (IH g1 g' (ps ++ [p]) _ _ _ _ D1 I1 H) as (ns & es & Q1 & Q2 & Q3 & Q4 & Q5 & Q6 & Q7).
      apply add_node_ok in H1. destruct H1 as [(d' & F' & L' & _)|(d' & j' & F' & L' & En & Hn & He & Ec)];
        [congruence|].
      exists (ni :: ns), (ces ++ es). rewrite app_length in Q3, Q4, Q5. cbn [length] in Q3, Q4, Q5.
      rewrite (drawn_length _ _ D) in En. subst ni.
      split; [rewrite Q1, <- app_assoc; reflexivity|]. split; [rewrite Q2, <- app_assoc; reflexivity|].
      split; [cbn [length seq]; f_equal; rewrite Q3 at 1; f_equal; lia|].
      split; [cbn [length]; lia|]. split; [|split].
      * intros i Hi. destruct (in_dec Nat.eq_dec i es) as [Y|N].
        -- destruct (Q5 i Y) as (e & He' & Ld). exists e. split; [exact He'|lia].
        -- apply in_app_or in Hi. destruct Hi as [Hi|Hi]; [|contradiction].
           rewrite Q6 by exact N. rewrite Ec in Hi.
           destruct (report_dst _ (length ps) _ _ Hi) as (e & He' & Ed).
           exists e. rewrite He. split; [exact He'|lia].
      * intros i Hi. rewrite in_app_iff in Hi. rewrite Q6 by tauto. rewrite He.
        apply split_unreported. rewrite <- Ec. tauto.
      * intros n sd Hsd Hy. left. apply in_or_app. left. rewrite Ec. apply split_report_spec. left.
        exists sd. split; [exact Hsd|]. pose proof (nth_error_In _ _ Hsd) as Hin.
        destruct (proj1 I sd Hin) as (_ & Hs & Hd).
        rewrite (drawn_on _ (ps ++ [p])); try (rewrite app_length; cbn [length]; lia); [|exact D1].
        rewrite pt_new. unfold edge_near. rewrite !pt_app by assumption.
        apply on_near; [apply Hy; now left| |].
        -- rewrite dist_sym. now apply (proj1 F).
        -- now apply (proj1 F).
Qed.

Theorem add_edge_reports : forall (g g' : graph) ps s d u ns es, drawn g ps ->
  well_drawn ps (edges g) -> general_position ps (edges g) s d -> s <> d ->
  ~ adjacent g s d -> (s < length ps)%nat -> (d < length ps)%nat ->
  add_edge dT g s d u = Ok (g', AddOk ns es) ->
  (forall i, In i es <-> (i < edge_count g')%nat /\ get_edge g' i <> get_edge g i) /\
  (forall k, In k ns <-> (node_count g <= k < node_count g')%nat) /\ In (edge_count g) es.
Proof.
  intros g g' ps s d u ns es D W GP N NA Hs Hd H.
  destruct (add_edge_pending dT g g' ps s d u _ D W GP N NA Hs Hd H) as (pend & ns0 & es0 & D1 & I & H1 & Er & Y).
  destruct (split_points_report pend _ g' ps _ _ _ _ D1 I H1) as (ns1 & es1 & E1 & E2 & Q3 & Q4 & Q5 & Q6 & Q7).
  cbn [app] in E1, E2. subst ns0 es0.
  assert (Er' : ns = ns1 /\ es = match es1 with [] => [(length (edges g') - 1)%nat] | _ => es1 end)
    by (split; congruence). destruct Er' as [-> ->]. clear Er.
  set (sd := MkEdge s d u DEFAULT_LABEL). unfold edge_count, get_edge, node_count.
  assert (Hsd : nth_error (edges (with_edge g s d u)) (length (edges g)) = Some sd).
  { unfold with_edge. cbn [edges]. rewrite nth_error_app2, Nat.sub_diag by lia. reflexivity. }
  assert (Old : forall i, (i < length (edges g))%nat ->
    nth_error (edges (with_edge g s d u)) i = nth_error (edges g) i).
  { intros i Hi. unfold with_edge. cbn [edges]. now rewrite nth_error_app1. }
  assert (None1 : forall i, (length (edges g) <= i)%nat -> nth_error (edges g) i = None).
  { intros i Hi. now apply nth_error_None. }
  assert (V : forall e, In e (edges g) -> (dst e < length ps)%nat) by (intros e He; destruct (proj1 W e He); tauto).
  assert (Nodes : forall k, In k ns1 <-> (length (nodes g) <= k < length (nodes g'))%nat).
  { intros k. rewrite Q3, Q4, (drawn_length _ _ D), in_seq. lia. }
  assert (Y' : forall y, In y pend -> edge_on ps sd y) by (intros y Hy; exact (proj1 (Y y Hy))).
  destruct (Q7 _ _ Hsd Y') as [In1|[-> Ee]].
  - destruct es1 as [|x0 l0] eqn:Ex; [destruct In1|]. rewrite <- Ex in *.
    split; [|split; [exact Nodes|exact In1]].
    intros i. split.
    + intros Hi. destruct (Q5 i Hi) as (e & He & Ld). split; [apply nth_error_Some; congruence|].
      rewrite He. intros E. symmetry in E. apply nth_error_In, V in E. lia.
    + intros (Hi & Ne). destruct (in_dec Nat.eq_dec i es1) as [|Ni]; [assumption|]. exfalso.
      apply Ne. destruct (lt_dec i (length (edges g))) as [Li|Li].
      * now rewrite Q6, Old.
      * assert (Nei : i <> length (edges g)) by (intros ->; contradiction).
        rewrite None1 by lia. rewrite Q6 by exact Ni. apply nth_error_None.
        unfold with_edge. cbn [edges]. rewrite app_length. cbn [length]. lia.
  - assert (Len : length (edges g') = S (length (edges g))).
    { rewrite Ee. unfold with_edge. cbn [edges]. rewrite app_length. cbn [length]. lia. }
    rewrite Len. replace (S (length (edges g)) - 1)%nat with (length (edges g)) by lia.
    split; [|split; [exact Nodes|now left]]. intros i. rewrite Ee. split.
    + intros [<-|[]]. split; [lia|]. rewrite Hsd, None1 by lia. discriminate.
    + intros (Hi & Ne). left. destruct (lt_dec i (length (edges g))) as [Li|Li]; [|lia].
      exfalso. apply Ne. now apply Old.
Qed.
End Report.
