(** * A concrete drawing in exact arithmetic: two crossing edges. *)
From Coq Require Import Reals List Arith Bool Lia Lra.
From Flocq Require Import Core.Core.
From Verif Require Import Scalar Utils Graph GraphSpec Laws Closest PlaneSpec UtilsReal PlanarSpec
  GraphAdd GraphPlanar.
Import ListNotations.
Local Open Scope R_scope.

Lemma eps32_tiny : eps32 < / 8.
Proof.
  unfold eps32. replace (/ 8) with (bpow radix2 (-3)) by (simpl; lra). now apply bpow_lt.
Qed.

(** Points a unit apart or more are told apart. *)
Lemma dist_ge : forall p q r, 0 <= r ->
  r * r <= (vx q - vx p) * (vx q - vx p) + (vy q - vy p) * (vy q - vy p) -> r <= dist p q.
Proof. intros p q r H0 H. apply sq_le; [apply dist_nonneg|]. now rewrite dist_sq. Qed.
Lemma dist_le : forall p q r, 0 <= r ->
  (vx q - vx p) * (vx q - vx p) + (vy q - vy p) * (vy q - vy p) <= r * r -> dist p q <= r.
Proof. intros p q r H0 H. apply sq_le; [exact H0|]. now rewrite dist_sq. Qed.
Lemma unit_apart : forall p q,
  1 <= (vx q - vx p) * (vx q - vx p) + (vy q - vy p) * (vy q - vy p) -> eps32 < dist p q.
Proof. intros p q H. pose proof (dist_ge p q 1). pose proof eps32_tiny. lra. Qed.

Definition w4 : list point := [P2 (-2) 0; P2 2 0; P2 0 (-2); P2 0 2].
Definition xcross : list (@op XO nat nat) :=
  map (fun p => OAddNode (xp p) 7%nat) w4 ++ [OAddEdge 0 1 10%nat; OAddEdge 2 3 20%nat].

Lemma first_nodes : forall (g g' : PlanarGraph XO nat nat) ps p, drawn g ps -> edges g = [] ->
  (forall q, In q ps -> eps32 < dist p q) -> step 0%nat g (OAddNode (xp p) 7%nat) = Ok g' ->
  drawn g' (ps ++ [p]) /\ edges g' = [].
Proof.
  intros g g' ps p D E F H. cbn [step] in H. apply bind_ok in H. destruct H as ([g1 [i ces]] & H & Q). inv Q.
  apply add_node_ok in H. destruct H as [(dd & Fc & L & _)|(dd & j & Fc & L & -> & Hn & He & _)].
  - exfalso. destruct (drawn_closest _ _ _ _ _ D Fc) as [H _]. destruct (H L) as [Hi Hd].
    assert (In (pt ps i) ps) by (apply nth_In; exact Hi). pose proof (F _ H0). lra.
  - split; [|rewrite He, E; reflexivity]. unfold drawn. rewrite Hn, !map_app. now rewrite D.
Qed.

Lemma first_edge : forall (g g' : PlanarGraph XO nat nat) ps s d u, drawn g ps -> edges g = [] ->
  (s < length ps)%nat -> (d < length ps)%nat -> step 0%nat g (OAddEdge s d u) = Ok g' ->
  drawn g' ps /\ edges g' = [MkEdge s d u DEFAULT_LABEL].
Proof.
  intros g g' ps s d u D E Hs Hd H. cbn [step] in H. apply bind_ok in H. destruct H as ([g1 r] & H & Q). inv Q.
  unfold add_edge, has_edge_between_nodes in H. rewrite E in H. cbn [edge_between_loop negb] in H.
  unfold get_vertex in H. rewrite <- (drawn_length _ _ D) in Hs, Hd. apply nth_error_Some in Hs, Hd.
  destruct (nth_error (nodes g) s) as [a|] eqn:Ea; [|congruence].
  destruct (nth_error (nodes g) d) as [b|] eqn:Eb; [|congruence].
  cbn in H. inv H. split; [exact D|reflexivity].
Qed.

Ltac apart4 := intros q Hq; cbn [w4 firstn In] in Hq;
  repeat (destruct Hq as [<-|Hq]; [apply unit_apart; simpl; lra|]); destruct Hq.

Lemma good_far : forall (es : list (Edge nat)) ps p, es = [] ->
  (forall q, In q ps -> eps32 < dist p q) -> good_place ps es p.
Proof.
  intros es ps p -> F. right. split; [|intros e []]. intros k Hk. apply F. now apply nth_In.
Qed.

Lemma xcross_general : general_position w4 [MkEdge 0 1 10%nat DEFAULT_LABEL] 2 3.
Proof.
  split.
  - intros k Hk N2 N3 (H & _). cbn in Hk.
    pose proof (dist_ge (P2 0 (-2)) (P2 (-2) 0) (14/5)) as A1. pose proof (dist_ge (P2 (-2) 0) (P2 0 2) (14/5)) as A2.
    pose proof (dist_ge (P2 0 (-2)) (P2 2 0) (14/5)) as A3. pose proof (dist_ge (P2 2 0) (P2 0 2) (14/5)) as A4.
    pose proof (dist_le (P2 0 (-2)) (P2 0 2) 4) as A5. simpl in A1, A2, A3, A4, A5. pose proof eps32_tiny.
    assert (k = 0 \/ k = 1)%nat as [->| ->] by lia; cbn in H; lra.
  - intros [|[|i]] e x He On1 On2 N2 N3; try discriminate. simpl in He. inv He.
    destruct On1 as (t & Ht & ->), On2 as (t' & Ht' & E). cbn in E. unfold along in E. simpl in E. inversion E.
    assert (Ex : along (pt w4 0) (pt w4 1) t = P2 0 0).
    { unfold along. cbn. f_equal; lra. }
    cbn [src dst] in *. rewrite Ex. split.
    + intros k Hk. cbn in Hk. assert (k = 0 \/ k = 1 \/ k = 2 \/ k = 3)%nat as [->|[->|[->| ->]]] by lia;
        apply unit_apart; simpl; lra.
    + intros [|[|j]] f Nj Hf; try discriminate. congruence.
Qed.

Lemma xcross_tidy : tidy 0%nat graph_new xcross.
Proof.
  assert (D0 : drawn (@graph_new XO nat nat) (firstn 0 w4) /\ edges (@graph_new XO nat nat) = []) by easy.
  unfold xcross. cbn [map w4 app tidy].
  destruct D0 as [D0 E0]. split.
  { exists (firstn 0 w4), (P2 (-2) 0). split; [exact D0|]. split; [reflexivity|]. apply good_far; [exact E0|apart4]. }
  intros g1 H1. apply (first_nodes _ _ _ _ D0 E0) in H1; [|apart4]. destruct H1 as [D1 E1]. split.
  { exists (firstn 1 w4), (P2 2 0). split; [exact D1|]. split; [reflexivity|]. apply good_far; [exact E1|apart4]. }
  intros g2 H2. apply (first_nodes _ _ _ _ D1 E1) in H2; [|apart4]. destruct H2 as [D2 E2]. split.
  { exists (firstn 2 w4), (P2 0 (-2)). split; [exact D2|]. split; [reflexivity|]. apply good_far; [exact E2|apart4]. }
  intros g3 H3. apply (first_nodes _ _ _ _ D2 E2) in H3; [|apart4]. destruct H3 as [D3 E3]. split.
  { exists (firstn 3 w4), (P2 0 2). split; [exact D3|]. split; [reflexivity|]. apply good_far; [exact E3|apart4]. }
  intros g4 H4. apply (first_nodes _ _ _ _ D3 E3) in H4; [|apart4]. destruct H4 as [D4 E4].
  change (drawn g4 w4) in D4. split.
  { split; [lia|]. right. right. exists w4. split; [exact D4|]. rewrite E4. split.
    - intros k Hk N0 N1 (H & _). cbn in Hk.
      pose proof (dist_ge (P2 (-2) 0) (P2 0 (-2)) (14/5)) as A1. pose proof (dist_ge (P2 0 (-2)) (P2 2 0) (14/5)) as A2.
      pose proof (dist_ge (P2 (-2) 0) (P2 0 2) (14/5)) as A3. pose proof (dist_ge (P2 0 2) (P2 2 0) (14/5)) as A4.
      pose proof (dist_le (P2 (-2) 0) (P2 2 0) 4) as A5. simpl in A1, A2, A3, A4, A5. pose proof eps32_tiny.
      assert (k = 2 \/ k = 3)%nat as [->| ->] by lia; cbn in H; lra.
    - intros [|i] e x He; discriminate. }
  intros g5 H5. apply (first_edge _ _ _ _ _ _ D4 E4) in H5; [|simpl; lia|simpl; lia]. destruct H5 as [D5 E5]. split.
  { split; [lia|]. right. right. exists w4. split; [exact D5|]. rewrite E5. apply xcross_general. }
  intros g6 _. exact I.
Qed.

Lemma xcross_runs : exists g, run 0%nat graph_new xcross = Ok g.
Proof.
  assert (A : forall os (g : PlanarGraph XO nat nat), valid g ->
    (forall o, In o os -> match o with OAddNode _ _ | OAddEdge _ _ _ => True | _ => False end) ->
    exists g', run 0%nat g os = Ok g').
  { induction os as [|o os IH]; intros g Hv Ho; [now exists g|]. cbn [run].
    destruct o as [p d|s d u|i|i]; try (exfalso; exact (Ho _ (or_introl eq_refl))).
    - destruct (add_node_total g p d Hv) as [[g1 r] H].
      assert (S : step 0%nat g (OAddNode p d) = Ok g1) by (cbn [step]; rewrite H; reflexivity).
      rewrite S. cbn [bind]. apply IH; [eapply GraphHistory.step_valid; eassumption|]. intros; apply Ho; now right.
    - destruct (add_edge_total 0%nat g s d u Hv) as [[g1 r] H].
      assert (S : step 0%nat g (OAddEdge s d u) = Ok g1) by (cbn [step]; rewrite H; reflexivity).
      rewrite S. cbn [bind]. apply IH; [eapply GraphHistory.step_valid; eassumption|]. intros; apply Ho; now right. }
  apply A; [intros e []|]. intros o Ho. unfold xcross in Ho. cbn [map w4 app In] in Ho.
  repeat (destruct Ho as [<-|Ho]; [exact I|]). destruct Ho.
Qed.
