(** * Histories: what every sequence of public calls preserves; strays and reports. *)
From Coq Require Import List Arith Bool Lia Relations String Permutation.
From Verif Require Import Scalar Utils Polygon Graph ListSpec GraphSpec Laws Closest GraphAdd
  GraphAddProps GraphRemove.
Import ListNotations.

Section Any.
Context {O : Ops} {T U : Type}.
Variable dT : T.
Local Notation graph := (PlanarGraph O T U).
Local Notation edge := (Edge U).
Local Notation node := (Node O T).
Local Notation op := (@op O T U).

Lemma run_from : forall (P : graph -> Prop),
  (forall g o g', P g -> step dT g o = Ok g' -> P g') ->
  forall os g g', P g -> run dT g os = Ok g' -> P g'.
Proof.
  intros P HP. induction os as [|o os IH]; intros g g' Hg H; simpl in H.
  - inv H. exact Hg.
  - apply bind_ok in H. destruct H as (g1 & H1 & H). eauto.
Qed.

Lemma run_app : forall os1 os2 (g g' : graph), run dT g (os1 ++ os2) = Ok g' ->
  exists g1, run dT g os1 = Ok g1 /\ run dT g1 os2 = Ok g'.
Proof.
  induction os1 as [|o os1 IH]; intros os2 g g' H; simpl in *.
  - eauto.
  - apply bind_ok in H. destruct H as (g1 & H1 & H). destruct (IH _ _ _ H) as (g2 & H2 & H3).
    exists g2. rewrite H1. simpl. easy.
Qed.

Lemma step_valid : forall (g : graph) o g', valid g -> step dT g o = Ok g' -> valid g'.
Proof.
  intros g [p d|s d u|i|i] g' Hv H; simpl in H; apply bind_ok in H; destruct H as ([g1 r] & H & E); inv E.
  - destruct r as [i ces]. apply add_node_ok in H.
    destruct H as [(dist & _ & _ & -> & _)|(dist & j & _ & _ & -> & Hn & He & _)]; [exact Hv|].
    eapply split_new_valid; eassumption.
  - apply add_edge_ok in H.
    destruct H as [(_ & -> & _)|[(_ & _ & -> & _)|(_ & Hs & Hd & ns & es & Hg & _)]]; auto.
    eapply grow_valid; [exact Hg|]. now apply with_edge_valid.
  - eapply remove_node_valid; eassumption.
  - eapply remove_edge_valid; eassumption.
Qed.

Lemma run_valid : forall os (g g' : graph), valid g -> run dT g os = Ok g' -> valid g'.
Proof. intros os g g'. apply run_from. apply step_valid. Qed.

Lemma reachable_valid : forall g : graph, reachable dT g -> valid g.
Proof. intros g [os H]. eapply run_valid; [|exact H]. intros e []. Qed.

(** ** Data and labels *)
Lemma restricts_edge : forall keep (g g' : graph) gone es e', restricts keep g g' gone es ->
  In e' (edges g') -> exists e, In e es /\ same_edge_via keep e' e.
Proof.
  intros keep g g' gone es e' (_ & _ & _ & F) Hin.
  induction F as [|x y l l' Hxy F IH]; [destruct Hin|].
  destruct Hin as [->|Hin].
  - exists y. split; [now left|exact Hxy].
  - destruct (IH Hin) as (e & H1 & H2). exists e. split; [now right|exact H2].
Qed.

Lemma remove_node_edges : forall (g g' : graph) id r, remove_node g id = Ok (g', r) ->
  forall e', In e' (edges g') -> exists e, In e (edges g) /\ edata e' = edata e /\ elabel e' = elabel e.
Proof.
  intros g g' id [cn ce] H e' Hin.
  destruct (lt_dec id (List.length (nodes g))) as [Hid|Hid].
  - apply remove_node_ok in H; [|exact Hid].
    destruct H as (m & mn & me & _ & _ & He & _). rewrite He in Hin.
    apply in_map_iff in Hin. destruct Hin as (e & <- & Hin). apply filter_In in Hin.
    exists e. easy.
  - rewrite remove_node_missing in H by lia. inv H. eauto.
Qed.

Lemma remove_edge_edges : forall (g g' : graph) id r, valid g -> remove_edge g id = Ok (g', r) ->
  forall e', In e' (edges g') -> exists e, In e (edges g) /\ edata e' = edata e /\ elabel e' = elabel e.
Proof.
  intros g g' id r Hv H e' Hin.
  destruct (nth_error (edges g) id) as [e|] eqn:E.
  - rewrite (remove_edge_cases g id e Hv E) in H.
    destruct (degree g (src e) =? 1); [eapply remove_node_edges; eassumption|].
    destruct (degree g (dst e) =? 1); [eapply remove_node_edges; eassumption|].
    destruct (Nat.eqb_spec (S id) (List.length (edges g))); [discriminate|].
    destruct (rev (edges g)) as [|last rr] eqn:R; [discriminate|]. inv H.
    assert (id < List.length (edges g)) by (apply nth_error_Some; congruence).
    exists e'. split; [|easy]. apply (without_incl _ id).
    eapply Permutation_in; [|exact Hin]. apply swap_remove_perm; [exact R|lia].
  - apply nth_error_None in E. rewrite remove_edge_missing in H by exact E. inv H. eauto.
Qed.

(** A successful, not ignored add_edge with this data occurs in the history. *)
Definition supplied (os : list op) (u : U) : Prop :=
  exists os1 s d os2 g1 g2 ns es,
    os = os1 ++ OAddEdge s d u :: os2 /\ run dT graph_new os1 = Ok g1 /\
    ~ adjacent g1 s d /\ add_edge dT g1 s d u = Ok (g2, AddOk ns es).

Lemma supplied_app : forall os o u, supplied os u -> supplied (os ++ [o]) u.
Proof.
  intros os o u (os1 & s & d & os2 & g1 & g2 & ns & es & -> & H).
  exists os1, s, d, (os2 ++ [o]), g1, g2, ns, es. split; [|exact H].
  now rewrite <- app_assoc.
Qed.

Lemma run_supplied : forall os (g : graph), run dT graph_new os = Ok g ->
  forall e, In e (edges g) -> supplied os (edata e) /\ elabel e = DEFAULT_LABEL.
Proof.
  induction os as [|o os IH] using rev_ind; intros g H e Hin.
  - inv H. destruct Hin.
  - apply run_app in H. destruct H as (g1 & H1 & H). simpl in H.
    apply bind_ok in H. destruct H as (g2 & H & E). inv E.
    specialize (IH g1 H1).
    assert (W : forall e0, In e0 (edges g1) -> edata e = edata e0 -> elabel e = elabel e0 ->
       supplied (os ++ [o]) (edata e) /\ elabel e = DEFAULT_LABEL).
    { intros e0 H0 -> ->. destruct (IH e0 H0) as [S L]. split; [now apply supplied_app|exact L]. }
    assert (V : valid g1) by (apply reachable_valid; exists os; exact H1).
    destruct o as [p d|s d u|i|i]; simpl in H; apply bind_ok in H; destruct H as ([g3 r] & H & E); inv E.
    + destruct r as [i ces]. apply add_node_ok in H.
      destruct H as [(dist & _ & _ & -> & _)|(dist & j & _ & _ & -> & Hn & He & _)]; [eauto|].
      assert (L1 : Forall (fun e => elabel e = DEFAULT_LABEL) (edges g1)).
      { apply Forall_forall. intros x Hx. apply (IH x Hx). }
      rewrite He in Hin.
      destruct (split_edges_data _ _ _ _ Hin) as (e0 & H0 & D).
      split; [rewrite D; apply supplied_app, (IH e0 H0)|].
      pose proof (split_edges_label (on_edge (nodes g) (List.length (nodes g1))) (List.length (nodes g1)) _ L1) as F.
      rewrite Forall_forall in F. now apply F.
    + pose proof H as Hadd. apply add_edge_ok in H.
      destruct H as [(_ & -> & _)|[(_ & _ & -> & _)|(Na & Hs & Hd & ns & es & Hg & ->)]]; eauto.
      assert (L1 : Forall (fun e => elabel e = DEFAULT_LABEL) (edges (with_edge g1 s d u))).
      { simpl. apply Forall_app. split; [|now repeat constructor].
        apply Forall_forall. intros x Hx. apply (IH x Hx). }
      pose proof (grow_label dT _ _ _ _ Hg L1) as F. rewrite Forall_forall in F.
      split; [|now apply F].
      destruct (grow_data dT _ _ _ _ Hg e Hin) as (e0 & H0 & D). rewrite D.
      simpl in H0. apply in_app_or in H0. destruct H0 as [H0|[<-|[]]].
      * apply supplied_app, (IH e0 H0).
      * simpl. exists os, s, d, [], g1, g. do 2 eexists. split; [reflexivity|].
        split; [exact H1|]. split; [exact Na|exact Hadd].
    + destruct (remove_node_edges _ _ _ _ H e Hin) as (e0 & H0 & D & L). eauto.
    + destruct (remove_edge_edges _ _ _ _ V H e Hin) as (e0 & H0 & D & L). eauto.
Qed.

(** ** No strays *)
Lemma forall2_nth : forall A B (P : A -> B -> Prop) l l', Forall2 P l l' ->
  forall i y, nth_error l' i = Some y -> exists x, nth_error l i = Some x /\ P x y.
Proof.
  intros A B P l l' F. induction F; intros [|i] z H1; simpl in *; try discriminate.
  - inv H1. eauto.
  - eauto.
Qed.

Lemma forall2_nth' : forall A B (P : A -> B -> Prop) l l', Forall2 P l l' ->
  forall i x, nth_error l i = Some x -> exists y, nth_error l' i = Some y /\ P x y.
Proof.
  intros A B P l l' F. induction F; intros [|i] z H1; simpl in *; try discriminate.
  - inv H1. eauto.
  - eauto.
Qed.

Lemma increasing_nodup : forall l, increasing l -> NoDup l.
Proof.
  induction l as [|x l IH]; intros H; constructor; destruct H as [H1 H2].
  - intros Hx. specialize (H1 x Hx). lia.
  - now apply IH.
Qed.

Lemma nodup_nth_inj : forall (l : list nat) i j x, NoDup l ->
  nth_error l i = Some x -> nth_error l j = Some x -> i = j.
Proof.
  intros l i j x N Hi Hj. apply (proj1 (NoDup_nth_error l) N).
  - apply nth_error_Some. congruence.
  - congruence.
Qed.

Lemma restricts_touch : forall keep (g g' : graph) gone es, restricts keep g g' gone es ->
  forall k i e, nth_error keep k = Some i -> In e es -> touches i e -> 0 < degree g' k.
Proof.
  intros keep g g' gone es (Hi & _ & _ & F) k i e Hk Hin Ht.
  apply In_nth_error in Hin. destruct Hin as [j Hj].
  destruct (forall2_nth _ _ _ _ _ F _ _ Hj) as (e' & He' & S1 & S2 & _).
  apply degree_pos. exists e'. split; [eapply nth_error_In; eassumption|].
  apply increasing_nodup in Hi.
  destruct Ht; [left|right]; eapply (nodup_nth_inj keep); try eassumption; congruence.
Qed.

Lemma remove_node_no_strays : forall (g g' : graph) id r,
  valid g -> no_parallel g -> id < List.length (nodes g) -> ~ lonely_loop g id ->
  remove_node g id = Ok (g', r) ->
  forall k i, nth_error (keep_of g id) k = Some i -> 0 < degree g i -> 0 < degree g' k.
Proof.
  intros g g' id r Hv NP Hid NL H k i Hk Hd.
  pose proof (remove_node_restricts g g' id r Hv Hid NL H) as R.
  pose proof (proj1 (proj1 (proj2 R) i) (nth_error_In _ _ Hk)) as [Hlt Hnd].
  unfold degree in Hd. apply degree_pos in Hd. destruct Hd as (e & Hin & Ht).
  destruct (touchesb id e) eqn:E.
  - (* e joins id and i, so i has another edge, which does not touch id *)
    apply touchesb_iff in E.
    assert (Hij : i <> id) by (intros ->; apply Hnd; now left).
    assert (J : joins id i e) by (unfold joins; destruct E, Ht; subst; try congruence; tauto).
    assert (D : degree g i <> 1) by (intros D; apply Hnd; right; split; [exists e; easy|exact D]).
    pose proof Hin as Hin0. apply In_nth_error in Hin0. destruct Hin0 as [j Hj].
    assert (X : exists j' e', j' <> j /\ nth_error (edges g) j' = Some e' /\ touches i e').
    { clear -D Hj Ht. unfold degree in D. revert j Hj D.
      induction (edges g) as [|x l IH]; intros j Hj D; [destruct j; discriminate|].
      simpl in D. destruct j as [|j]; simpl in Hj.
      - inv Hj. apply touchesb_iff in Ht. rewrite Ht in D.
        assert (0 < degree_in l i) by lia. apply degree_pos in H.
        destruct H as (e' & H1 & H2). apply In_nth_error in H1. destruct H1 as [n Hn].
        exists (S n), e'. easy.
      - destruct (touchesb i x) eqn:Ex.
        + exists 0, x. split; [lia|]. split; [reflexivity|now apply touchesb_iff].
        + destruct (IH j Hj D) as (j' & e' & H1 & H2 & H3). exists (S j'), e'.
          split; [lia|]. easy. }
    destruct X as (j' & e' & Hne & He' & Ht').
    apply (restricts_touch _ _ _ _ _ R k i e' Hk); [|exact Ht'].
    apply filter_In. split; [eapply nth_error_In; eassumption|].
    apply negb_true_iff, touchesb_false. intros Hc.
    apply (NP j j' e e' (not_eq_sym Hne) Hj He').
    unfold joins in *. destruct Hc, Ht', J as [[? ?]|[? ?]]; subst; try congruence; tauto.
  - apply (restricts_touch _ _ _ _ _ R k i e Hk); [|exact Ht].
    apply filter_In. split; [exact Hin|]. now rewrite E.
Qed.

Lemma remove_edge_no_strays : forall (g g' : graph) id e keep survivors,
  nth_error (edges g) id = Some e ->
  Permutation survivors (without id (edges g)) ->
  restricts keep g g' (fun i => touches i e /\ degree g i = 1) survivors ->
  forall k i, nth_error keep k = Some i -> 0 < degree g i -> 0 < degree g' k.
Proof.
  intros g g' id e keep survivors He P R k i Hk Hd.
  pose proof (proj1 (proj1 (proj2 R) i) (nth_error_In _ _ Hk)) as [Hlt Hnd].
  assert (S : degree g i = (if touchesb i e then 1 else 0) + degree_in (without id (edges g)) i).
  { unfold degree, without. rewrite degree_app.
    pose proof (firstn_skipn id (edges g)) as FS. rewrite <- FS at 1. rewrite degree_app.
    assert (SK : skipn id (edges g) = e :: skipn (S id) (edges g)).
    { clear -He. revert id He. induction (edges g) as [|x l IH]; intros [|id] He; try discriminate.
      - now inv He.
      - simpl in He. simpl. now apply IH. }
    rewrite SK. simpl. lia. }
  assert (0 < degree_in (without id (edges g)) i).
  { destruct (touchesb i e) eqn:E; [|lia].
    apply touchesb_iff in E. destruct (Nat.eq_dec (degree g i) 1) as [D|D]; [|lia].
    exfalso. apply Hnd. easy. }
  apply degree_pos in H. destruct H as (e0 & H0 & Ht).
  apply (restricts_touch _ _ _ _ _ R k i e0 Hk); [|exact Ht].
  eapply Permutation_in; [apply Permutation_sym; exact P|exact H0].
Qed.

(** ** Reports of removals *)
Lemma filter_unmarked_prefix : forall A marked m (l : list A) i k,
  (forall x, In x marked -> m <= x) -> i + k < m ->
  nth_error (filter_unmarked marked i l) k = nth_error l k.
Proof.
  intros A marked m l. induction l as [|x l IH]; intros i k Hm Hk; [reflexivity|].
  simpl. assert (E : mem i marked = false).
  { apply mem_false. intros C. specialize (Hm i C). lia. }
  rewrite E. destruct k as [|k]; [reflexivity|]. simpl. apply IH; [exact Hm|lia].
Qed.

Lemma filter_unmarked_length : forall A marked (l : list A) i,
  List.length (filter_unmarked marked i l) <= List.length l.
Proof.
  intros A marked l. induction l as [|x l IH]; intros i; simpl; [lia|].
  specialize (IH (S i)). destruct (mem i marked); simpl; lia.
Qed.

Lemma remove_node_report : forall (g g' : graph) id cn ce,
  valid g -> id < List.length (nodes g) -> ~ lonely_loop g id ->
  remove_node g id = Ok (g', (cn, ce)) ->
  unreported_same (keep_of g id) g g' cn ce.
Proof.
  intros g g' id cn ce Hv Hid NL H.
  pose proof (remove_node_restricts g g' id (cn, ce) Hv Hid NL H) as (_ & _ & _ & F).
  apply remove_node_ok in H; [|exact Hid].
  destruct H as (m & mn & me & _ & Hn & _ & Emn & Eme & -> & ->).
  apply list_min_spec in Emn, Eme. destruct Emn as [Imn Lmn], Eme as [Ime Lme].
  split.
  - intros i Hi. rewrite in_seq in Hi. rewrite Hn.
    destruct (lt_dec i mn) as [L|L].
    + apply filter_unmarked_prefix with (m := mn); [exact Lmn|lia].
    + pose proof (filter_unmarked_length _ (id :: strays g id) (nodes g) 0).
      rewrite (proj2 (nth_error_None _ i)) by lia. symmetry. apply nth_error_None. lia.
  - intros i Hi. rewrite in_seq in Hi.
    rewrite <- marked_edges_eq in F.
    destruct (lt_dec i me) as [L|L].
    + rewrite <- (filter_unmarked_prefix _ (snd (remove_edges_incident_to_node g id)) me (edges g) 0 i Lme) by lia.
      destruct (nth_error (filter_unmarked _ 0 (edges g)) i) as [e|] eqn:E.
      * destruct (forall2_nth _ _ _ _ _ F _ _ E) as (e' & -> & S). exact S.
      * apply nth_error_None in E. rewrite <- (Forall2_same_length _ _ _ _ _ F) in E.
        apply nth_error_None in E. now rewrite E.
    + pose proof (filter_unmarked_length _ (snd (remove_edges_incident_to_node g id)) (edges g) 0) as Q.
      rewrite <- (Forall2_same_length _ _ _ _ _ F) in Q.
      rewrite !(proj2 (nth_error_None _ i)) by lia. exact I.
Qed.

Lemma swap_remove_nth : forall (es : list edge) id last r i, rev es = last :: r ->
  S id < List.length es -> i <> id -> i <> List.length es - 1 ->
  nth_error (swap_remove id (rev r) last) i = nth_error es i.
Proof.
  intros es id last r i R H N1 N2. apply rev_last in R. subst es.
  rewrite app_length in *. simpl in *. unfold swap_remove.
  assert (Lf : List.length (firstn id (rev r)) = id) by (rewrite firstn_length; lia).
  pose proof (firstn_skipn (S id) (rev r)) as FS.
  destruct (lt_dec i id) as [L|L].
  - rewrite nth_error_app1 by lia. rewrite (nth_error_app1 (rev r)) by lia.
    rewrite <- (firstn_skipn id (rev r)) at 2. rewrite nth_error_app1 by lia. reflexivity.
  - rewrite nth_error_app2 by lia. rewrite Lf.
    destruct (i - id) as [|q] eqn:Q; [lia|]. cbn [nth_error].
    destruct (lt_dec i (List.length (rev r))) as [L2|L2].
    + rewrite (nth_error_app1 (rev r)) by exact L2.
      rewrite <- FS at 2. rewrite nth_error_app2; rewrite firstn_length; [|lia].
      f_equal. lia.
    + rewrite (proj2 (nth_error_None (skipn _ _) _)) by (rewrite skipn_length; lia).
      symmetry. apply nth_error_None. rewrite app_length. cbn [List.length]. lia.
Qed.

Lemma remove_edge_report : forall (g g' : graph) id e cn ce,
  valid g -> nth_error (edges g) id = Some e -> ~ lonely_loop g (src e) ->
  remove_edge g id = Ok (g', (cn, ce)) ->
  exists keep, increasing keep /\
    Forall2 (fun n' i => nth_error (nodes g) i = Some n') (nodes g') keep /\
    unreported_same keep g g' cn ce.
Proof.
  intros g g' id e cn ce Hv He NL H.
  rewrite (remove_edge_cases g id e Hv He) in H.
  pose proof (nth_error_In _ _ He) as Hin.
  destruct (Hv e Hin) as [Hs Hd].
  assert (L : id < List.length (edges g)) by (apply nth_error_Some; congruence).
  assert (Case : forall a, touches a e -> degree g a = 1 -> a < List.length (nodes g) ->
     remove_node g a = Ok (g', (cn, ce)) -> exists keep, increasing keep /\
       Forall2 (fun n' i => nth_error (nodes g) i = Some n') (nodes g') keep /\
       unreported_same keep g g' cn ce).
  { intros a Ha D La R.
    assert (NLa : ~ lonely_loop g a).
    { intros LL. apply NL. destruct LL as [(e' & Hin' & J) D'].
      assert (e' = e).
      { apply In_nth_error in Hin'. destruct Hin' as [j Hj].
        destruct (Nat.eq_dec j id) as [->|N]; [congruence|]. exfalso.
        assert (2 <= degree_in (edges g) a); [|unfold degree in D; lia].
        apply (degree_two (edges g) j id e' e); auto.
        destruct J as [[? ?]|[? ?]]; left; assumption. }
      subst e'. assert (src e = a /\ dst e = a) by (destruct J as [[? ?]|[? ?]]; tauto).
      destruct H0 as [-> _]. split; [|exact D']. exists e. easy. }
    exists (keep_of g a).
    pose proof (remove_node_restricts g g' a _ Hv La NLa R) as (I1 & _ & I3 & _).
    split; [exact I1|]. split; [exact I3|]. eapply remove_node_report; eassumption. }
  destruct (Nat.eqb_spec (degree g (src e)) 1) as [Ds|Ds]; [apply (Case (src e)); auto; now left|].
  destruct (Nat.eqb_spec (degree g (dst e)) 1) as [Dd|Dd]; [apply (Case (dst e)); auto; now right|].
  destruct (Nat.eqb_spec (S id) (List.length (edges g))); [discriminate|].
  destruct (rev (edges g)) as [|last rr] eqn:R; [discriminate|]. inv H.
  exists (seq 0 (List.length (nodes g))). split.
  { rewrite <- (filter_true_seq (fun _ => true)) by reflexivity. apply increasing_filter_seq. }
  split; [apply seq_self_nodes|]. split; [reflexivity|].
  intros i Hi. simpl in Hi. simpl edges.
  rewrite (swap_remove_nth (edges g) id last rr i R); [|lia|intuition|intuition].
  destruct (nth_error (edges g) i) as [x|] eqn:E; [|exact I].
  destruct (Hv x (nth_error_In _ _ E)).
  unfold same_edge_via. now rewrite !nth_error_seq0.
Qed.
End Any.

(** ** Invariants that need the order laws *)
Section Lawful.
Context {O : Ops} (L : Laws O) {T U : Type}.
Variable dT : T.
Local Notation graph := (PlanarGraph O T U).
Local Notation edge := (Edge U).
Local Notation node := (Node O T).

Lemma subseq_separated : forall (g g' : graph) keep, separated g -> NoDup keep ->
  Forall2 (fun n' i => nth_error (nodes g) i = Some n') (nodes g') keep -> separated g'.
Proof.
  intros g g' keep S N F i j ni nj Hij Hi Hj.
  destruct (forall2_nth' _ _ _ _ _ F _ _ Hi) as (a & Ha & Na).
  destruct (forall2_nth' _ _ _ _ _ F _ _ Hj) as (b & Hb & Nb).
  apply (S a b); auto. intros ->. apply Hij. eapply nodup_nth_inj; eassumption.
Qed.

Lemma remove_node_separated : forall (g g' : graph) id r,
  remove_node g id = Ok (g', r) -> separated g -> separated g'.
Proof.
  intros g g' id [cn ce] H S.
  destruct (lt_dec id (List.length (nodes g))) as [Hid|Hid].
  - apply remove_node_ok in H; [|exact Hid].
    destruct H as (m & mn & me & _ & Hn & _).
    apply (subseq_separated g g' (keep_of g id) S).
    + apply NoDup_filter, seq_NoDup.
    + rewrite Hn. apply filter_unmarked_nodes.
  - rewrite remove_node_missing in H by lia. now inv H.
Qed.

Lemma remove_edge_separated : forall (g g' : graph) id r, valid g ->
  remove_edge g id = Ok (g', r) -> separated g -> separated g'.
Proof.
  intros g g' id r Hv H Hs.
  destruct (nth_error (edges g) id) as [e|] eqn:E.
  - rewrite (remove_edge_cases g id e Hv E) in H.
    destruct (degree g (src e) =? 1); [eapply remove_node_separated; eassumption|].
    destruct (degree g (dst e) =? 1); [eapply remove_node_separated; eassumption|].
    destruct (S id =? List.length (edges g)); [discriminate|].
    destruct (rev (edges g)) as [|last rr] eqn:R; [discriminate|]. inv H. exact Hs.
  - apply nth_error_None in E. rewrite remove_edge_missing in H by exact E. now inv H.
Qed.

Lemma run_separated : forall os (g g' : graph), valid g -> separated g ->
  run dT g os = Ok g' -> separated g'.
Proof.
  intros os g g' Hv Hs H.
  assert (P : valid g' /\ separated g'); [|apply P].
  revert H. apply (run_from dT (fun g => valid g /\ separated g)); [|easy].
  clear g g' Hv Hs os. intros g o g' [Hv Hs] H. split; [eapply step_valid; eassumption|].
  destruct o as [p d|s d u|i|i]; simpl in H; apply bind_ok in H; destruct H as ([g1 r] & H & E); inv E.
  - eapply (add_node_separated L); eassumption.
  - eapply (add_edge_separated L); eassumption.
  - eapply remove_node_separated; eassumption.
  - eapply remove_edge_separated; eassumption.
Qed.

Lemma reachable_separated : forall g : graph, reachable dT g -> separated g.
Proof.
  intros g [os H]. eapply run_separated; [| |exact H].
  - intros e [].
  - intros i j ni nj _ Hi. destruct i; discriminate.
Qed.

(** ** Self-loops appear only on request *)
Lemma no_loops_not_lonely : forall (g : graph) id, no_loops g -> ~ lonely_loop g id.
Proof.
  intros g id H [(e & Hin & J) _]. apply (H e Hin). destruct J as [[? ?]|[? ?]]; congruence.
Qed.

Lemma restricts_no_loops : forall keep (g g' : graph) gone es, restricts keep g g' gone es ->
  (forall e, In e es -> In e (edges g)) -> no_loops g -> no_loops g'.
Proof.
  intros keep g g' gone es R Hs NLo e' Hin E.
  destruct (restricts_edge _ _ _ _ _ e' R Hin) as (e & He & S1 & S2 & _).
  apply (NLo e (Hs e He)). congruence.
Qed.

Lemma step_no_loops : forall (g : graph) o g', valid g -> no_loops g ->
  (forall s u, o <> OAddEdge s s u) -> step dT g o = Ok g' -> no_loops g'.
Proof.
  intros g o g' Hv Hl Ho H.
  destruct o as [p d|s d u|i|i]; simpl in H; apply bind_ok in H; destruct H as ([g1 r] & H & E); inv E.
  - destruct r as [i ces]. apply add_node_ok in H.
    destruct H as [(dist & _ & _ & -> & _)|(dist & j & _ & _ & -> & Hn & He & _)]; [exact Hl|].
    intros e Hin Heq. rewrite He in Hin.
    apply (Hl e); [|exact Heq]. eapply (split_no_new_loops L); [exact Hin|].
    split; [reflexivity|now symmetry].
  - apply add_edge_ok in H.
    destruct H as [(_ & -> & _)|[(_ & _ & -> & _)|(_ & Hs & Hd & ns & es & Hg & _)]]; auto.
    intros e Hin Heq.
    assert (Hin0 : In e (edges (with_edge g s d u))).
    { eapply (grow_no_new_loops L); [exact Hg|exact Hin|]. split; [reflexivity|now symmetry]. }
    simpl in Hin0. apply in_app_or in Hin0. destruct Hin0 as [Hin0|[<-|[]]].
    + now apply (Hl e).
    + simpl in Heq. subst. now apply (Ho d u).
  - destruct (lt_dec i (List.length (nodes g))) as [Hi|Hi].
    + pose proof (remove_node_restricts g g' i r Hv Hi (no_loops_not_lonely g i Hl) H) as R.
      eapply restricts_no_loops; [exact R| |exact Hl].
      intros e He. apply filter_In in He. easy.
    + rewrite remove_node_missing in H by lia. now inv H.
  - destruct (nth_error (edges g) i) as [e|] eqn:E.
    + destruct (remove_edge_restricts g g' i e r Hv E (no_loops_not_lonely g _ Hl) H)
        as (keep & sv & P & R).
      eapply restricts_no_loops; [exact R| |exact Hl].
      intros x Hx. apply (without_incl _ i). eapply Permutation_in; eassumption.
    + apply nth_error_None in E. rewrite remove_edge_missing in H by exact E. now inv H.
Qed.

Lemma run_no_loops : forall os (g : graph), no_loop_requests os ->
  run dT graph_new os = Ok g -> no_loops g.
Proof.
  intros os g. revert g. induction os as [|o os IH] using rev_ind; intros g Hr H.
  - inv H. intros e [].
  - apply run_app in H. destruct H as (g1 & H1 & H). simpl in H.
    apply bind_ok in H. destruct H as (g2 & H & E). inv E.
    eapply step_no_loops; [| |  |exact H].
    + apply (reachable_valid dT). exists os. exact H1.
    + apply IH; [|exact H1]. intros s u Hin. apply (Hr s u). apply in_or_app. now left.
    + intros s u ->. apply (Hr s u). apply in_or_app. right. now left.
Qed.
End Lawful.
