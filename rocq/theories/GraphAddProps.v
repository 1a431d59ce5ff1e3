(** * What additions preserve and report. *)
From Coq Require Import List Arith Bool Lia Relations String.
From Verif Require Import Scalar Utils Polygon Graph GraphSpec Laws Closest GraphAdd.
Import ListNotations.

Section Any.
Context {O : Ops} {T U : Type}.
Variable dT : T.
Local Notation graph := (PlanarGraph O T U).
Local Notation edge := (Edge U).
Local Notation node := (Node O T).

(** ** Nodes *)
Lemma grow_nodes : forall (g g' : graph) ns es, grow dT g g' ns es ->
  exists new, nodes g' = nodes g ++ new /\ ns = seq (List.length (nodes g)) (List.length new) /\
    Forall (fun n => ndata n = dT /\ nlabel n = DEFAULT_LABEL) new.
Proof.
  induction 1 as [g|g k g' g'' ns es Hk Hn He Hg (new & E & -> & F)
                 |g p j dist g' g'' ns es Hc Hd Hn He Hg (new & E & -> & F)].
  - exists []. rewrite app_nil_r. split; [reflexivity|]. split; [reflexivity|constructor].
  - exists new. now rewrite E, Hn.
  - exists (MkNode p dT DEFAULT_LABEL :: new). rewrite E, Hn, <- app_assoc. split; [reflexivity|].
    split.
    + simpl. rewrite app_length. simpl. now rewrite Nat.add_1_r.
    + constructor; [easy|exact F].
Qed.

(** ** Edge slots and reports *)
Lemma split_edges_length : forall on k (es : list edge),
  List.length (split_edges on k es) = List.length es + List.length (filter on es).
Proof. intros. unfold split_edges. now rewrite app_length, !map_length. Qed.

Lemma split_report_spec : forall (on : edge -> bool) es i,
  In i (split_report on es) <->
  (exists e, nth_error es i = Some e /\ on e = true) \/
  List.length es <= i < List.length es + List.length (filter on es).
Proof.
  intros on es i. unfold split_report. rewrite in_app_iff, slots_in, in_seq, Nat.sub_0_r.
  intuition lia.
Qed.

Lemma split_edges_old : forall on k (es : list edge) i e,
  nth_error es i = Some e ->
  nth_error (split_edges on k es) i = Some (if on e then half1 k e else e).
Proof.
  intros on k es i e H. unfold split_edges. rewrite nth_error_app1.
  - now rewrite nth_error_map, H.
  - rewrite map_length. apply nth_error_Some. congruence.
Qed.

(** Slots not reported are untouched. *)
Lemma split_unreported : forall on k (es : list edge) i,
  ~ In i (split_report on es) -> nth_error (split_edges on k es) i = nth_error es i.
Proof.
  intros on k es i H. rewrite split_report_spec in H.
  destruct (nth_error es i) as [e|] eqn:E.
  - rewrite (split_edges_old _ _ _ _ _ E).
    destruct (on e) eqn:F; [|reflexivity]. exfalso. apply H. left. eauto.
  - apply nth_error_None in E. apply nth_error_None. rewrite split_edges_length. lia.
Qed.

Lemma grow_reported_valid : forall (g g' : graph) ns es, grow dT g g' ns es ->
  List.length (edges g) <= List.length (edges g') /\
  forall i, In i es -> i < List.length (edges g').
Proof.
  assert (R : forall (on : edge -> bool) l i, In i (split_report on l) ->
     i < List.length l + List.length (filter on l)).
  { intros on l i H. apply split_report_spec in H. destruct H as [(e & H & _)|H]; [|lia].
    assert (i < List.length l) by (apply nth_error_Some; congruence). lia. }
  induction 1 as [g|g k g' g'' ns es Hk Hn He Hg [IH1 IH2]
                 |g p j dist g' g'' ns es Hc Hd Hn He Hg [IH1 IH2]].
  - easy.
  - rewrite He, split_edges_length in IH1. split; [lia|].
    intros i Hi. apply in_app_or in Hi. destruct Hi as [Hi|Hi]; [|auto]. apply R in Hi. lia.
  - rewrite He, split_edges_length in IH1. split; [lia|].
    intros i Hi. apply in_app_or in Hi. destruct Hi as [Hi|Hi]; [|auto]. apply R in Hi. lia.
Qed.

Lemma grow_unreported : forall (g g' : graph) ns es, grow dT g g' ns es ->
  forall i, ~ In i es -> nth_error (edges g') i = nth_error (edges g) i.
Proof.
  induction 1 as [g|g k g' g'' ns es Hk Hn He Hg IH
                 |g p j dist g' g'' ns es Hc Hd Hn He Hg IH]; intros i Hi.
  - reflexivity.
  - rewrite in_app_iff in Hi. rewrite IH, He by tauto. apply split_unreported. tauto.
  - rewrite in_app_iff in Hi. rewrite IH, He by tauto. apply split_unreported. tauto.
Qed.

(** ** Data *)
Lemma split_edges_data : forall on k (es : list edge) e, In e (split_edges on k es) ->
  exists e0, In e0 es /\ edata e = edata e0.
Proof.
  intros on k es e H. unfold split_edges in H. apply in_app_or in H.
  destruct H as [H|H]; apply in_map_iff in H; destruct H as (e0 & <- & H).
  - exists e0. split; [exact H|]. destruct (on e0); reflexivity.
  - apply filter_In in H. exists e0. split; [easy|reflexivity].
Qed.

Lemma grow_data : forall (g g' : graph) ns es, grow dT g g' ns es ->
  forall e, In e (edges g') -> exists e0, In e0 (edges g) /\ edata e = edata e0.
Proof.
  induction 1 as [g|g k g' g'' ns es Hk Hn He Hg IH
                 |g p j dist g' g'' ns es Hc Hd Hn He Hg IH]; intros e Hin; [eauto| |];
    destruct (IH e Hin) as (e1 & H1 & ->); rewrite He in H1;
    apply split_edges_data in H1; destruct H1 as (e0 & H0 & E); eauto.
Qed.

Lemma split_edges_label : forall on k (es : list edge),
  Forall (fun e => elabel e = DEFAULT_LABEL) es ->
  Forall (fun e => elabel e = DEFAULT_LABEL) (split_edges on k es).
Proof.
  intros on k es H. rewrite Forall_forall in *. intros e He. unfold split_edges in He.
  apply in_app_or in He.
  destruct He as [He|He]; apply in_map_iff in He; destruct He as (e0 & <- & He).
  - destruct (on e0); [reflexivity|auto].
  - reflexivity.
Qed.

Lemma grow_label : forall (g g' : graph) ns es, grow dT g g' ns es ->
  Forall (fun e => elabel e = DEFAULT_LABEL) (edges g) ->
  Forall (fun e => elabel e = DEFAULT_LABEL) (edges g').
Proof.
  induction 1; intros F; auto.
  - apply IHgrow. rewrite H1. now apply split_edges_label.
  - apply IHgrow. rewrite H2. now apply split_edges_label.
Qed.

(** ** Connectivity: splitting replaces an edge by a path *)
Lemma connected_sym : forall (g : graph) a b, connected g a b -> connected g b a.
Proof.
  intros g a b H. induction H.
  - apply rt_step. destruct H as (e & Hin & J). exists e. unfold joins in *. tauto.
  - apply rt_refl.
  - eapply rt_trans; eassumption.
Qed.

Lemma split_connected : forall on k (g g' : graph),
  edges g' = split_edges on k (edges g) ->
  forall a b, connected g a b -> connected g' a b.
Proof.
  intros on k g g' E a b H. induction H as [a b H|a|a b c H1 IH1 H2 IH2].
  - destruct H as (e & Hin & J).
    destruct (on e) eqn:On.
    + assert (A1 : adjacent g' (src e) k).
      { exists (half1 k e). rewrite E. unfold split_edges. split.
        - apply in_or_app. left. apply in_map_iff. exists e. now rewrite On.
        - left. easy. }
      assert (A2 : adjacent g' (dst e) k).
      { exists (half2 k e). rewrite E. unfold split_edges. split.
        - apply in_or_app. right. apply in_map. apply filter_In. easy.
        - left. easy. }
      assert (C : connected g' (src e) (dst e)).
      { eapply rt_trans; [apply rt_step; exact A1|]. apply connected_sym.
        apply rt_step. exact A2. }
      destruct J as [[<- <-]|[<- <-]]; [exact C|now apply connected_sym].
    + apply rt_step. exists e. split; [|exact J]. rewrite E. unfold split_edges.
      apply in_or_app. left. apply in_map_iff. exists e. now rewrite On.
  - apply rt_refl.
  - eapply rt_trans; eassumption.
Qed.

Lemma grow_connected : forall (g g' : graph) ns es, grow dT g g' ns es ->
  forall a b, connected g a b -> connected g' a b.
Proof.
  induction 1 as [g|g k g' g'' ns es Hk Hn He Hg IH
                 |g p j dist g' g'' ns es Hc Hd Hn He Hg IH]; intros a b C; auto;
    apply IH; eapply split_connected; eassumption.
Qed.

Lemma more_edges_connected : forall (g g' : graph), incl (edges g) (edges g') ->
  forall a b, connected g a b -> connected g' a b.
Proof.
  intros g g' I a b H. induction H as [a b H|a|a b c H1 IH1 H2 IH2].
  - apply rt_step. destruct H as (e & Hin & J). exists e. split; [now apply I|exact J].
  - apply rt_refl.
  - eapply rt_trans; eassumption.
Qed.

Lemma add_node_connected : forall (g g' : graph) p d r,
  add_node g p d = Ok (g', r) -> forall a b, connected g a b -> connected g' a b.
Proof.
  intros g g' p d [i ces] H a b C. apply add_node_ok in H.
  destruct H as [(_ & _ & _ & -> & _)|(_ & _ & _ & _ & _ & _ & He & _)]; [exact C|].
  eapply split_connected; eassumption.
Qed.

Lemma add_edge_connected : forall (g g' : graph) s d u r,
  add_edge dT g s d u = Ok (g', r) ->
  (forall a b, connected g a b -> connected g' a b) /\
  (r <> NoSuchVertex -> connected g' s d).
Proof.
  intros g g' s d u r H. apply add_edge_ok in H.
  destruct H as [(A & -> & ->)|[(_ & _ & -> & ->)|(_ & Hs & Hd & ns & es & Hg & ->)]].
  - split; [easy|]. intros _. now apply rt_step.
  - split; [easy|]. congruence.
  - split.
    + intros a b C. eapply grow_connected; [exact Hg|].
      eapply more_edges_connected; [|exact C]. intros e He. simpl. apply in_or_app. now left.
    + intros _. eapply grow_connected; [exact Hg|]. apply rt_step.
      exists (MkEdge s d u DEFAULT_LABEL). simpl. split; [apply in_or_app; right; now left|].
      now left.
Qed.
End Any.

Section Lawful.
Context {O : Ops} (L : Laws O) {T U : Type}.
Variable dT : T.
Local Notation graph := (PlanarGraph O T U).
Local Notation edge := (Edge U).
Local Notation node := (Node O T).

Lemma gather_nth : forall (g : graph) i,
  nth_error (gather_node_positions g) i = option_map position (nth_error (nodes g) i).
Proof. intros. unfold gather_node_positions. apply nth_error_map. Qed.

Lemma closest_not_near : forall (g : graph) p i d,
  find_closest_to p (gather_node_positions g) = (i, d) ->
  (olt d ceps = true <-> near_node g p) /\
  (olt d ceps = true -> exists n, nth_error (nodes g) i = Some n /\ d = distance p (position n)).
Proof.
  intros g p i d H. apply (closest_near L) in H. destruct H as [H1 H2].
  assert (A : olt d ceps = true ->
    exists n, nth_error (nodes g) i = Some n /\ d = distance p (position n)).
  { intros E. destruct (H1 E) as (q & Hq & ->). rewrite gather_nth in Hq.
    destruct (nth_error (nodes g) i) as [n|]; [|discriminate]. inversion Hq. exists n. easy. }
  split; [|exact A]. split.
  - intros E. destruct (A E) as (n & Hn & ->). exists i, n. easy.
  - intros (j & n & Hn & Hlt). destruct (olt d ceps) eqn:E; [reflexivity|].
    rewrite <- Hlt. symmetry. apply (H2 eq_refl j). rewrite gather_nth, Hn. reflexivity.
Qed.

Lemma separated_app : forall (g g' : graph) n, separated g ->
  nodes g' = nodes g ++ [n] -> ~ near_node g (position n) -> separated g'.
Proof.
  intros g g' n Hs Hn Hnn i j ni nj Hij Hi Hj. rewrite Hn in Hi, Hj.
  assert (K : forall k nk, nth_error (nodes g) k = Some nk ->
            olt (distance (position n) (position nk)) ceps = false).
  { intros k nk Hk. destruct (olt _ _) eqn:E; [|reflexivity]. exfalso. apply Hnn.
    exists k, nk. easy. }
  assert (C : forall k nk, nth_error (nodes g ++ [n]) k = Some nk ->
    nth_error (nodes g) k = Some nk \/ (k = List.length (nodes g) /\ nk = n)).
  { intros k nk Hk. destruct (lt_dec k (List.length (nodes g))).
    - left. now rewrite nth_error_app1 in Hk.
    - right. rewrite nth_error_app2 in Hk by lia.
      destruct (k - List.length (nodes g)) as [|m] eqn:E; simpl in Hk.
      + inversion Hk. split; [lia|reflexivity].
      + destruct m; discriminate. }
  destruct (C _ _ Hi) as [Hi'|[-> ->]], (C _ _ Hj) as [Hj'|[-> ->]].
  - eapply Hs; eassumption.
  - rewrite (distance_sym L). eapply K; eassumption.
  - eapply K; eassumption.
  - congruence.
Qed.

Lemma separated_nodes : forall (g g' : graph), nodes g' = nodes g -> separated g -> separated g'.
Proof. intros g g' H S i j ni nj. rewrite H. apply S. Qed.

Lemma add_node_separated : forall (g g' : graph) p d r,
  add_node g p d = Ok (g', r) -> separated g -> separated g'.
Proof.
  intros g g' p d [i ces] H S. apply add_node_ok in H.
  destruct H as [(_ & _ & _ & -> & _)|(dist & j & F & L' & _ & Hn & _)]; [exact S|].
  eapply separated_app; [exact S|exact Hn|]. simpl.
  apply closest_not_near in F. destruct F as [F _]. rewrite <- F. congruence.
Qed.

Lemma grow_separated : forall (g g' : graph) ns es, grow dT g g' ns es -> separated g -> separated g'.
Proof.
  induction 1 as [g|g k g' g'' ns es Hk Hn He Hg IH
                 |g p j dist g' g'' ns es Hc Hd Hn He Hg IH]; intros S; auto; apply IH.
  - eapply separated_nodes; eassumption.
  - eapply separated_app; [exact S|exact Hn|]. simpl.
    apply closest_not_near in Hc. destruct Hc as [F _]. rewrite <- F. congruence.
Qed.

Lemma add_edge_separated : forall (g g' : graph) s d u r,
  add_edge dT g s d u = Ok (g', r) -> separated g -> separated g'.
Proof.
  intros g g' s d u r H S. apply add_edge_ok in H.
  destruct H as [(_ & -> & _)|[(_ & _ & -> & _)|(_ & Hs & Hd & ns & es & Hg & _)]]; auto.
  eapply grow_separated; [exact Hg|]. exact S.
Qed.

(** ** Self-loops: splitting never makes one *)
Lemma not_on_end1 : forall (a b : Vec2 O) i, is_on_line_segment a b a i = false.
Proof.
  intros. unfold is_on_line_segment. rewrite (dist_self O L).
  now rewrite andb_false_r.
Qed.
Lemma not_on_end2 : forall (a b : Vec2 O) i, is_on_line_segment a b b i = false.
Proof.
  intros. unfold is_on_line_segment. rewrite (dist_self O L).
  now rewrite andb_false_r.
Qed.

Definition loop_at (a : nat) (e : edge) : Prop := src e = a /\ dst e = a.

Lemma split_no_new_loops : forall (ns : list node) k (es : list edge) a e,
  In e (split_edges (on_edge ns k) k es) -> loop_at a e -> In e es.
Proof.
  intros ns k es a e H [Hs Hd]. unfold split_edges in H. apply in_app_or in H.
  destruct H as [H|H]; apply in_map_iff in H; destruct H as (e0 & <- & H).
  - destruct (on_edge ns k e0) eqn:E; [|exact H]. simpl in *. subst k.
    unfold on_edge in E. rewrite <- Hs in E. rewrite not_on_end1 in E. discriminate.
  - apply filter_In in H. destruct H as [H E]. simpl in *. subst k.
    unfold on_edge in E. rewrite <- Hs in E. rewrite not_on_end2 in E. discriminate.
Qed.

Lemma grow_no_new_loops : forall (g g' : graph) ns es, grow dT g g' ns es ->
  forall a e, In e (edges g') -> loop_at a e -> In e (edges g).
Proof.
  induction 1 as [g|g k g' g'' ns es Hk Hn He Hg IH
                 |g p j dist g' g'' ns es Hc Hd Hn He Hg IH]; intros a e Hin Hl; auto.
  - specialize (IH a e Hin Hl). rewrite He in IH. eapply split_no_new_loops; eassumption.
  - specialize (IH a e Hin Hl). rewrite He in IH. eapply split_no_new_loops; eassumption.
Qed.

(** ** The node just added is interior to no edge *)
Lemma split_clears : forall (ns : list node) k (es : list edge) e,
  In e (split_edges (on_edge ns k) k es) -> on_edge ns k e = false.
Proof.
  intros ns k es e H. unfold split_edges in H. apply in_app_or in H.
  destruct H as [H|H]; apply in_map_iff in H; destruct H as (e0 & <- & H).
  - destruct (on_edge ns k e0) eqn:E; [|exact E]. unfold on_edge. simpl. apply not_on_end2.
  - unfold on_edge. simpl. apply not_on_end2.
Qed.

Lemma add_node_clears : forall (g g' : graph) p d k ces,
  add_node g p d = Ok (g', (k, ces)) -> List.length (nodes g') = S (List.length (nodes g)) ->
  forall e, In e (edges g') ->
    is_on_line_segment (pos_at (nodes g') (src e)) (pos_at (nodes g') (dst e))
      (pos_at (nodes g') k) false = false.
Proof.
  intros g g' p d k ces H Hc e Hin. apply add_node_ok in H.
  destruct H as [(dist & _ & _ & -> & _)|(dist & j & _ & _ & -> & Hn & He & _)]; [lia|].
  rewrite He in Hin. exact (split_clears _ _ _ e Hin).
Qed.

Lemma add_node_cases : forall (g : graph) p d, valid g ->
  exists g' i ces, add_node g p d = Ok (g', (i, ces)) /\
    ((near_node g p /\ g' = g /\ ces = [] /\
      exists n, nth_error (nodes g) i = Some n /\ olt (distance p (position n)) ceps = true) \/
     (~ near_node g p /\ i = List.length (nodes g) /\
      nodes g' = nodes g ++ [MkNode p d DEFAULT_LABEL])).
Proof.
  intros g p d R.
  destruct (add_node_total g p d R) as [[g' [i ces]] H].
  exists g', i, ces. split; [exact H|]. apply add_node_ok in H.
  destruct H as [(dist & Hc & Hd & -> & ->)|(dist & j & Hc & Hd & -> & Hn & _)].
  - left. destruct (closest_not_near g p i dist Hc) as [H1 H2].
    split; [now apply H1|]. split; [reflexivity|]. split; [reflexivity|].
    destruct (H2 Hd) as (n & Hn & ->). exists n. easy.
  - right. destruct (closest_not_near g p j dist Hc) as [H1 _].
    split; [|easy]. rewrite <- H1, Hd. discriminate.
Qed.
End Lawful.
