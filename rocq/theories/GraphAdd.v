(** * Proofs about add_node and add_edge. *)
From Coq Require Import List Arith Bool Lia Relations String.
From Verif Require Import Scalar Utils Polygon Graph GraphSpec Laws.
Import ListNotations.

Ltac inv H := inversion H; subst; clear H.

Lemma bind_ok : forall A B (m : res A) (k : A -> res B) b,
  bind m k = Ok b -> exists a, m = Ok a /\ k a = Ok b.
Proof. intros A B [a|] k b H; simpl in H; [eauto|discriminate]. Qed.

Lemma index_ok : forall A (l : list A) i x, index l i = Ok x <-> nth_error l i = Some x.
Proof.
  intros. unfold index. destruct (nth_error l i); split; intros H; inversion H; reflexivity.
Qed.

Lemma index_lt : forall A (l : list A) i, i < List.length l -> exists x, index l i = Ok x.
Proof.
  intros A l i H. destruct (nth_error l i) eqn:E.
  - exists a. now apply index_ok.
  - apply nth_error_None in E. lia.
Qed.

(** Slots (from [i]) of the elements satisfying [f]. *)
Fixpoint slots {A} (f : A -> bool) (i : nat) (l : list A) : list nat :=
  match l with
  | [] => []
  | x :: l' => if f x then i :: slots f (S i) l' else slots f (S i) l'
  end.

Lemma slots_in : forall A (f : A -> bool) l i k,
  In k (slots f i l) <-> i <= k /\ exists x, nth_error l (k - i) = Some x /\ f x = true.
Proof.
  intros A f l. induction l as [|x l IH]; intros i k; simpl.
  - split; [easy|]. intros (_ & y & H & _). destruct (k - i); discriminate.
  - assert (E : In k (slots f (S i) l) <->
      S i <= k /\ exists y, nth_error (x :: l) (k - i) = Some y /\ f y = true).
    { rewrite IH. split; intros (H & y & Hy & Hf); (split; [assumption|]); exists y;
        (split; [|assumption]); replace (k - i) with (S (k - S i)) in * by lia; exact Hy. }
    destruct (f x) eqn:Fx; simpl; rewrite E; split.
    + intros [->|(H & H2)]; [|split; [lia|exact H2]].
      split; [lia|]. rewrite Nat.sub_diag. exists x. easy.
    + intros (H & y & Hy & Hf). destruct (Nat.eq_dec i k) as [->|N]; [now left|].
      right. split; [lia|]. eauto.
    + intros (H & H2). split; [lia|exact H2].
    + intros (H & y & Hy & Hf). destruct (Nat.eq_dec i k) as [->|N].
      * rewrite Nat.sub_diag in Hy. inv Hy. congruence.
      * split; [lia|]. eauto.
Qed.

Section Add.
Context {O : Ops} {T U : Type}.
Variable dT : T.
Local Notation graph := (PlanarGraph O T U).
Local Notation edge := (Edge U).
Local Notation node := (Node O T).

(** The edge decision of split_edges_at_node. *)
Definition on_edge (ns : list node) (k : nat) (e : edge) : bool :=
  is_on_line_segment (pos_at ns (src e)) (pos_at ns (dst e)) (pos_at ns k) false.
Definition half1 (k : nat) (e : edge) : edge := MkEdge (src e) k (edata e) DEFAULT_LABEL.
Definition half2 (k : nat) (e : edge) : edge := MkEdge (dst e) k (edata e) DEFAULT_LABEL.
Definition split_edges (on : edge -> bool) (k : nat) (es : list edge) : list edge :=
  map (fun e => if on e then half1 k e else e) es ++ map (half2 k) (filter on es).
Definition split_report (on : edge -> bool) (es : list edge) : list nat :=
  slots on 0 es ++ seq (List.length es) (List.length (filter on es)).

Lemma pos_at_some : forall (ns : list node) i n, nth_error ns i = Some n -> pos_at ns i = position n.
Proof. intros ns i n H. unfold pos_at. now rewrite H. Qed.

Lemma split_loop_ok : forall (ns : list node) k (es : list edge) idx rw ad ch,
  split_at_node_loop ns k idx es = Ok (rw, ad, ch) ->
  rw = map (fun e => if on_edge ns k e then half1 k e else e) es /\
  ad = map (half2 k) (filter (on_edge ns k) es) /\
  ch = slots (on_edge ns k) idx es /\
  (es <> [] -> k < List.length ns) /\
  (forall e, In e es -> src e < List.length ns /\ dst e < List.length ns).
Proof.
  intros ns k es. induction es as [|e es IH]; intros idx rw ad ch H; simpl in H.
  - inv H. repeat split; easy.
  - apply bind_ok in H. destruct H as (n1 & H1 & H).
    apply bind_ok in H. destruct H as (n2 & H2 & H).
    apply bind_ok in H. destruct H as (n3 & H3 & H).
    apply bind_ok in H. destruct H as ([[rw' ad'] ch'] & H4 & H).
    apply index_ok in H1. apply index_ok in H2. apply index_ok in H3.
    apply IH in H4. destruct H4 as (-> & -> & -> & _ & Hv).
    assert (E : on_edge ns k e =
      is_on_line_segment (position n1) (position n2) (position n3) false).
    { unfold on_edge. now rewrite (pos_at_some _ _ _ H1), (pos_at_some _ _ _ H2), (pos_at_some _ _ _ H3). }
    simpl. rewrite E.
    assert (L3 : k < List.length ns) by (apply nth_error_Some; congruence).
    assert (L1 : src e < List.length ns) by (apply nth_error_Some; congruence).
    assert (L2 : dst e < List.length ns) by (apply nth_error_Some; congruence).
    destruct (is_on_line_segment _ _ _ _); inv H; repeat split; try easy;
      try (destruct H; [subst; easy|now apply Hv]).
Qed.

Lemma split_loop_total : forall (ns : list node) k (es : list edge) idx,
  k < List.length ns ->
  (forall e, In e es -> src e < List.length ns /\ dst e < List.length ns) ->
  exists r, split_at_node_loop ns k idx es = Ok r.
Proof.
  intros ns k es. induction es as [|e es IH]; intros idx Hk Hv; simpl.
  - eauto.
  - destruct (Hv e) as [Hs Hd]; [now left|].
    destruct (index_lt _ ns _ Hs) as [n1 ->].
    destruct (index_lt _ ns _ Hd) as [n2 ->].
    destruct (index_lt _ ns _ Hk) as [n3 ->]. simpl.
    destruct (IH (S idx) Hk) as [[[rw ad] ch] ->]; [intros; apply Hv; now right|]. simpl.
    destruct (is_on_line_segment _ _ _ _); eauto.
Qed.

(** split_edges_at_node, in closed form. *)
Lemma split_at_node_ok : forall (g : graph) k g' ces,
  split_edges_at_node g k = Ok (g', ces) ->
  nodes g' = nodes g /\
  ((nth_error (nodes g) k = None /\ g' = g /\ ces = []) \/
   (k < List.length (nodes g) /\
    edges g' = split_edges (on_edge (nodes g) k) k (edges g) /\
    ces = split_report (on_edge (nodes g) k) (edges g))).
Proof.
  intros g k g' ces H. unfold split_edges_at_node in H.
  destruct (nth_error (nodes g) k) eqn:E.
  - apply bind_ok in H. destruct H as ([[rw ad] ch] & H1 & H). inv H. simpl.
    apply split_loop_ok in H1. destruct H1 as (-> & -> & -> & _ & _).
    split; [reflexivity|]. right. split; [apply nth_error_Some; congruence|].
    unfold split_report. now rewrite !map_length.
  - inv H. split; [reflexivity|]. now left.
Qed.

Lemma split_at_node_total : forall (g : graph) k, valid g ->
  exists r, split_edges_at_node g k = Ok r.
Proof.
  intros g k Hv. unfold split_edges_at_node.
  destruct (nth_error (nodes g) k) eqn:E; [|eauto].
  destruct (split_loop_total (nodes g) k (edges g) 0) as [[[rw ad] ch] ->].
  - apply nth_error_Some. congruence.
  - exact Hv.
  - simpl. eauto.
Qed.

(** add_node, in closed form. *)
Lemma add_node_ok : forall (g : graph) p d g' i ces,
  add_node g p d = Ok (g', (i, ces)) ->
  (exists dist, find_closest_to p (gather_node_positions g) = (i, dist) /\
     olt dist ceps = true /\ g' = g /\ ces = []) \/
  (exists dist j, find_closest_to p (gather_node_positions g) = (j, dist) /\
     olt dist ceps = false /\ i = List.length (nodes g) /\
     nodes g' = nodes g ++ [MkNode p d DEFAULT_LABEL] /\
     edges g' = split_edges (on_edge (nodes g') i) i (edges g) /\
     ces = split_report (on_edge (nodes g') i) (edges g)).
Proof.
  intros g p d g' i ces H. unfold add_node in H.
  destruct (find_closest_to p (gather_node_positions g)) as [j dist] eqn:F.
  destruct (olt dist ceps) eqn:L.
  - inv H. left. exists dist. easy.
  - apply bind_ok in H. destruct H as ([g2 ce] & H1 & H). inv H.
    apply split_at_node_ok in H1. simpl in H1.
    assert (E : node_count (MkGraph (nodes g ++ [MkNode p d DEFAULT_LABEL]) (edges g)) - 1
                = List.length (nodes g)).
    { unfold node_count. simpl. rewrite app_length. simpl. lia. }
    rewrite E in H1. destruct H1 as (Hn & H1).
    assert (E' : node_count g' - 1 = List.length (nodes g)).
    { unfold node_count. rewrite Hn, app_length. simpl. lia. }
    right. exists dist, j. rewrite E'.
    destruct H1 as [(H1 & _)|(H1 & H2 & H3)].
    + exfalso. apply nth_error_None in H1. rewrite app_length in H1. simpl in H1. lia.
    + rewrite Hn. repeat split; assumption.
Qed.

Lemma add_node_total : forall (g : graph) p d, valid g -> exists r, add_node g p d = Ok r.
Proof.
  intros g p d Hv. unfold add_node.
  destruct (find_closest_to p (gather_node_positions g)) as [j dist].
  destruct (olt dist ceps); [eauto|].
  match goal with |- context [split_edges_at_node ?g1 ?k] =>
    destruct (split_at_node_total g1 k) as [[g2 ce] ->] end.
  - intros e He. simpl in *. rewrite app_length. simpl. destruct (Hv e He). lia.
  - simpl. eauto.
Qed.

(** ** One splitting step, and sequences of them.  [grow g g' ns es]: from [g] one can
    reach [g'] by splits at existing nodes and by appending default nodes; [ns] and
    [es] are the reports. *)
Inductive grow : graph -> graph -> list nat -> list nat -> Prop :=
| grow_nil : forall g, grow g g [] []
| grow_old : forall g k g' g'' ns es,
    k < List.length (nodes g) ->
    nodes g' = nodes g ->
    edges g' = split_edges (on_edge (nodes g) k) k (edges g) ->
    grow g' g'' ns es ->
    grow g g'' ns (split_report (on_edge (nodes g) k) (edges g) ++ es)
| grow_new : forall g p j dist g' g'' ns es,
    find_closest_to p (gather_node_positions g) = (j, dist) ->
    olt dist ceps = false ->
    nodes g' = nodes g ++ [MkNode p dT DEFAULT_LABEL] ->
    edges g' = split_edges (on_edge (nodes g') (List.length (nodes g)))
                 (List.length (nodes g)) (edges g) ->
    grow g' g'' ns es ->
    grow g g'' (List.length (nodes g) :: ns)
      (split_report (on_edge (nodes g') (List.length (nodes g))) (edges g) ++ es).

Lemma split_at_points_ok : forall ps (g : graph) cn ce g' rn re,
  split_at_points dT g ps cn ce = Ok (g', (rn, re)) ->
  exists ns es, grow g g' ns es /\ rn = cn ++ ns /\ re = ce ++ es.
Proof.
  induction ps as [|p ps IH]; intros g cn ce g' rn re H; simpl in H.
  - inv H. exists [], []. rewrite !app_nil_r. split; [constructor|easy].
  - destruct (find_closest_to p (gather_node_positions g)) as [j dist] eqn:F.
    destruct (olt dist ceps) eqn:L.
    + apply bind_ok in H. destruct H as ([g1 ces] & H1 & H).
      apply IH in H. destruct H as (ns & es & Hg & -> & ->).
      apply split_at_node_ok in H1. destruct H1 as (Hn & [(_ & -> & ->)|(H1 & H2 & H3)]).
      * exists ns, es. rewrite app_nil_r. easy.
      * exists ns, (ces ++ es). subst ces. split.
        -- eapply grow_old; eassumption.
        -- split; [reflexivity|]. now rewrite app_assoc.
    + apply bind_ok in H. destruct H as ([g1 [ni ces]] & H1 & H).
      apply IH in H. destruct H as (ns & es & Hg & -> & ->).
      apply add_node_ok in H1.
      destruct H1 as [(d' & F' & L' & _)|(d' & j' & F' & L' & -> & Hn & He & ->)].
      * congruence.
      * exists (List.length (nodes g) :: ns),
          (split_report (on_edge (nodes g1) (List.length (nodes g))) (edges g) ++ es).
        split.
        -- eapply grow_new; eassumption.
        -- now rewrite <- !app_assoc.
Qed.

Lemma split_edges_valid : forall on k es (ns : list node),
  k < List.length ns ->
  (forall e, In e es -> src e < List.length ns /\ dst e < List.length ns) ->
  forall e, In e (split_edges on k es) -> src e < List.length ns /\ dst e < List.length ns.
Proof.
  intros on k es ns Hk Hv e He. unfold split_edges in He. apply in_app_or in He.
  destruct He as [He|He]; apply in_map_iff in He; destruct He as (e0 & <- & He).
  - destruct (Hv e0 He). destruct (on e0); simpl; lia.
  - apply filter_In in He. destruct He as [He _]. destruct (Hv e0 He). simpl. lia.
Qed.

Lemma split_old_valid : forall (g g' : graph) on k, valid g -> k < List.length (nodes g) ->
  nodes g' = nodes g -> edges g' = split_edges on k (edges g) -> valid g'.
Proof.
  intros g g' on k Hv Hk Hn He e Hin. rewrite Hn. rewrite He in Hin.
  eapply split_edges_valid; eassumption.
Qed.

Lemma split_new_valid : forall (g g' : graph) on n, valid g ->
  nodes g' = nodes g ++ [n] ->
  edges g' = split_edges on (List.length (nodes g)) (edges g) -> valid g'.
Proof.
  intros g g' on n Hv Hn He e Hin. rewrite He in Hin.
  eapply split_edges_valid; [| |eassumption]; rewrite Hn, app_length; simpl; [lia|].
  intros e0 H0. destruct (Hv e0 H0). lia.
Qed.

Lemma grow_valid : forall g g' ns es, grow g g' ns es -> valid g -> valid g'.
Proof.
  induction 1; intros Hv; auto.
  - apply IHgrow. eapply split_old_valid; eassumption.
  - apply IHgrow. eapply split_new_valid; eassumption.
Qed.

Lemma split_at_points_total : forall ps (g : graph) cn ce, valid g ->
  exists r, split_at_points dT g ps cn ce = Ok r.
Proof.
  induction ps as [|p ps IH]; intros g cn ce Hv; simpl; [eauto|].
  destruct (find_closest_to p (gather_node_positions g)) as [j dist] eqn:F.
  destruct (olt dist ceps) eqn:L.
  - destruct (split_at_node_total g j Hv) as [[g1 ces] E]. rewrite E. simpl. apply IH.
    apply split_at_node_ok in E. destruct E as (Hn & [(_ & -> & _)|(H1 & H2 & _)]); [exact Hv|].
    eapply split_old_valid; eassumption.
  - destruct (add_node_total g p dT Hv) as [[g1 [i ces]] E]. rewrite E. simpl. apply IH.
    apply add_node_ok in E. destruct E as [(_ & _ & _ & -> & _)|(_ & _ & _ & _ & -> & Hn & He & _)];
      [exact Hv|].
    eapply split_new_valid; eassumption.
Qed.

Lemma intersections_total : forall (g : graph) id es idx, valid g ->
  id < List.length (edges g) ->
  (forall e, In e es -> src e < List.length (nodes g) /\ dst e < List.length (nodes g)) ->
  exists r, intersections_loop g id idx es = Ok r.
Proof.
  intros g id es. induction es as [|e es IH]; intros idx Hv Hid He; simpl; [eauto|].
  destruct (IH (S idx) Hv Hid) as [r Hr]; [intros; apply He; now right|].
  destruct (negb (id =? idx)) eqn:N; [|eauto].
  destruct (He e) as [Hs Hd]; [now left|].
  destruct (index_lt _ (nodes g) _ Hs) as [n1 ->].
  destruct (index_lt _ (nodes g) _ Hd) as [n2 ->].
  destruct (index_lt _ (edges g) _ Hid) as [eid E]. rewrite E. simpl.
  apply index_ok, nth_error_In in E. destruct (Hv _ E) as [Hs' Hd'].
  destruct (index_lt _ (nodes g) _ Hs') as [n3 ->].
  destruct (index_lt _ (nodes g) _ Hd') as [n4 ->]. simpl. rewrite Hr. simpl.
  destruct (calculate_line_segment_intersection _ _ _ _); eauto.
Qed.

(** ** add_edge in closed form *)
Lemma edge_between_iff : forall (es : list edge) a b,
  edge_between_loop es a b = true <-> exists e, In e es /\ joins a b e.
Proof.
  induction es as [|e es IH]; intros a b; simpl.
  - split; [discriminate|]. intros (e & [] & _).
  - destruct ((a =? src e) && (b =? dst e) || (b =? src e) && (a =? dst e)) eqn:E.
    + split; [intros _|easy]. exists e. split; [now left|].
      apply orb_true_iff in E. unfold joins.
      destruct E as [E|E]; apply andb_true_iff in E; destruct E as [E1 E2];
        apply Nat.eqb_eq in E1; apply Nat.eqb_eq in E2; subst; tauto.
    + rewrite IH. split; intros (e' & H & J).
      * exists e'. auto.
      * destruct H as [<-|H]; [|eauto]. exfalso. apply orb_false_iff in E. destruct E as [E1 E2].
        unfold joins in J. apply andb_false_iff in E1, E2. rewrite !Nat.eqb_neq in *. lia.
Qed.

Lemma between_adjacent : forall (g : graph) a b,
  has_edge_between_nodes g a b = true <-> adjacent g a b.
Proof. intros. apply edge_between_iff. Qed.

Definition with_edge (g : graph) (s d : nat) (u : U) : graph :=
  MkGraph (nodes g) (edges g ++ [MkEdge s d u DEFAULT_LABEL]).

Lemma with_edge_valid : forall (g : graph) s d u, valid g ->
  s < List.length (nodes g) -> d < List.length (nodes g) -> valid (with_edge g s d u).
Proof.
  intros g s d u Hv Hs Hd e He. simpl in *. apply in_app_or in He.
  destruct He as [He|[<-|[]]]; [now apply Hv|]. easy.
Qed.

Lemma add_edge_ok : forall (g : graph) s d u g' r,
  add_edge dT g s d u = Ok (g', r) ->
  (adjacent g s d /\ g' = g /\ r = AddOk [] []) \/
  (~ adjacent g s d /\ ~ (s < List.length (nodes g) /\ d < List.length (nodes g)) /\
     g' = g /\ r = NoSuchVertex) \/
  (~ adjacent g s d /\ s < List.length (nodes g) /\ d < List.length (nodes g) /\
     exists ns es, grow (with_edge g s d u) g' ns es /\
       r = AddOk ns (match es with [] => [List.length (edges g') - 1] | _ => es end)).
Proof.
  intros g s d u g' r H. unfold add_edge in H.
  destruct (has_edge_between_nodes g s d) eqn:B; simpl in H.
  - inv H. left. now rewrite <- between_adjacent.
  - assert (NA : ~ adjacent g s d) by (rewrite <- between_adjacent; congruence).
    right. unfold get_vertex in H.
    destruct (nth_error (nodes g) s) eqn:Es; [destruct (nth_error (nodes g) d) eqn:Ed|].
    + right. split; [exact NA|]. split; [apply nth_error_Some; congruence|].
      split; [apply nth_error_Some; congruence|].
      apply bind_ok in H. destruct H as ([g2 [cn ce]] & H1 & H). inv H.
      unfold split_edges_along_edge in H1. apply bind_ok in H1. destruct H1 as (is & _ & H1).
      apply split_at_points_ok in H1. destruct H1 as (ns & es & Hg & -> & ->).
      exists ns, es. split; [exact Hg|]. simpl. destruct es; reflexivity.
    + left. inv H. repeat split; auto. intros [_ H]. apply nth_error_Some in H. congruence.
    + left. inv H. repeat split; auto. intros [H _]. apply nth_error_Some in H. congruence.
Qed.

Lemma add_edge_total : forall (g : graph) s d u, valid g -> exists r, add_edge dT g s d u = Ok r.
Proof.
  intros g s d u Hv. unfold add_edge.
  destruct (has_edge_between_nodes g s d); simpl; [eauto|].
  unfold get_vertex.
  destruct (nth_error (nodes g) s) eqn:Es; [|eauto].
  destruct (nth_error (nodes g) d) eqn:Ed; [|eauto].
  assert (V1 : valid (with_edge g s d u)).
  { apply with_edge_valid; auto; apply nth_error_Some; congruence. }
  unfold split_edges_along_edge.
  match goal with |- context [intersections_loop ?g1 ?i 0 ?es] =>
    destruct (intersections_total g1 i es 0) as [r Hr] end.
  - exact V1.
  - unfold edge_count. simpl. rewrite app_length. simpl. lia.
  - exact V1.
  - rewrite Hr. simpl.
    match goal with |- context [split_at_points dT ?g1 ?ps [] []] =>
      destruct (split_at_points_total ps g1 [] [] V1) as [[g2 [cn ce]] ->] end.
    simpl. eauto.
Qed.

End Add.

Lemma slots_nodup : forall A (f : A -> bool) l i, NoDup (slots f i l).
Proof.
  intros A f l. induction l as [|x l IH]; intros i; simpl; [constructor|].
  destruct (f x); [|apply IH]. constructor; [|apply IH].
  intros H. apply slots_in in H. destruct H as [H _]. lia.
Qed.

Lemma NoDup_app_disjoint : forall A (l l' : list A), NoDup l -> NoDup l' ->
  (forall x, In x l -> In x l' -> False) -> NoDup (l ++ l').
Proof.
  intros A l l' N N' D. induction N as [|x l Hx N IH]; simpl; [exact N'|].
  constructor.
  - intros H. apply in_app_or in H. destruct H as [H|H]; [contradiction|].
    apply (D x); [now left|exact H].
  - apply IH. intros y H1 H2. apply (D y); [now right|exact H2].
Qed.
