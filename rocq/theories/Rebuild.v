(** * Building a graph again from its nodes and edges. *)
From Coq Require Import Reals Lia Lra List Bool Arith Permutation ZArith.
From Flocq Require Import Core.Core IEEE754.BinarySingleNaN.
From Verif Require Import Scalar Utils Polygon Laws Graph ListSpec GraphSpec PlaneSpec PlanarSpec GridSpec GeoSpec SimSpec
  GraphAdd GraphAddProps GraphRemove GraphHistory UtilsReal F32 UtilsF32 PolyF32 PolyNewF32 GraphPlanar GraphSim GridUtils GridSeg GridPrim GridOn GridGraph GridInst
  MarginSpec MarginReal MarginSeg MarginGraph MarginAdd MarginHist Follow MarginSim Draw DrawSpec ThroughSpec GridThroughSpec GridThrough RebuildSpec.
Import ListNotations.
Local Open Scope R_scope.

Section Generic.
Context {O : Ops} {T U : Type} (dT : T).
Local Notation graph := (PlanarGraph O T U).
Local Notation edge := (Edge U).

Lemma firstn_next : forall A (l : list A) i x, nth_error l i = Some x -> firstn (S i) l = firstn i l ++ [x].
Proof.
  intros A l. induction l as [|y l IH]; intros [|i] x H; try discriminate; cbn in *; [now injection H as <-|]. f_equal. now apply IH.
Qed.
Lemma skip_next : forall A (l : list A) i x l', skipn i l = x :: l' -> skipn (S i) l = l'.
Proof.
  intros A l. induction l as [|y l IH]; intros [|i] x l' H; try discriminate; cbn [skipn] in *; [now injection H as _ <-|].
  now apply (IH i x).
Qed.
Lemma unmarked_incl : forall A marked (l : list A) i x, In x (filter_unmarked marked i l) -> In x l.
Proof.
  intros A marked l. induction l as [|y l IH]; intros i x H; [exact H|]. cbn [filter_unmarked] in H.
  destruct (mem i marked); [right; now apply (IH (S i))|]. destruct H as [<-|H]; [now left|]. right. now apply (IH (S i)).
Qed.
Lemma remove_node_incl : forall (g g' : graph) i r n, remove_node g i = Ok (g', r) -> In n (nodes g') -> In n (nodes g).
Proof.
  intros g g' i [cn ce] n H Hn. destruct (le_lt_dec (length (nodes g)) i) as [L|L].
  - rewrite remove_node_missing in H by exact L. now injection H as <- _ _.
  - destruct (remove_node_ok g g' i cn ce L H) as (m & mn & me & _ & E & _). rewrite E in Hn. eapply unmarked_incl. exact Hn.
Qed.
Lemma remove_edge_incl : forall (g g' : graph) i r n, valid g -> remove_edge g i = Ok (g', r) -> In n (nodes g') -> In n (nodes g).
Proof.
  intros g g' i r n V H. destruct (nth_error (edges g) i) as [e|] eqn:E.
  - rewrite (remove_edge_cases g i e V E) in H. destruct (degree g (src e) =? 1); [exact (remove_node_incl _ _ _ _ _ H)|].
    destruct (degree g (dst e) =? 1); [exact (remove_node_incl _ _ _ _ _ H)|].
    destruct (S i =? length (edges g)); [discriminate|]. destruct (rev (edges g)); [discriminate|]. injection H as <- _. auto.
  - apply nth_error_None in E. rewrite remove_edge_missing in H by exact E. now injection H as <- _.
Qed.
Lemma run_two : forall os os' (g : graph), run dT g (os ++ os') = let! g1 := run dT g os in run dT g1 os'.
Proof.
  induction os as [|o os IH]; intros os' g; [reflexivity|]. cbn [app run]. destruct (step dT g o) as [g1|]; cbn [bind]; [apply IH|reflexivity].
Qed.
(** From the single calls to the whole. *)
Lemma rebuild_run : forall g : graph,
  (forall i n, nth_error (nodes g) i = Some n -> exists r,
     add_node (MkGraph (firstn i (nodes g)) [] : graph) (position n) (ndata n) = Ok (MkGraph (firstn (S i) (nodes g)) [], r)) ->
  (forall j e, nth_error (edges g) j = Some e -> exists r,
     add_edge dT (MkGraph (nodes g) (firstn j (edges g))) (src e) (dst e) (edata e) = Ok (MkGraph (nodes g) (firstn (S j) (edges g)), r)) ->
  run dT graph_new (rebuild g) = Ok g.
Proof.
  intros [ns es] H1 H2. cbn [nodes edges] in *. unfold rebuild. rewrite run_two.
  assert (A : forall l i, skipn i ns = l -> run dT (MkGraph (firstn i ns) [] : graph) (map (fun n => OAddNode (position n) (ndata n)) l) = Ok (MkGraph ns [])).
  { induction l as [|n l IH]; intros i E.
    - cbn. assert (length ns <= i)%nat by (rewrite <- (firstn_skipn i ns), E, app_nil_r; apply firstn_le_length). now rewrite firstn_all2.
    - assert (Hn : nth_error ns i = Some n).
      { rewrite <- (firstn_skipn i ns), E. assert (L : (length (firstn i ns) = i)%nat).
        { apply firstn_length_le. destruct (le_lt_dec i (length ns)) as [|Q]; [assumption|]. rewrite skipn_all2 in E by lia. discriminate. }
        rewrite nth_error_app2 by lia. rewrite L, Nat.sub_diag. reflexivity. }
      cbn [map run step]. destruct (H1 i n Hn) as (r & ->). cbn [bind]. apply IH.
      exact (skip_next _ _ _ _ _ E). }
  pose proof (A ns 0%nat eq_refl) as A0. cbn [firstn] in A0. cbn [nodes edges]. change (@graph_new O T U) with (MkGraph [] [] : graph). rewrite A0. cbn [bind].
  assert (B : forall l i, skipn i es = l -> run dT (MkGraph ns (firstn i es)) (map (fun e => OAddEdge (src e) (dst e) (edata e)) l) = Ok (MkGraph ns es)).
  { induction l as [|n l IH]; intros i E.
    - cbn. assert (length es <= i)%nat by (rewrite <- (firstn_skipn i es), E, app_nil_r; apply firstn_le_length). now rewrite firstn_all2.
    - assert (Hn : nth_error es i = Some n).
      { rewrite <- (firstn_skipn i es), E. assert (L : (length (firstn i es) = i)%nat).
        { apply firstn_length_le. destruct (le_lt_dec i (length es)) as [|Q]; [assumption|]. rewrite skipn_all2 in E by lia. discriminate. }
        rewrite nth_error_app2 by lia. rewrite L, Nat.sub_diag. reflexivity. }
      cbn [map run step]. destruct (H2 i n Hn) as (r & ->). cbn [bind]. apply IH.
      exact (skip_next _ _ _ _ _ E). }
  exact (B es 0%nat eq_refl).
Qed.

(** The same with a condition on every call. *)
Fixpoint along_run (Q : graph -> @op O T U -> Prop) (g : graph) (os : list (@op O T U)) : Prop :=
  match os with [] => True | o :: os' => Q g o /\ forall g', step dT g o = Ok g' -> along_run Q g' os' end.
Lemma along_app : forall Q os os' g, along_run Q g os -> (forall g', run dT g os = Ok g' -> along_run Q g' os') -> along_run Q g (os ++ os').
Proof.
  intros Q os os'. induction os as [|o os IH]; intros g H K; [now apply K|]. destruct H as [H1 H2]. split; [exact H1|].
  intros g' E. apply IH; [now apply H2|]. intros g'' R. apply K. cbn [run]. rewrite E. exact R.
Qed.
Lemma rebuild_along : forall (Q : graph -> @op O T U -> Prop) (g : graph),
  (forall i n, nth_error (nodes g) i = Some n -> exists r,
     add_node (MkGraph (firstn i (nodes g)) [] : graph) (position n) (ndata n) = Ok (MkGraph (firstn (S i) (nodes g)) [], r)) ->
  (forall j e, nth_error (edges g) j = Some e -> exists r,
     add_edge dT (MkGraph (nodes g) (firstn j (edges g))) (src e) (dst e) (edata e) = Ok (MkGraph (nodes g) (firstn (S j) (edges g)), r)) ->
  (forall i n, nth_error (nodes g) i = Some n -> Q (MkGraph (firstn i (nodes g)) []) (OAddNode (position n) (ndata n))) ->
  (forall j e, nth_error (edges g) j = Some e -> Q (MkGraph (nodes g) (firstn j (edges g))) (OAddEdge (src e) (dst e) (edata e))) ->
  along_run Q graph_new (rebuild g).
Proof.
  intros Q [ns es] H1 H2 Q1 Q2. cbn [nodes edges] in *. unfold rebuild. cbn [nodes edges].
  assert (Nth : forall A (l : list A) i x l', skipn i l = x :: l' -> nth_error l i = Some x).
  { intros A l. induction l as [|y l IH]; intros [|i] x l' E; try discriminate; cbn in *; [now injection E as <- _|eauto]. }
  assert (A : forall l i, skipn i ns = l -> along_run Q (MkGraph (firstn i ns) [] : graph) (map (fun n => OAddNode (position n) (ndata n)) l)).
  { induction l as [|n l IH]; intros i E; [exact I|]. pose proof (Nth _ _ _ _ _ E) as Hn. cbn [map along_run]. split; [now apply Q1|].
    intros g' S1. cbn [step] in S1. destruct (H1 i n Hn) as (r & R). rewrite R in S1. cbn [bind] in S1. injection S1 as <-.
    exact (IH (S i) (skip_next _ _ _ _ _ E)). }
  assert (B : forall l i, skipn i es = l -> along_run Q (MkGraph ns (firstn i es)) (map (fun e => OAddEdge (src e) (dst e) (edata e)) l)).
  { induction l as [|e l IH]; intros i E; [exact I|]. pose proof (Nth _ _ _ _ _ E) as He. cbn [map along_run]. split; [now apply Q2|].
    intros g' S1. cbn [step] in S1. destruct (H2 i e He) as (r & R). rewrite R in S1. cbn [bind] in S1. injection S1 as <-.
    exact (IH (S i) (skip_next _ _ _ _ _ E)). }
  apply along_app; [exact (A ns 0%nat eq_refl)|]. intros g' R.
  pose proof (rebuild_run (MkGraph ns []) H1 (fun j e H => match nth_error_In _ _ H with end)) as R0. unfold rebuild in R0. cbn [nodes edges map] in R0. rewrite app_nil_r in R0.
  rewrite R0 in R. injection R as <-. exact (B es 0%nat eq_refl).
Qed.

(** Growing without a new node when no edge accepts a node. *)
Lemma grow_longer : forall (g g' : graph) ns es, grow dT g g' ns es -> (length (nodes g) <= length (nodes g'))%nat.
Proof.
  intros g g' ns es H. induction H as [|g k g' g'' ns es _ Hn _ _ IH|g p j dist g' g'' ns es _ _ Hn _ _ IH]; [lia|rewrite <- Hn; exact IH|].
  rewrite Hn, app_length in IH. cbn in IH. lia.
Qed.
Lemma grow_same : forall (g g' : graph) ns es, grow dT g g' ns es -> length (nodes g') = length (nodes g) ->
  (forall k e, (k < length (nodes g))%nat -> In e (edges g) -> on_edge (nodes g) k e = false) -> g' = g.
Proof.
  intros g g' ns es H. induction H as [|g k g' g'' ns es Hk Hn He H IH|g p j dist g' g'' ns es _ _ Hn _ H _]; intros L Q; [reflexivity| |].
  - assert (g' = g).
    { destruct g as [a b], g' as [a' b']. cbn [nodes edges] in *. subst a'. f_equal. rewrite He. apply split_noop. intros e Hin. now apply Q. }
    subst g'. apply IH; assumption.
  - exfalso. apply grow_longer in H. rewrite Hn, app_length in H. cbn in H. lia.
Qed.
Lemma add_edge_same : forall (g g' : graph) s d u r, add_edge dT g s d u = Ok (g', r) -> ~ adjacent g s d ->
  (s < length (nodes g))%nat -> (d < length (nodes g))%nat -> length (nodes g') = length (nodes g) ->
  (forall k e, (k < length (nodes g))%nat -> In e (edges (with_edge g s d u)) -> on_edge (nodes g) k e = false) -> g' = with_edge g s d u.
Proof.
  intros g g' s d u r H NA Ls Ld L Q. apply add_edge_ok in H. destruct H as [(A & _)|[(_ & B & _)|(_ & _ & _ & ns & es & G & _)]]; [contradiction|tauto|].
  apply (grow_same _ _ _ _ G); [exact L|exact Q].
Qed.
Lemma grow_prefix : forall (g g' : graph) ns es, grow dT g g' ns es -> exists new, nodes g' = nodes g ++ new.
Proof.
  intros g g' ns es H. induction H as [g|g k g' g'' ns es _ Hn _ _ (new & IH)|g p j dist g' g'' ns es _ _ Hn _ _ (new & IH)].
  - exists []. now rewrite app_nil_r.
  - exists new. now rewrite <- Hn.
  - eexists. rewrite IH, Hn, <- app_assoc. reflexivity.
Qed.
Lemma add_edge_known : forall (g g' : graph) s d u r, add_edge dT g s d u = Ok (g', r) -> length (nodes g') = length (nodes g) ->
  nodes g' = nodes g.
Proof.
  intros g g' s d u r H L. apply add_edge_ok in H. destruct H as [(_ & -> & _)|[(_ & _ & -> & _)|(_ & _ & _ & ns & es & G & _)]]; [reflexivity..|].
  apply grow_prefix in G. destruct G as (new & E). cbn [nodes with_edge] in E. rewrite E in L |- *. rewrite app_length in L.
  destruct new; [apply app_nil_r|cbn in L; lia].
Qed.
Lemma add_node_known : forall (g g' : graph) p d r, add_node g p d = Ok (g', r) -> edges g = [] -> length (nodes g') = S (length (nodes g)) ->
  g' = MkGraph (nodes g ++ [MkNode p d DEFAULT_LABEL]) [].
Proof.
  intros g g' p d [i ces] H E L. apply add_node_ok in H. destruct H as [(dd & _ & _ & -> & _)|(dd & j & _ & _ & _ & Hn & He & _)]; [lia|].
  rewrite E in He. destruct g' as [a b]. cbn [nodes edges] in *. subst a b. reflexivity.
Qed.

(** Labels are always the default one. *)
Lemma run_plain : forall os (g : graph), run dT graph_new os = Ok g -> plain g.
Proof.
  intros os g H. split; [|intros e He; exact (proj2 (run_supplied dT os g H e He))].
  revert g H. induction os as [|o os IH] using rev_ind; intros g H.
  - injection H as <-. intros n [].
  - rewrite run_two in H. destruct (run dT graph_new os) as [g1|] eqn:R; [|discriminate]. cbn [bind run] in H.
    specialize (IH g1 eq_refl). destruct (step dT g1 o) as [g2|] eqn:E; [|discriminate]. cbn [bind] in H. injection H as <-.
    destruct o as [p d|s d u|i|i]; cbn [step] in E.
    + destruct (add_node g1 p d) as [[g3 [i ces]]|] eqn:A; [|discriminate]. injection E as <-. apply add_node_ok in A.
      destruct A as [(_ & _ & _ & -> & _)|(_ & _ & _ & _ & _ & Hn & _)]; [exact IH|]. intros n. rewrite Hn. intros Hin. apply in_app_or in Hin.
      destruct Hin as [Hin|[<-|[]]]; [now apply IH|reflexivity].
    + destruct (add_edge dT g1 s d u) as [[g3 r]|] eqn:A; [|discriminate]. injection E as <-. apply add_edge_ok in A.
      destruct A as [(_ & -> & _)|[(_ & _ & -> & _)|(_ & _ & _ & ns & es & G & _)]]; [exact IH..|].
      assert (B : forall n, In n (nodes (with_edge g1 s d u)) -> nlabel n = DEFAULT_LABEL) by exact IH. clear - G B.
      induction G as [|g k g' g'' ns es _ Hn _ _ IHG|g p j dist g' g'' ns es _ _ Hn _ _ IHG]; [exact B| |]; apply IHG; rewrite Hn.
      * exact B.
      * intros n Hin. apply in_app_or in Hin. destruct Hin as [Hin|[<-|[]]]; [now apply B|reflexivity].
    + destruct (remove_node g1 i) as [[g3 r]|] eqn:A; [|discriminate]. injection E as <-. intros n Hn. apply IH. eapply remove_node_incl; eassumption.
    + destruct (remove_edge g1 i) as [[g3 r]|] eqn:A; [|discriminate]. injection E as <-. intros n Hn. apply IH.
      eapply remove_edge_incl; [|exact A|exact Hn]. apply (reachable_valid dT). exists os. exact R.
Qed.
End Generic.

(** ** Exact arithmetic *)
Section Exact.
Context {T U : Type} (dT : T).
Local Notation graph := (PlanarGraph XO T U).
Local Notation edge := (Edge U).

Lemma well_drawn_incl : forall ps (es es' : list edge), well_drawn ps (es ++ es') -> well_drawn ps es.
Proof.
  intros ps es es' (V & A & C & P1 & P2). assert (I : forall e, In e es -> In e (es ++ es')) by (intros; apply in_or_app; now left).
  assert (N : forall i e, nth_error es i = Some e -> nth_error (es ++ es') i = Some e).
  { intros i e H. rewrite nth_error_app1; [exact H|]. apply nth_error_Some. congruence. }
  split; [|split; [|split; [|split]]].
  - auto.
  - exact A.
  - auto.
  - intros k e x. eauto.
  - intros i j ei ej x. eauto.
Qed.

Lemma drawn_prefix : forall (g : graph) ps i, drawn g ps -> drawn (MkGraph (firstn i (nodes g)) [] : graph) (firstn i ps).
Proof. intros g ps i D. unfold drawn in *. cbn [nodes]. rewrite <- !firstn_map. now rewrite D. Qed.
Lemma pt_prefix : forall ps i j, (j < i)%nat -> pt (firstn i ps) j = pt ps j.
Proof.
  unfold pt. induction ps as [|p ps IH]; intros [|i] [|j] H; try reflexivity; try lia. cbn [firstn nth]. apply IH. lia.
Qed.

Lemma drawn_at : forall (g : graph) ps i n, drawn g ps -> nth_error (nodes g) i = Some n -> position n = xp (pt ps i).
Proof.
  intros g ps i n D Hn. assert (E : nth_error (map position (nodes g)) i = Some (position n)) by (rewrite nth_error_map, Hn; reflexivity).
  rewrite D, nth_error_map in E. destruct (nth_error ps i) as [q|] eqn:Q; [|discriminate].
  unfold pt. rewrite (nth_error_nth _ _ _ Q). symmetry. exact (f_equal (fun o => match o with Some v => v | None => position n end) E).
Qed.
Lemma next_meets : forall ps (es0 : list edge) e, well_drawn ps (es0 ++ [e]) ->
  forall i f x, nth_error es0 i = Some f -> edge_on ps f x -> on_segment (pt ps (src e)) (pt ps (dst e)) x -> x = pt ps (src e) \/ x = pt ps (dst e).
Proof.
  intros ps es0 e (_ & _ & _ & _ & Pl2) i f x Hi O1 O2. assert (Li : (i < length es0)%nat) by (apply nth_error_Some; congruence).
  destruct (Pl2 i (length es0) f e x) as (k & _ & [<-|<-] & ->); auto; [lia|now rewrite nth_error_app1|now rewrite nth_error_app2, Nat.sub_diag by lia].
Qed.
Lemma next_general : forall ps (es0 : list edge) e, well_drawn ps (es0 ++ [e]) -> src e <> dst e /\ general_position ps es0 (src e) (dst e).
Proof.
  intros ps es0 e W. assert (Hin : In e (es0 ++ [e])) by (apply in_or_app; right; now left). split; [apply W; exact Hin|]. split.
  - intros k Hk _ _. apply W; assumption.
  - intros i f x Hi O1 O2 N1 N2. destruct (next_meets ps es0 e W i f x Hi O1 O2); contradiction.
Qed.

Lemma x_node_step : forall (g : graph) ps i n, drawn g ps -> well_drawn ps (edges g) -> nlabel n = DEFAULT_LABEL ->
  nth_error (nodes g) i = Some n -> exists r,
  add_node (MkGraph (firstn i (nodes g)) [] : graph) (position n) (ndata n) = Ok (MkGraph (firstn (S i) (nodes g)) [], r).
Proof.
  intros g ps i n D (_ & A & _) Ln Hn. assert (Li : (i < length ps)%nat).
  { rewrite <- (drawn_length _ _ D). apply nth_error_Some. congruence. }
  pose proof (drawn_at g ps i n D Hn) as Pn.
  destruct (add_node_total (MkGraph (firstn i (nodes g)) [] : graph) (position n) (ndata n)) as [[g' [k ces]] H]; [intros e []|].
  exists (k, ces). rewrite H. pose proof H as Q. apply add_node_ok in Q.
  destruct Q as [(dd & Fc & L & _)|(dd & j & _ & _ & _ & Hn' & _)].
  - exfalso. rewrite Pn in Fc. destruct (drawn_closest _ _ _ _ _ (drawn_prefix g ps i D) Fc) as [B _]. destruct (B L) as [B1 B2].
    rewrite firstn_length in B1. rewrite pt_prefix in B2 by lia. assert (N : i <> k) by lia. pose proof (A i k Li ltac:(lia) N). lra.
  - assert (G : g' = MkGraph (firstn (S i) (nodes g)) []).
    { rewrite (add_node_known _ _ _ _ _ H eq_refl).
      - cbn [nodes]. rewrite (firstn_next _ _ _ _ Hn). destruct n as [p d l]. cbn [position ndata nlabel] in *. now rewrite Ln.
      - rewrite Hn', app_length. cbn [length]. lia. }
    now rewrite G.
Qed.

Lemma x_edge_step : forall ns ps (es0 : list edge) e, drawn (MkGraph ns es0 : graph) ps -> well_drawn ps (es0 ++ [e]) -> elabel e = DEFAULT_LABEL ->
  exists r, add_edge dT (MkGraph ns es0 : graph) (src e) (dst e) (edata e) = Ok (MkGraph ns (es0 ++ [e]), r).
Proof.
  intros ns ps es0 e D W Le. pose proof (well_drawn_incl _ _ _ W) as W0. pose proof W as (V & A & C & Pl1 & Pl2).
  assert (Hin : In e (es0 ++ [e])) by (apply in_or_app; right; now left). destruct (V e Hin) as (N & Ls & Ld).
  assert (Hl : nth_error (es0 ++ [e]) (length es0) = Some e) by (rewrite nth_error_app2, Nat.sub_diag by lia; reflexivity).
  pose proof (drawn_length _ _ D) as Len. cbn [nodes] in Len.
  pose proof (next_meets ps es0 e W) as Cr. pose proof (proj2 (next_general ps es0 e W)) as GP.
  assert (NA : ~ adjacent (MkGraph ns es0 : graph) (src e) (dst e)).
  { intros (f & Hf & J). cbn [edges] in Hf. apply In_nth_error in Hf. destruct Hf as (i & Hi). assert (Li : (i < length es0)%nat) by (apply nth_error_Some; congruence).
    apply (planar_no_parallel (MkGraph ns (es0 ++ [e]) : graph) ps W (length es0) i e f); [lia|exact Hl|cbn [edges]; now rewrite nth_error_app1|exact J]. }
  destruct (add_edge_total dT (MkGraph ns es0 : graph) (src e) (dst e) (edata e)) as [[g' r] H].
  { intros f Hf. cbn [nodes edges] in *. rewrite Len. destruct (proj1 W0 f Hf) as (_ & ? & ?). auto. }
  destruct (add_edge_full dT _ g' ps (src e) (dst e) (edata e) r D W0 GP N NA Ls Ld H) as (qs & D' & W' & _ & I & _).
  assert (Q : qs = []).
  { destruct qs as [|q qs]; [reflexivity|]. exfalso. assert (Hq : In q ps).
    { destruct (proj1 (I q)) as [Hq|(O1 & f & Hf & O2)]; [apply in_or_app; right; now left|exact Hq|].
      cbn [edges] in Hf. apply In_nth_error in Hf. destruct Hf as (i & Hi). destruct (Cr i f q Hi O2 O1) as [->| ->]; apply nth_In; assumption. }
    apply In_nth with (d := P2 0 0) in Hq. destruct Hq as (k & Lk & Ek). destruct W' as (_ & A' & _).
    assert (L2 : (length ps < length (ps ++ q :: qs))%nat) by (rewrite app_length; cbn [length]; lia).
    pose proof (A' k (length ps) ltac:(lia) L2 ltac:(lia)) as B. unfold pt in B. rewrite app_nth1 in B by exact Lk. rewrite Ek in B.
    rewrite app_nth2, Nat.sub_diag in B by lia. cbn [nth] in B. rewrite dist_self0 in B. pose proof eps32_pos. lra. }
  subst qs. rewrite app_nil_r in D'. exists r. rewrite H.
  assert (G : g' = MkGraph ns (es0 ++ [e])).
  { rewrite (add_edge_same dT _ _ _ _ _ _ H NA).
    - unfold with_edge. cbn [nodes edges]. destruct e as [s d u l]. cbn [elabel src dst edata] in *. now rewrite Le.
    - cbn [nodes]. lia.
    - cbn [nodes]. lia.
    - rewrite (drawn_length _ _ D'). cbn [nodes]. lia.
    - intros k f Hk Hf. cbn [nodes] in *. destruct (on_edge ns k f) eqn:On; [|reflexivity]. exfalso.
      unfold with_edge in Hf. cbn [edges] in Hf.
      assert (Hf' : exists f', In f' (es0 ++ [e]) /\ src f' = src f /\ dst f' = dst f).
      { apply in_app_or in Hf. destruct Hf as [Hf|[<-|[]]]; [exists f|exists e]; (split; [|split; reflexivity]); [apply in_or_app; now left|exact Hin]. }
      destruct Hf' as (f' & Hf' & Es & Ed). destruct (V f' Hf') as (_ & L1 & L2). apply (C k f'); [lia|exact Hf'|].
      unfold edge_near. rewrite Es, Ed in *. apply (drawn_on ns ps k f D); try lia; assumption. }
  now rewrite G.
Qed.

Theorem rebuild_exact : forall (g : graph) ps, drawn g ps -> well_drawn ps (edges g) -> plain g -> run dT graph_new (rebuild g) = Ok g.
Proof.
  intros g ps D W (P1 & P2). apply rebuild_run.
  - intros i n Hn. apply (x_node_step g ps i n D W); [|exact Hn]. apply P1. eapply nth_error_In. exact Hn.
  - intros j e He. rewrite (firstn_next _ _ _ _ He). apply (x_edge_step (nodes g) ps); [exact D| |apply P2; eapply nth_error_In; exact He].
    rewrite <- (firstn_next _ _ _ _ He). apply (well_drawn_incl ps _ (skipn (S j) (edges g))). now rewrite firstn_skipn.
Qed.

Lemma along_tidy : forall os (g : graph), along_run dT (@tidy_op T U) g os -> tidy dT g os.
Proof.
  induction os as [|o os IH]; intros g H; [exact I|]. destruct H as [H1 H2]. split; [exact H1|]. intros g' E. apply IH. now apply H2.
Qed.
Lemma rebuild_tidy : forall (g : graph) ps, drawn g ps -> well_drawn ps (edges g) -> plain g -> tidy dT graph_new (rebuild g).
Proof.
  intros g ps D W (P1 & P2).
  assert (WP : forall j, well_drawn ps (firstn j (edges g))).
  { intros j. apply (well_drawn_incl ps _ (skipn j (edges g))). now rewrite firstn_skipn. }
  apply along_tidy. apply (rebuild_along dT (@tidy_op T U) g).
  - intros i n Hn. apply (x_node_step g ps i n D W); [|exact Hn]. apply P1. eapply nth_error_In. exact Hn.
  - intros j e He. rewrite (firstn_next _ _ _ _ He). apply (x_edge_step (nodes g) ps); [exact D| |apply P2; eapply nth_error_In; exact He].
    rewrite <- (firstn_next _ _ _ _ He). apply WP.
  - intros i n Hn. exists (firstn i ps), (pt ps i). split; [exact (drawn_prefix g ps i D)|].
    assert (Li : (i < length ps)%nat) by (rewrite <- (drawn_length _ _ D); apply nth_error_Some; congruence). split; [exact (drawn_at g ps i n D Hn)|].
    right. split; [|intros e []]. intros k Hk. rewrite firstn_length in Hk. rewrite pt_prefix by lia. apply W; lia.
  - intros j e He. pose proof (WP (S j)) as W1. rewrite (firstn_next _ _ _ _ He) in W1.
    destruct (next_general ps _ e W1) as (N & GP). split; [exact N|]. right. right. exists ps. split; [exact D|exact GP].
Qed.
End Exact.

(** ** f32 on the grids of C90 *)
Section Fam.
Context (lm : Libm) (e : Z) (He : (-22 <= e <= 51)%Z) {T U : Type} (dT : T).
Local Notation G := (grid_le 6 e).
Context (S : point -> point -> Prop).
Hypothesis HonS : forall a b p i, G a -> G b -> G p -> S (toR a) (toR b) ->
  (is_on_line_segment (O := FO lm) a b p i = true <-> inner (toR a) (toR b) (toR p)) /\
  (is_on_line_segment (O := XO) (up a) (up b) (up p) i = true <-> inner (toR a) (toR b) (toR p)).
Hypothesis Hlat : forall a b c d p, G a -> G b -> G c -> G d -> S (toR a) (toR b) -> S (toR c) (toR d) ->
  cross (toR a) (toR b) (toR c) (toR d) <> 0 -> on_segment (toR a) (toR b) p -> on_segment (toR c) (toR d) p ->
  exists m, p = P2 (IZR (fst m) * bpow radix2 e) (IZR (snd m) * bpow radix2 e).
Hypothesis HsplitS : forall a b p, S a b -> on_segment a b p -> S a p /\ S b p.

Local Notation graph := (PlanarGraph (FO lm) T U).
Let S' (a b : Vec2 (FO lm)) : Prop := S (toR a) (toR b).
Local Notation ins := (@GraphSim.inside (FO lm) T U G S').

Lemma exact_nth : forall (g : graph) i n, nth_error (nodes g) i = Some n -> nth_error (nodes (exact_graph g)) i = Some (exact_node n).
Proof. intros g i n H. unfold exact_graph. cbn [nodes]. now apply map_nth_error. Qed.

Theorem rebuild_grid : forall g : graph, ins g -> well_drawn (places g) (edges g) -> plain g -> run dT graph_new (rebuild g) = Ok g.
Proof.
  intros g (V & NL & OG & SG) W (P1 & P2). apply rebuild_run.
  - intros i n Hn. set (g0 := MkGraph (firstn i (nodes g)) [] : graph).
    assert (I0 : ins g0).
    { split; [intros f []|]. split; [intros f []|]. split; [|intros f a b []]. unfold on_grid in *. rewrite Forall_forall in *. intros m Hm. apply OG.
      rewrite <- (firstn_skipn i (nodes g)). apply in_or_app. now left. }
    assert (Gn : G (position n)) by (eapply on_grid_nth; eassumption).
    destruct (fam_add_node lm e He S HonS HsplitS g0 (position n) (ndata n) I0 Gn) as [E _].
    destruct (x_node_step (exact_graph g) (places g) i (exact_node n) (exact_drawn lm g) W (P1 n (nth_error_In _ _ Hn)) (exact_nth g i n Hn)) as (r & X).
    assert (Eg : MkGraph (firstn i (nodes (exact_graph g))) [] = exact_graph g0).
    { unfold exact_graph, g0. cbn [nodes edges]. now rewrite firstn_map. }
    rewrite Eg in X. cbn [exact_node position ndata] in X. rewrite X in E.
    destruct (add_node g0 (position n) (ndata n)) as [[g' r']|] eqn:A; [|discriminate]. cbn [rmap fst snd] in E.
    exists r. assert (L : length (nodes g') = Datatypes.S (length (nodes g0))).
    { assert (Li : (i < length (nodes g))%nat) by (apply nth_error_Some; congruence).
      assert (Q := f_equal (fun x => match x with Ok (h, _) => length (nodes h) | Panic => 0%nat end) E). cbv beta iota in Q. cbn [nodes exact_graph] in Q.
      rewrite map_length in Q. rewrite firstn_length, map_length in Q. rewrite <- Q. unfold g0. cbn [nodes]. rewrite firstn_length. lia. }
    assert (Q := f_equal (fun x => match x with Ok (_, y) => y | Panic => r end) E). cbv beta iota in Q. subst r'.
    rewrite (add_node_known _ _ _ _ _ A eq_refl L). unfold g0. cbn [nodes]. rewrite (firstn_next _ _ _ _ Hn).
    pose proof (P1 n (nth_error_In _ _ Hn)) as Ln. destruct n as [p d l]. cbn [position ndata nlabel] in *. now rewrite Ln.
  - intros j f Hf. set (g0 := MkGraph (nodes g) (firstn j (edges g)) : graph).
    assert (Sub : forall x, In x (firstn j (edges g)) -> In x (edges g)).
    { intros x Hx. rewrite <- (firstn_skipn j (edges g)). apply in_or_app. now left. }
    assert (I0 : ins g0).
    { split; [intros x Hx; apply V; now apply Sub|]. split; [intros x Hx; apply NL; now apply Sub|]. split; [exact OG|]. intros x a b Hx. apply SG. now apply Sub. }
    pose proof (nth_error_In _ _ Hf) as Hin.
    assert (Do : draws_op G S g0 (OAddEdge (src f) (dst f) (edata f))).
    { split; [now apply NL|]. intros a b Ha Hb. exact (SG f a b Hin Ha Hb). }
    destruct (fam_add_edge lm e He dT S HonS Hlat HsplitS g0 (src f) (dst f) (edata f) I0 Do) as [E _].
    assert (W1 : well_drawn (places g) (firstn j (edges g) ++ [f])).
    { rewrite <- (firstn_next _ _ _ _ Hf). apply (well_drawn_incl _ _ (skipn (Datatypes.S j) (edges g))). now rewrite firstn_skipn. }
    destruct (x_edge_step dT (nodes (exact_graph g)) (places g) (firstn j (edges g)) f (exact_drawn lm g) W1 (P2 f Hin)) as (r & X).
    change (MkGraph (nodes (exact_graph g)) (firstn j (edges g))) with (exact_graph g0) in X. rewrite X in E.
    destruct (add_edge dT g0 (src f) (dst f) (edata f)) as [[g' r']|] eqn:A; [|discriminate]. cbn [rmap fst snd] in E. injection E as E1 E2 <-.
    exists r. rewrite (firstn_next _ _ _ _ Hf). apply (f_equal (@length _)) in E1. rewrite !map_length in E1.
    pose proof (add_edge_known dT _ _ _ _ _ _ A (eq_sym E1)) as N. destruct g' as [a b]. cbn [nodes edges g0] in *. subst b. now rewrite N.
Qed.
End Fam.

(** ** f32 with room to spare *)
Section Margin.
Context (lm : Libm) {T U : Type} (dT : T) (M K dl : R) (Fn : fine M K dl).
Local Notation graph := (PlanarGraph (FO lm) T U).

Lemma two_length : forall A B (R' : A -> B -> Prop) l l', Forall2 R' l l' -> length l = length l'.
Proof. intros A B R' l l' H. induction H; cbn [length]; congruence. Qed.
Lemma spaced_incl : forall ps (es es' : list (Edge U)), spaced dl ps (es ++ es') -> spaced dl ps es.
Proof.
  intros ps es es' (V & A & C). assert (I : forall e, In e es -> In e (es ++ es')) by (intros; apply in_or_app; now left).
  split; [|split]; auto.
Qed.
Lemma planar_incl : forall (g : graph) j, planar_f32 g -> planar_f32 (MkGraph (nodes g) (firstn j (edges g)) : graph).
Proof.
  intros [ns es] j (A & B). cbn [nodes edges] in *. rewrite <- (firstn_skipn j es) in A, B. split; cbn [nodes edges].
  - intros k f Hk Hf. apply A; [exact Hk|]. apply in_or_app. now left.
  - intros i i' f f' x N H1 H2. apply (B i i' f f' x N); (rewrite nth_error_app1; [assumption|apply nth_error_Some; congruence]).
Qed.

Theorem rebuild_margin : forall g : graph, (forall n, In n (nodes g) -> pbound M (position n)) -> spaced dl (places g) (edges g) ->
  planar_f32 g -> clear_ways K dl g -> plain g -> run dT graph_new (rebuild g) = Ok g.
Proof.
  intros g PB Sp Pl CW (P1 & P2). apply rebuild_run.
  - intros i n Hn. set (g0 := MkGraph (firstn i (nodes g)) [] : graph).
    assert (Sub : forall m, In m (nodes g0) -> In m (nodes g)).
    { intros m Hm. rewrite <- (firstn_skipn i (nodes g)). apply in_or_app. now left. }
    assert (Li : (i < length (nodes g))%nat) by (apply nth_error_Some; congruence).
    assert (Pg : places g0 = firstn i (places g)) by (unfold places, g0; cbn [nodes]; now rewrite firstn_map).
    assert (Pn : real_point (position n) = pt (places g) i).
    { unfold pt. symmetry. apply nth_error_nth. exact (map_nth_error (fun n => real_point (position n)) i (nodes g) Hn). }
    assert (Lp : length (places g0) = i) by (rewrite Pg, firstn_length, place_len; lia).
    assert (Far : forall k, (k < i)%nat -> dl <= dist (real_point (position n)) (pt (places g0) k)).
    { intros k Hk. rewrite Pn, Pg, pt_prefix by exact Hk. apply Sp; rewrite ?place_len; lia. }
    assert (Sp0 : spaced dl (places g0) (edges g0)).
    { split; [intros f []|]. split; [|intros k f _ []]. rewrite Lp. intros k k' Hk Hk' N. rewrite Pg, !pt_prefix by assumption. apply Sp; rewrite ?place_len; lia. }
    destruct (PB n (nth_error_In _ _ Hn)) as (Fp & Bp).
    destruct (add_node_total g0 (position n) (ndata n)) as [[g' [k ces]] H]; [intros f []|].
    destruct (add_node_margin lm M K dl Fn g0 (fun m Hm => PB m (Sub m Hm)) Sp0) with (p := position n) (dat := ndata n) (g' := g') (i := k) (ces := ces)
      as [(_ & Lk & Dk)|(Hn' & _)].
    + split; [intros x f _ []|]. intros a b f f' x _ Ha. destruct a; discriminate.
    + exact Fp.
    + right. exists (real_point (position n)). split; [rewrite dist_self0; apply (margins M K dl Fn)|]. split; [apply Bp|]. split; [apply Bp|].
      split; [rewrite Lp; exact Far|intros f []].
    + exact H.
    + exfalso. rewrite <- place_len, Lp in Lk. pose proof (Far k Lk) as F. destruct Fn as (_ & _ & _ & D8 & _). rewrite eps_u in Dk. pose proof u_pos.
      assert (u32 < 1 / 8) by (unfold u32; cbn; lra). nra.
    + exists (k, ces). rewrite H. rewrite (add_node_known _ _ _ _ _ H eq_refl).
      * unfold g0. cbn [nodes]. rewrite (firstn_next _ _ _ _ Hn). pose proof (P1 n (nth_error_In _ _ Hn)) as Ln.
        destruct n as [p d l]. cbn [position ndata nlabel] in *. now rewrite Ln.
      * rewrite Hn', app_length. cbn [length]. lia.
  - intros j f Hf. set (g0 := MkGraph (nodes g) (firstn j (edges g)) : graph). pose proof (nth_error_In _ _ Hf) as Hin.
    assert (W : well_drawn (places g) (edges g)) by (apply (margin_drawn lm M K dl Fn g); assumption).
    assert (W1 : well_drawn (places g) (firstn j (edges g) ++ [f])).
    { rewrite <- (firstn_next _ _ _ _ Hf). apply (well_drawn_incl _ _ (skipn (Datatypes.S j) (edges g))). now rewrite firstn_skipn. }
    destruct (x_edge_step dT (nodes (exact_graph g)) (places g) (firstn j (edges g)) f (exact_drawn lm g) W1 (P2 f Hin)) as (r & X).
    destruct (proj1 W f Hin) as (N & Ls & Ld). rewrite place_len in Ls, Ld.
    destruct (single_add_edge lm dT M K dl Fn g0 (src f) (dst f) (edata f) PB) as (g' & gx & r' & H & Hx & Ee & F2).
    + apply (spaced_incl _ _ (skipn j (edges g))). unfold g0. cbn [edges]. now rewrite firstn_skipn.
    + now apply planar_incl.
    + exact N.
    + intros (f' & Hf' & J). cbn [edges g0] in Hf'. apply In_nth_error in Hf'. destruct Hf' as (i & Hi).
      assert (Li : (i < length (firstn j (edges g)))%nat) by (apply nth_error_Some; congruence).
      apply (planar_no_parallel (MkGraph (nodes (exact_graph g)) (firstn j (edges g) ++ [f])) (places g) W1 (length (firstn j (edges g))) i f f'); cbn [edges].
      * lia.
      * now rewrite nth_error_app2, Nat.sub_diag by lia.
      * now rewrite nth_error_app1.
      * exact J.
    + exact Ls.
    + exact Ld.
    + exact (CW j f Hf).
    + change (MkGraph (nodes (exact_graph g)) (firstn j (edges g))) with (exact_graph g0) in X. rewrite X in Hx. injection Hx as <- _.
      exists r'. rewrite H, (firstn_next _ _ _ _ Hf). cbn [edges nodes] in *. assert (L : length (nodes g') = length (nodes (exact_graph g))) by (apply (two_length _ _ _ _ _ F2)). unfold exact_graph in L. cbn [nodes] in L. rewrite map_length in L.
      pose proof (add_edge_known dT _ _ _ _ _ _ H L) as Q. destruct g' as [a b]. cbn [nodes edges g0] in *. now rewrite Q, Ee.
Qed.
End Margin.
