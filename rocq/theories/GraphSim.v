(** * The graph code in two arithmetics: if the five geometric decisions agree on a class
    of points and segments that the code does not leave, so do whole histories. *)
From Coq Require Import List Arith Bool Lia String Permutation.
From Verif Require Import Scalar Utils Polygon Graph GraphSpec Laws GraphAdd GraphAddProps GraphRemove GraphHistory GraphPlanar.
Import ListNotations.

Definition rmap {A B} (f : A -> B) (r : res A) : res B := match r with Ok a => Ok (f a) | Panic => Panic end.

Section Sim.
Context {O1 O2 : Ops} (L1 : Laws O1) {T U : Type} (dT : T).
Context (up : Vec2 O1 -> Vec2 O2) (G : Vec2 O1 -> Prop) (S : Vec2 O1 -> Vec2 O1 -> Prop).

Definition up_node (n : Node O1 T) : Node O2 T := MkNode (up (position n)) (ndata n) (nlabel n).
Definition up_graph (g : PlanarGraph O1 T U) : PlanarGraph O2 T U := MkGraph (map up_node (nodes g)) (edges g).
Definition up_op (o : @op O1 T U) : @op O2 T U :=
  match o with
  | OAddNode p d => OAddNode (up p) d
  | OAddEdge s d u => OAddEdge s d u
  | ORemoveNode i => ORemoveNode i
  | ORemoveEdge i => ORemoveEdge i
  end.
Definition up1 {A} (r : PlanarGraph O1 T U * A) : PlanarGraph O2 T U * A := (up_graph (fst r), snd r).

Context (Hclosest : forall p ps, G p -> Forall G ps ->
  fst (find_closest_to (up p) (map up ps)) = fst (find_closest_to p ps) /\
  olt (snd (find_closest_to (up p) (map up ps))) ceps = olt (snd (find_closest_to p ps)) ceps).
Context (Hon : forall a b p i, G a -> G b -> G p -> S a b ->
  is_on_line_segment (up a) (up b) (up p) i = is_on_line_segment a b p i).
Context (Hcross : forall a b c d, G a -> G b -> G c -> G d -> S a b -> S c d ->
  calculate_line_segment_intersection (up a) (up b) (up c) (up d) =
    option_map up (calculate_line_segment_intersection a b c d) /\
  forall q, calculate_line_segment_intersection a b c d = Some q -> G q).
Context (Hclose : forall a b, G a -> G b -> close_to (up a) (up b) = close_to a b).
Context (Hsplit : forall a b p i, G a -> G b -> G p -> S a b -> is_on_line_segment a b p i = true ->
  S a p /\ S b p).

Local Notation graph := (PlanarGraph O1 T U).
Local Notation edge := (Edge U).
Local Notation node := (Node O1 T).

Definition on_grid (ns : list node) : Prop := Forall (fun n => G (position n)) ns.
Definition segs (ns : list node) (es : list edge) : Prop :=
  forall e a b, In e es -> nth_error ns (src e) = Some a -> nth_error ns (dst e) = Some b ->
  S (position a) (position b).
Definition inside (g : graph) : Prop := valid g /\ no_loops g /\ on_grid (nodes g) /\ segs (nodes g) (edges g).

Lemma on_grid_nth : forall ns i n, on_grid ns -> nth_error ns i = Some n -> G (position n).
Proof. intros ns i n F H. unfold on_grid in F. rewrite Forall_forall in F. apply F. eapply nth_error_In. exact H. Qed.

Lemma up_index : forall ns i, index (map up_node ns) i = rmap up_node (index ns i).
Proof. intros. unfold index. rewrite nth_error_map. now destruct (nth_error ns i). Qed.

Lemma up_nth : forall ns i, nth_error (map up_node ns) i = option_map up_node (nth_error ns i).
Proof. intros. apply nth_error_map. Qed.

Lemma up_loop : forall ns id es idx, on_grid ns -> segs ns es ->
  split_at_node_loop (map up_node ns) id idx es = split_at_node_loop ns id idx es.
Proof.
  intros ns id es. induction es as [|e es IH]; intros idx HG HS; [reflexivity|].
  cbn [split_at_node_loop]. rewrite !up_index.
  destruct (index ns (src e)) as [a|] eqn:Ea; [|reflexivity].
  destruct (index ns (dst e)) as [b|] eqn:Eb; [|reflexivity].
  destruct (index ns id) as [n|] eqn:En; [|reflexivity].
  apply index_ok in Ea, Eb, En. cbn [rmap bind position up_node].
  rewrite Hon by (first [eapply on_grid_nth; eassumption|eapply HS; [now left|eassumption|eassumption]]).
  rewrite IH; [reflexivity|exact HG|]. intros x y z Hx. apply HS. now right.
Qed.

Lemma up_split : forall g k, on_grid (nodes g) -> segs (nodes g) (edges g) ->
  split_edges_at_node (up_graph g) k = rmap up1 (split_edges_at_node g k).
Proof.
  intros g k HG HS. unfold split_edges_at_node, up_graph; cbn [nodes edges]. rewrite up_nth, up_loop by assumption.
  destruct (nth_error (nodes g) k); cbn [option_map]; [|reflexivity].
  destruct (split_at_node_loop (nodes g) k 0 (edges g)) as [[[rw ad] ch]|]; reflexivity.
Qed.

Lemma segs_app : forall ns n es, (forall e, In e es -> src e < List.length ns /\ dst e < List.length ns) ->
  segs ns es -> segs (ns ++ [n]) es.
Proof.
  intros ns n es V HS e a b He Ha Hb. destruct (V e He) as [V1 V2].
  rewrite nth_error_app1 in Ha, Hb by assumption. eapply HS; eassumption.
Qed.

Lemma split_segs : forall (ns : list node) k es, on_grid ns -> k < List.length ns ->
  (forall e, In e es -> src e < List.length ns /\ dst e < List.length ns) -> segs ns es ->
  segs ns (split_edges (on_edge ns k) k es).
Proof.
  intros ns k es HG Hk V HS e' a b He' Ha Hb. apply split_edges_in in He'. destruct He' as (e & He & P).
  unfold pieces in P. destruct (on_edge ns k e) eqn:On.
  - destruct (V e He) as [V1 V2].
    destruct (nth_error ns (src e)) as [x|] eqn:X; [|apply nth_error_None in X; lia].
    destruct (nth_error ns (dst e)) as [y|] eqn:Y; [|apply nth_error_None in Y; lia].
    destruct (nth_error ns k) as [z|] eqn:Z; [|apply nth_error_None in Z; lia].
    unfold on_edge in On. rewrite (pos_at_some _ _ _ X), (pos_at_some _ _ _ Y), (pos_at_some _ _ _ Z) in On.
    destruct (Hsplit _ _ _ _ (on_grid_nth _ _ _ HG X) (on_grid_nth _ _ _ HG Y) (on_grid_nth _ _ _ HG Z)
      (HS _ _ _ He X Y) On) as [S1 S2].
    destruct P as [<-|[<-|[]]]; cbn [src dst half1 half2] in Ha, Hb; congruence.
  - destruct P as [<-|[]]. eapply HS; eassumption.
Qed.

Lemma split_inside : forall g k g' ces, inside g -> split_edges_at_node g k = Ok (g', ces) -> inside g'.
Proof.
  intros g k g' ces (V & NL & HG & HS) H. apply split_at_node_ok in H.
  destruct H as (Hn & [(_ & -> & _)|(Hk & He & _)]); [exact (conj V (conj NL (conj HG HS)))|].
  split; [|split; [|split]].
  - eapply split_old_valid; [exact V|exact Hk|exact Hn|exact He].
  - intros e Hin Heq. rewrite He in Hin. apply (NL e); [|exact Heq].
    eapply (split_no_new_loops L1); [exact Hin|]. split; [reflexivity|now symmetry].
  - now rewrite Hn.
  - rewrite Hn, He. apply split_segs; assumption.
Qed.

Lemma up_positions : forall g, gather_node_positions (up_graph g) = map up (gather_node_positions g).
Proof. intros g. unfold gather_node_positions, up_graph; cbn [nodes]. now rewrite !map_map. Qed.
Lemma grid_positions : forall g : graph, on_grid (nodes g) -> Forall G (gather_node_positions g).
Proof. intros g H. unfold gather_node_positions. apply Forall_map. exact H. Qed.

Lemma with_node_inside : forall (g : graph) p d, inside g -> G p ->
  on_grid (nodes g ++ [MkNode p d DEFAULT_LABEL]) /\ segs (nodes g ++ [MkNode p d DEFAULT_LABEL]) (edges g) /\
  valid (MkGraph (nodes g ++ [MkNode p d DEFAULT_LABEL]) (edges g)) /\
  no_loops (MkGraph (nodes g ++ [MkNode p d DEFAULT_LABEL]) (edges g)).
Proof.
  intros g p d (V & NL & HG & HS) Hp. split; [|split; [|split]].
  - apply Forall_app. split; [exact HG|]. repeat constructor. exact Hp.
  - apply segs_app; assumption.
  - intros e He. cbn [nodes edges] in *. rewrite app_length. cbn [List.length]. destruct (V e He). lia.
  - exact NL.
Qed.

Lemma up_add_node : forall g p d, inside g -> G p ->
  add_node (up_graph g) (up p) d = rmap up1 (add_node g p d) /\
  forall g' r, add_node g p d = Ok (g', r) -> inside g'.
Proof.
  intros g p d I Hp. destruct (with_node_inside g p d I Hp) as (HG & HS & V & NL).
  destruct (Hclosest p (gather_node_positions g) Hp (grid_positions g (proj1 (proj2 (proj2 I))))) as [E1 E2].
  unfold add_node. rewrite up_positions.
  destruct (find_closest_to (up p) (map up (gather_node_positions g))) as [i' d'].
  destruct (find_closest_to p (gather_node_positions g)) as [i d0]. cbn [fst snd] in E1, E2. subst i'. rewrite E2.
  destruct (olt d0 ceps).
  - split; [reflexivity|]. intros g' r H. now inv H.
  - set (g1 := MkGraph (nodes g ++ [MkNode p d DEFAULT_LABEL]) (edges g)).
    assert (E : MkGraph (nodes (up_graph g) ++ [MkNode (up p) d DEFAULT_LABEL]) (edges (up_graph g)) = up_graph g1).
    { unfold up_graph, g1; cbn [nodes edges]. now rewrite map_app. }
    rewrite E. assert (N : node_count (up_graph g1) = node_count g1) by (apply map_length). rewrite N.
    rewrite up_split by assumption.
    destruct (split_edges_at_node g1 (node_count g1 - 1)) as [[g2 ces]|] eqn:Sp; cbn [rmap bind up1 fst snd].
    + split.
      * unfold up1; cbn [fst snd]. now rewrite (map_length up_node (nodes g2) : node_count (up_graph g2) = node_count g2).
      * intros g' r H. inv H. eapply split_inside; [|exact Sp]. exact (conj V (conj NL (conj HG HS))).
    + split; [reflexivity|discriminate].
Qed.

Lemma up_inters : forall g id es idx, on_grid (nodes g) -> segs (nodes g) (edges g) -> segs (nodes g) es ->
  intersections_loop (up_graph g) id idx es = rmap (map up) (intersections_loop g id idx es) /\
  forall l, intersections_loop g id idx es = Ok l -> Forall G l.
Proof.
  intros g id es. induction es as [|e es IH]; intros idx HG HS HE.
  - split; [reflexivity|]. intros l H. inv H. constructor.
  - assert (HE' : segs (nodes g) es) by (intros x y z Hx; apply HE; now right).
    destruct (IH (Datatypes.S idx) HG HS HE') as [IH1 IH2].
    cbn [intersections_loop]. destruct (negb (id =? idx)); [|split; assumption].
    cbn [up_graph nodes edges]. rewrite !up_index.
    destruct (index (nodes g) (src e)) as [a|] eqn:Ea; [|split; [reflexivity|discriminate]].
    destruct (index (nodes g) (dst e)) as [b|] eqn:Eb; [|split; [reflexivity|discriminate]].
    cbn [rmap bind]. destruct (index (edges g) id) as [f|] eqn:Ef; [|split; [reflexivity|discriminate]].
    cbn [bind]. rewrite !up_index.
    destruct (index (nodes g) (src f)) as [c|] eqn:Ec; [|split; [reflexivity|discriminate]].
    destruct (index (nodes g) (dst f)) as [d|] eqn:Ed; [|split; [reflexivity|discriminate]].
    cbn [rmap bind]. fold (up_graph g). rewrite IH1.
    destruct (intersections_loop g id (Datatypes.S idx) es) as [rest|]; [|split; [reflexivity|discriminate]].
    cbn [rmap bind up_node position]. apply index_ok in Ea, Eb, Ec, Ed, Ef.
    destruct (Hcross (position a) (position b) (position c) (position d)) as [C1 C2];
      try (eapply on_grid_nth; eassumption); try (eapply HE; [now left|eassumption|eassumption]);
      try (eapply HS; [eapply nth_error_In; eassumption|eassumption|eassumption]).
    rewrite C1. destruct (calculate_line_segment_intersection (position a) (position b) (position c) (position d)) as [q|];
      cbn [option_map rmap].
    + split; [reflexivity|]. intros l H. inv H. constructor; [now apply C2|now apply IH2].
    + split; [reflexivity|]. intros l H. inv H. now apply IH2.
Qed.

Lemma up_has_close : forall a i j ps, G a -> Forall G ps ->
  has_close_other (up a) i j (map up ps) = has_close_other a i j ps.
Proof.
  intros a i j ps Ha F. revert j. induction F as [|b ps Hb F IH]; intros j; [reflexivity|].
  cbn [has_close_other map]. rewrite Hclose, IH by assumption. reflexivity.
Qed.
Lemma up_unique_loop : forall all rest i, Forall G all -> Forall G rest ->
  unique_loop (map up all) (map up rest) i = map up (unique_loop all rest i) /\ Forall G (unique_loop all rest i).
Proof.
  intros all rest i Fa Fr. revert i. induction Fr as [|a rest Ha Fr IH]; intros i; [split; constructor|].
  cbn [unique_loop map]. rewrite up_has_close by assumption. destruct (IH (Datatypes.S i)) as [I1 I2]. rewrite I1.
  destruct (negb (has_close_other a i 0 all)); [|now split]. split; [reflexivity|now constructor].
Qed.

Lemma up_points : forall ps g cn ce, inside g -> Forall G ps ->
  split_at_points dT (up_graph g) (map up ps) cn ce = rmap up1 (split_at_points dT g ps cn ce) /\
  forall g' r, split_at_points dT g ps cn ce = Ok (g', r) -> inside g'.
Proof.
  induction ps as [|p ps IH]; intros g cn ce I F.
  - split; [reflexivity|]. intros g' r H. now inv H.
  - inversion F as [|x y Hp F' E]; subst x y. cbn [split_at_points map]. rewrite up_positions.
    destruct (Hclosest p (gather_node_positions g) Hp (grid_positions g (proj1 (proj2 (proj2 I))))) as [E1 E2].
    destruct (up_add_node g p dT I Hp) as [A1 A2].
    destruct (find_closest_to (up p) (map up (gather_node_positions g))) as [i' d'].
    destruct (find_closest_to p (gather_node_positions g)) as [i d0]. cbn [fst snd] in E1, E2. subst i'. rewrite E2.
    destruct (olt d0 ceps).
    + rewrite up_split by apply I.
      destruct (split_edges_at_node g i) as [[g1 ces]|] eqn:Sp; cbn [rmap bind up1 fst snd]; [|split; [reflexivity|discriminate]].
      apply IH; [|exact F']. eapply split_inside; eassumption.
    + rewrite A1. destruct (add_node g p dT) as [[g1 [ni ces]]|] eqn:An; cbn [rmap bind up1 fst snd]; [|split; [reflexivity|discriminate]].
      apply IH; [|exact F']. eapply A2. reflexivity.
Qed.

Lemma up_add_edge : forall g s d u, inside g ->
  (s <> d /\ forall a b, nth_error (nodes g) s = Some a -> nth_error (nodes g) d = Some b -> S (position a) (position b)) ->
  add_edge dT (up_graph g) s d u = rmap up1 (add_edge dT g s d u) /\
  forall g' r, add_edge dT g s d u = Ok (g', r) -> inside g'.
Proof.
  intros g s d u I [Nsd Hsd]. unfold add_edge.
  change (has_edge_between_nodes (up_graph g) s d) with (has_edge_between_nodes g s d).
  destruct (negb (has_edge_between_nodes g s d)).
  2:{ split; [reflexivity|]. intros g' r H. now inv H. }
  unfold get_vertex. cbn [up_graph nodes edges]. rewrite !up_nth.
  destruct (nth_error (nodes g) s) as [a|] eqn:Ea; cbn [option_map].
  2:{ split; [reflexivity|]. intros g' r H. now inv H. }
  destruct (nth_error (nodes g) d) as [b|] eqn:Eb; cbn [option_map].
  2:{ split; [reflexivity|]. intros g' r H. now inv H. }
  set (g1 := MkGraph (nodes g) (edges g ++ [MkEdge s d u DEFAULT_LABEL])).
  change (MkGraph (map up_node (nodes g)) (edges g ++ [MkEdge s d u DEFAULT_LABEL])) with (up_graph g1).
  change (edge_count (up_graph g1)) with (edge_count g1).
  destruct I as (V & NL & HG & HS).
  assert (I1 : inside g1).
  { split; [|split; [|split]].
    - apply (with_edge_valid g s d u V); apply nth_error_Some; congruence.
    - intros e He. unfold g1 in He; cbn [edges] in He. apply in_app_or in He.
      destruct He as [He|[<-|[]]]; [now apply NL|exact Nsd].
    - exact HG.
    - intros e x y He Hx Hy. unfold g1 in He, Hx, Hy; cbn [edges nodes] in He, Hx, Hy. apply in_app_or in He.
      destruct He as [He|[<-|[]]]; [eapply HS; eassumption|]. cbn [src dst] in Hx, Hy. rewrite Ea in Hx. rewrite Eb in Hy. exact (Hsd x y Hx Hy). }
  unfold split_edges_along_edge.
  change (edges (up_graph g1)) with (edges g1).
  destruct (up_inters g1 (edge_count g1 - 1) (edges g1) 0) as [J1 J2]; try apply I1.
  rewrite J1. destruct (intersections_loop g1 (edge_count g1 - 1) 0 (edges g1)) as [l|]; cbn [rmap bind];
    [|split; [reflexivity|discriminate]].
  unfold unique_points_among.
  destruct (up_unique_loop l l 0 (J2 _ eq_refl) (J2 _ eq_refl)) as [U1 U2]. rewrite U1.
  destruct (up_points (unique_loop l l 0) g1 [] [] I1 U2) as [P1 P2]. rewrite P1.
  destruct (split_at_points dT g1 (unique_loop l l 0) [] []) as [[g2 [cn ce]]|]; cbn [rmap bind up1 fst snd];
    [|split; [reflexivity|discriminate]].
  split; [reflexivity|]. intros g' r H. inv H. eapply P2. reflexivity.
Qed.

(** Removals do not look at positions. *)
Lemma up_filter : forall marked i ns, filter_unmarked marked i (map up_node ns) = map up_node (filter_unmarked marked i ns).
Proof.
  intros marked i ns. revert i. induction ns as [|n ns IH]; intros i; [reflexivity|].
  cbn [filter_unmarked map]. rewrite IH. now destruct (mem i marked).
Qed.
Lemma up_incident : forall g i, number_of_edges_incident_to (up_graph g) i = number_of_edges_incident_to g i.
Proof.
  intros g i. unfold number_of_edges_incident_to, get_vertex. cbn [up_graph nodes edges]. rewrite up_nth.
  now destruct (nth_error (nodes g) i).
Qed.
Lemma up_incident_loop : forall g id es idx, incident_loop (up_graph g) id idx es = incident_loop g id idx es.
Proof.
  intros g id es. induction es as [|e es IH]; intros idx; [reflexivity|].
  cbn [incident_loop]. rewrite IH, up_incident. reflexivity.
Qed.

Lemma up_remove_node : forall g id, remove_node (up_graph g) id = rmap up1 (remove_node g id).
Proof.
  intros g id. unfold remove_node, remove_edges_incident_to_node. cbn [up_graph nodes edges].
  fold (up_graph g). rewrite up_nth, up_incident_loop.
  change (edge_count (up_graph g)) with (edge_count g).
  rewrite (map_length up_node (nodes g) : node_count (up_graph g) = node_count g).
  destruct (nth_error (nodes g) id); cbn [option_map]; [|reflexivity].
  destruct (incident_loop g id 0 (edges g)) as [sn me].
  destruct (remap_loop (id :: sn) (seq 0 (node_count g))) as [m|]; cbn [bind]; [|reflexivity].
  destruct (list_min (id :: sn)); [|reflexivity]. destruct (list_min me); [|reflexivity].
  rewrite up_filter. reflexivity.
Qed.

Lemma up_remove_edge : forall g id, remove_edge (up_graph g) id = rmap up1 (remove_edge g id).
Proof.
  intros g id. unfold remove_edge. change (edges (up_graph g)) with (edges g).
  destruct (nth_error (edges g) id) as [e|]; [|reflexivity].
  destruct (get_node_indices e) as [a b]. rewrite !up_incident.
  destruct (number_of_edges_incident_to g a) as [na|]; [|reflexivity].
  destruct (na =? 1); [apply up_remove_node|].
  destruct (number_of_edges_incident_to g b) as [nb|]; [|reflexivity].
  destruct (nb =? 1); [apply up_remove_node|].
  change (edge_count (up_graph g)) with (edge_count g).
  destruct (1 <? edge_count g); [|reflexivity].
  destruct (rev (edges g)) as [|last r]; [reflexivity|].
  now destruct (set_nth id last (rev r)).
Qed.

Lemma restricts_inside : forall keep (g g' : graph) gone es, restricts keep g g' gone es ->
  (forall e, In e es -> In e (edges g)) -> valid g' -> inside g -> inside g'.
Proof.
  intros keep g g' gone es R Hs V' (V & NL & HG & HS).
  split; [exact V'|]. split; [eapply restricts_no_loops; eassumption|].
  pose proof R as (_ & _ & FN & _). split.
  - apply Forall_forall. intros n Hn. apply In_nth_error in Hn. destruct Hn as (i & Hi).
    destruct (forall2_nth' _ _ _ _ _ FN _ _ Hi) as (k & _ & Hk). eapply on_grid_nth; eassumption.
  - intros e' a b He' Ha Hb.
    destruct (restricts_edge _ _ _ _ _ e' R He') as (e & He & S1 & S2 & _).
    destruct (forall2_nth' _ _ _ _ _ FN _ _ Ha) as (i & Hi & Ni).
    destruct (forall2_nth' _ _ _ _ _ FN _ _ Hb) as (j & Hj & Nj).
    apply (HS e a b (Hs e He)); congruence.
Qed.

Lemma remove_node_inside : forall g g' id r, inside g -> remove_node g id = Ok (g', r) -> inside g'.
Proof.
  intros g g' id r I H. pose proof I as (V & NL & _).
  destruct (lt_dec id (List.length (nodes g))) as [Hi|Hi].
  - pose proof (remove_node_restricts g g' id r V Hi (no_loops_not_lonely g id NL) H) as R.
    eapply restricts_inside; [exact R| | |exact I].
    + intros e He. apply filter_In in He. easy.
    + eapply remove_node_valid; eassumption.
  - rewrite remove_node_missing in H by lia. now inv H.
Qed.

Lemma remove_edge_inside : forall g g' id r, inside g -> remove_edge g id = Ok (g', r) -> inside g'.
Proof.
  intros g g' id r I H. pose proof I as (V & NL & _).
  destruct (nth_error (edges g) id) as [e|] eqn:E.
  - destruct (remove_edge_restricts g g' id e r V E (no_loops_not_lonely g _ NL) H) as (keep & sv & P & R).
    eapply restricts_inside; [exact R| | |exact I].
    + intros x Hx. apply (without_incl _ id). eapply Permutation_in; eassumption.
    + eapply remove_edge_valid; eassumption.
  - apply nth_error_None in E. rewrite remove_edge_missing in H by exact E. now inv H.
Qed.

(** ** Histories *)
Definition within_op (g : graph) (o : @op O1 T U) : Prop :=
  match o with
  | OAddNode p _ => G p
  | OAddEdge s d _ => s <> d /\ forall a b, nth_error (nodes g) s = Some a -> nth_error (nodes g) d = Some b ->
      S (position a) (position b)
  | _ => True
  end.
Fixpoint within_ops (g : graph) (os : list (@op O1 T U)) : Prop :=
  match os with
  | [] => True
  | o :: os' => within_op g o /\ forall g', step dT g o = Ok g' -> within_ops g' os'
  end.

Lemma up_step : forall g o, inside g -> within_op g o ->
  step dT (up_graph g) (up_op o) = rmap up_graph (step dT g o) /\
  forall g', step dT g o = Ok g' -> inside g'.
Proof.
  intros g o I W. destruct o as [p d|s d u|i|i]; cbn [step up_op].
  - destruct (up_add_node g p d I W) as [E1 E2]. rewrite E1.
    destruct (add_node g p d) as [[g1 r]|]; cbn [rmap bind up1 fst snd]; (split; [reflexivity|]); [|discriminate].
    intros g' H. inv H. eapply E2. reflexivity.
  - destruct (up_add_edge g s d u I W) as [E1 E2]. rewrite E1.
    destruct (add_edge dT g s d u) as [[g1 r]|]; cbn [rmap bind up1 fst snd]; (split; [reflexivity|]); [|discriminate].
    intros g' H. inv H. eapply E2. reflexivity.
  - rewrite up_remove_node. destruct (remove_node g i) as [[g1 r]|] eqn:E; cbn [rmap bind up1 fst snd];
      (split; [reflexivity|]); [|discriminate].
    intros g' H. inv H. eapply remove_node_inside; eassumption.
  - rewrite up_remove_edge. destruct (remove_edge g i) as [[g1 r]|] eqn:E; cbn [rmap bind up1 fst snd];
      (split; [reflexivity|]); [|discriminate].
    intros g' H. inv H. eapply remove_edge_inside; eassumption.
Qed.

Theorem up_run : forall os g, inside g -> within_ops g os ->
  run dT (up_graph g) (map up_op os) = rmap up_graph (run dT g os) /\
  forall g', run dT g os = Ok g' -> inside g'.
Proof.
  induction os as [|o os IH]; intros g I W; cbn [run map].
  - split; [reflexivity|]. intros g' H. now inv H.
  - destruct W as [W1 W2]. destruct (up_step g o I W1) as [E1 E2]. rewrite E1.
    destruct (step dT g o) as [g1|]; cbn [rmap bind]; [|split; [reflexivity|discriminate]].
    apply IH; [now apply E2|now apply W2].
Qed.

Lemma new_inside : inside graph_new.
Proof.
  split; [intros e []|]. split; [intros e []|]. split; [constructor|]. intros e a b [].
Qed.
End Sim.
