(** * C01-C19: the planar graph.

    [reachable dT g]: some sequence of add_node / add_edge / remove_node / remove_edge
    calls on a new graph returned without panic and left [g].  [dT] is T::default().
    Theorems quantified over [O : Ops] hold whatever the scalars do, in particular for
    f32 with NaN and infinities; [FO lm] is f32 itself. *)
From Coq Require Import List Arith Bool Lia Reals Lra Relations String Permutation ZArith.
From Flocq Require Import Core.Core IEEE754.BinarySingleNaN.
From Verif Require Import Scalar Utils Polygon Graph ListSpec GraphSpec PlaneSpec Laws Closest
  GraphAdd GraphAddProps GraphRemove GraphHistory GraphDemo.
Import ListNotations.
Local Open Scope nat_scope.

(** ** C01 *)
Theorem C01_edge_endpoints_exist :
  forall (O : Ops) (T U : Type) (dT : T) (g : PlanarGraph O T U), reachable dT g ->
  forall i e, get_edge g i = Some e ->
    let '(a, b) := get_node_indices e in
    a < node_count g /\ b < node_count g /\
    get_vertex g a <> None /\ get_vertex g b <> None.
Proof.
  intros O T U dT g R i e H. unfold get_node_indices, get_vertex.
  rewrite !nth_error_Some.
  destruct (reachable_valid dT g R e (nth_error_In _ _ H)). repeat split; assumption.
Qed.
Print Assumptions C01_edge_endpoints_exist.

Example C01_example : reachable 0 (build cross) /\
  shape (build cross) = [(0, 4, 10); (2, 4, 20); (1, 4, 10); (3, 4, 20)].
Proof. split; [apply build_reachable, cross_ok|apply cross_shape]. Qed.

(** ** C02 *)
Theorem C02_nodes_apart :
  forall lm (T U : Type) (dT : T) (g : PlanarGraph (FO lm) T U), reachable dT g ->
  forall i j ni nj, i <> j -> get_vertex g i = Some ni -> get_vertex g j = Some nj ->
    olt (distance (position ni) (position nj)) ceps = false.
Proof. intros lm T U dT g R. exact (reachable_separated (FO_laws lm) dT g R). Qed.
Print Assumptions C02_nodes_apart.

(** The same for the exact-arithmetic instance. *)
Theorem C02_nodes_apart_exact :
  forall (T U : Type) (dT : T) (g : PlanarGraph XO T U), reachable dT g -> separated g.
Proof. intros T U dT g R. exact (reachable_separated XO_laws dT g R). Qed.
Print Assumptions C02_nodes_apart_exact.

Example C02_example : reachable 0 (build cross) /\ node_count (build cross) = 5.
Proof. split; [apply build_reachable, cross_ok|vm_compute; reflexivity]. Qed.

(** ** C03 *)
Theorem C03_add_node_reuses_or_appends :
  forall lm (T U : Type) (dT : T) (g : PlanarGraph (FO lm) T U) p d, reachable dT g ->
  exists g' i ces, add_node g p d = Ok (g', (i, ces)) /\
    ((near_node g p /\ g' = g /\ ces = [] /\
      exists n, get_vertex g i = Some n /\
        olt (distance p (position n)) ceps = true) \/
     (~ near_node g p /\ i = node_count g /\ nodes g' = nodes g ++ [MkNode p d ""%string])).
Proof.
  intros lm T U dT g p d R.
  exact (add_node_cases (FO_laws lm) g p d (reachable_valid dT g R)).
Qed.
Print Assumptions C03_add_node_reuses_or_appends.

(** Both cases occur: a second node at the same place, and a node elsewhere. *)
Example C03_example :
  is_ok (add_node (build cross) (xy 2 0) 5) = true /\
  snd (got (graph_new, (0, [])) (add_node (build cross) (xy 2 0) 5)) = (1, []) /\
  snd (got (graph_new, (0, [])) (add_node (build cross) (xy 1 0) 5)) = (5, [2; 4]).
Proof. vm_compute. easy. Qed.

(** ** C04 *)
Theorem C04_add_node_splits_exactly :
  forall (O : Ops) (T U : Type) (g g' : PlanarGraph O T U) p d k ces,
  add_node g p d = Ok (g', (k, ces)) -> node_count g' = S (node_count g) ->
  let touched e := is_on_line_segment (pos_at (nodes g) (src e)) (pos_at (nodes g) (dst e)) p false in
  valid g ->
  (forall i e, get_edge g i = Some e ->
     get_edge g' i = Some (if touched e then MkEdge (src e) k (edata e) ""%string else e)) /\
  skipn (edge_count g) (edges g') =
    map (fun e => MkEdge (dst e) k (edata e) ""%string) (filter touched (edges g)) /\
  NoDup ces /\
  (forall i, In i ces <->
     (exists e, get_edge g i = Some e /\ touched e = true) \/
     edge_count g <= i < edge_count g').
Proof.
  intros O T U g g' p d k ces H Hc touched Hv.
  apply add_node_ok in H.
  destruct H as [(dist & _ & _ & -> & ->)|(dist & j & _ & _ & -> & Hn & He & ->)]; [lia|].
  assert (E : forall e, In e (edges g) ->
            on_edge (nodes g') (List.length (nodes g)) e = touched e).
  { intros e Hin. unfold on_edge, touched. rewrite Hn. destruct (Hv e Hin) as [Hs Hd].
    unfold pos_at. rewrite !nth_error_app1 by assumption.
    rewrite nth_error_app2 by lia. rewrite Nat.sub_diag. reflexivity. }
  assert (F : filter (on_edge (nodes g') (List.length (nodes g))) (edges g) = filter touched (edges g)).
  { apply filter_ext_in. exact E. }
  split; [|split; [|split]].
  - intros i e Hi. unfold get_edge in *. rewrite He.
    rewrite (split_edges_old _ _ _ i e Hi). rewrite (E e (nth_error_In _ _ Hi)).
    destruct (touched e); reflexivity.
  - rewrite He. unfold split_edges, edge_count. rewrite skipn_app, skipn_all2, map_length, Nat.sub_diag.
    + simpl. rewrite F. reflexivity.
    + now rewrite map_length.
  - unfold split_report. apply NoDup_app_disjoint.
    + apply slots_nodup.
    + apply seq_NoDup.
    + intros i H1 H2. apply slots_in in H1. destruct H1 as (_ & e & H1 & _).
      rewrite Nat.sub_0_r in H1. apply in_seq in H2.
      assert (i < List.length (edges g)) by (apply nth_error_Some; congruence). lia.
  - intros i. rewrite split_report_spec. unfold edge_count. rewrite He, split_edges_length.
    split; (intros [(e & H1 & H2)|H1]; [left; exists e; split; [exact H1|]|right; exact H1]).
    + now rewrite <- (E e (nth_error_In _ _ H1)).
    + now rewrite (E e (nth_error_In _ _ H1)).
Qed.
Print Assumptions C04_add_node_splits_exactly.

Example C04_example :
  let r := got (graph_new, (0, [])) (add_node (build cross) (xy 1 0) 5) in
  node_count (fst r) = S (node_count (build cross)) /\ valid (build cross) /\
  shape (fst r) = [(0, 4, 10); (2, 4, 20); (1, 5, 10); (3, 4, 20); (4, 5, 10)].
Proof.
  split; [vm_compute; reflexivity|]. split; [|vm_compute; reflexivity].
  apply (reachable_valid 0), build_reachable, cross_ok.
Qed.

(** ** C05 *)
Theorem C05_adding_never_panics :
  forall (O : Ops) (T U : Type) (dT : T) (g : PlanarGraph O T U), reachable dT g ->
  (forall p d, add_node g p d <> Panic) /\ (forall s d u, add_edge dT g s d u <> Panic).
Proof.
  intros O T U dT g R. apply reachable_valid in R. split.
  - intros p d. destruct (add_node_total g p d R) as [r ->]. discriminate.
  - intros s d u. destruct (add_edge_total dT g s d u R) as [r ->]. discriminate.
Qed.
Print Assumptions C05_adding_never_panics.

(** NaN positions and missing indices included. *)
Example C05_example : reachable 0 (build cross) /\
  is_ok (add_node (build cross) (P2 B754_nan B754_nan) 1) = true /\
  is_ok (add_edge 0 (build cross) 0 77 1) = true.
Proof. split; [apply build_reachable, cross_ok|vm_compute; easy]. Qed.

(** ** C06 *)
Theorem C06_add_edge_rejects_and_ignores :
  forall (O : Ops) (T U : Type) (dT : T) (g g' : PlanarGraph O T U) s d u r,
  reachable dT g -> add_edge dT g s d u = Ok (g', r) ->
  (r = NoSuchVertex <-> ~ (s < node_count g /\ d < node_count g)) /\
  (r = NoSuchVertex -> g' = g) /\
  (r = AddOk [] [] <-> adjacent g s d) /\
  (r = AddOk [] [] -> g' = g).
Proof.
  intros O T U dT g g' s d u r R H. apply reachable_valid in R. unfold node_count.
  assert (A : adjacent g s d -> s < List.length (nodes g) /\ d < List.length (nodes g)).
  { intros (e & Hin & J). destruct (R e Hin). destruct J as [[? ?]|[? ?]]; subst; easy. }
  apply add_edge_ok in H.
  destruct H as [(Ha & -> & ->)|[(Ha & Hn & -> & ->)|(Ha & Hs & Hd & ns & es & Hg & ->)]].
  - repeat split; try easy. intros C. now destruct (C (A Ha)).
  - repeat split; try easy. 
  - assert (N : AddOk ns (match es with [] => [List.length (edges g') - 1] | _ => es end) <> AddOk [] [])
      by (destruct es; discriminate).
    repeat split; try easy; intros H; try (now destruct (N H)). now destruct H.
Qed.
Print Assumptions C06_add_edge_rejects_and_ignores.

Example C06_example : reachable 0 (build cross) /\
  snd (got (graph_new, NoSuchVertex) (add_edge 0 (build cross) 4 0 1)) = AddOk [] [] /\
  snd (got (graph_new, AddOk [] []) (add_edge 0 (build cross) 0 5 1)) = NoSuchVertex.
Proof. split; [apply build_reachable, cross_ok|vm_compute; easy]. Qed.

(** ** C07 *)
Theorem C07_add_edge_reports_new_nodes :
  forall (O : Ops) (T U : Type) (dT : T) (g g' : PlanarGraph O T U) s d u ns es,
  add_edge dT g s d u = Ok (g', AddOk ns es) ->
  ns = seq (node_count g) (node_count g' - node_count g) /\
  node_count g <= node_count g' /\
  (forall i, i < node_count g -> get_vertex g' i = get_vertex g i) /\
  (forall i n, node_count g <= i -> get_vertex g' i = Some n -> ndata n = dT /\ nlabel n = ""%string).
Proof.
  intros O T U dT g g' s d u ns es H. apply add_edge_ok in H. unfold node_count, get_vertex.
  assert (Same : g' = g -> ns = [] -> ns = seq (List.length (nodes g)) (List.length (nodes g') - List.length (nodes g)) /\
    List.length (nodes g) <= List.length (nodes g') /\
    (forall i, i < List.length (nodes g) -> nth_error (nodes g') i = nth_error (nodes g) i) /\
    (forall i n, List.length (nodes g) <= i -> nth_error (nodes g') i = Some n -> ndata n = dT /\ nlabel n = ""%string)).
  { intros -> ->. rewrite Nat.sub_diag. repeat split; auto;
      apply nth_error_None in H0; congruence. }
  destruct H as [(_ & Hg & E)|[(_ & _ & _ & E)|(_ & Hs & Hd & ns' & es' & Hg & E)]];
    inversion E; subst; auto.
  destruct (grow_nodes dT _ _ _ _ Hg) as (new & Hn & -> & Fa). simpl in Hn. simpl.
  rewrite Hn, app_length.
  replace (List.length (nodes g) + List.length new - List.length (nodes g)) with (List.length new) by lia.
  split; [reflexivity|]. split; [lia|]. split.
  - intros i Hi. now rewrite nth_error_app1.
  - intros i n Hi H. rewrite nth_error_app2 in H by exact Hi.
    rewrite Forall_forall in Fa. apply (Fa n). eapply nth_error_In; eassumption.
Qed.
Print Assumptions C07_add_edge_reports_new_nodes.

(** The second edge of [cross] creates node 4. *)
Example C07_example :
  snd (got (graph_new, NoSuchVertex)
    (add_edge 0 (build [N (-2) 0; N 2 0; N 0 (-2); N 0 2; E 0 1 10]) 2 3 20))
  = AddOk [4] [0; 1; 2; 3].
Proof. vm_compute. reflexivity. Qed.

(** ** C08: every reported edge slot exists, and every slot that existed before and
    changed is reported.  What fails is the report of the new edge's own slot. *)
Theorem C08_add_edge_reports_edges_partial :
  forall (O : Ops) (T U : Type) (dT : T) (g g' : PlanarGraph O T U) s d u ns es,
  add_edge dT g s d u = Ok (g', AddOk ns es) ->
  (forall i, In i es -> i < edge_count g') /\
  edge_count g <= edge_count g' /\
  (forall i, ~ In i es -> i <> edge_count g -> get_edge g' i = get_edge g i) /\
  (~ In (edge_count g) es -> ~ adjacent g s d ->
     get_edge g' (edge_count g) = Some (MkEdge s d u ""%string)).
Proof.
  intros O T U dT g g' s d u ns es H. apply add_edge_ok in H. unfold edge_count, get_edge.
  destruct H as [(A & -> & E)|[(_ & _ & _ & E)|(A & Hs & Hd & ns' & es' & Hg & E)]];
    inversion E; subst; clear E.
  - repeat split; auto; easy.
  - destruct (grow_reported_valid dT _ _ _ _ Hg) as [L V].
    simpl in L. rewrite app_length in L. simpl in L.
    assert (Un : forall i, ~ In i (match es' with [] => [List.length (edges g') - 1] | _ => es' end) ->
       nth_error (edges g') i = nth_error (edges g ++ [MkEdge s d u DEFAULT_LABEL]) i).
    { intros i Hi. apply (grow_unreported dT _ _ _ _ Hg i). destruct es'; [easy|exact Hi]. }
    split; [|split; [lia|split]].
    + intros i Hi. destruct es' as [|x l]; [destruct Hi as [<-|[]]; lia|]. now apply V.
    + intros i Hi Hne. rewrite (Un i Hi).
      destruct (lt_dec i (List.length (edges g))); [now rewrite nth_error_app1|].
      rewrite nth_error_app2 by lia.
      rewrite !(proj2 (nth_error_None _ _)); [reflexivity|lia|simpl; lia].
    + intros Hi _. rewrite (Un _ Hi). rewrite nth_error_app2, Nat.sub_diag by lia. reflexivity.
Qed.
Print Assumptions C08_add_edge_reports_edges_partial.

Example C08_example :
  snd (got (graph_new, NoSuchVertex)
    (add_edge 0 (build [N (-2) 0; N 2 0; N 0 (-2); N 0 2; E 0 1 10]) 2 3 20))
  = AddOk [4] [0; 1; 2; 3].
Proof. vm_compute. reflexivity. Qed.

(** The new edge 2-3 starts on an older edge drawn over node 2: slots 0 and 2 are
    reported, its own slot 1 is not. *)
Theorem C08_new_edge_slot_reported_refuted :
  exists (g g' : G) s d u ns es i,
    reachable 0 g /\ add_edge 0 g s d u = Ok (g', AddOk ns es) /\
    get_edge g i = None /\ get_edge g' i = Some (MkEdge s d u ""%string) /\ ~ In i es.
Proof.
  pose (r := add_edge 0 (build tee) 2 3 2).
  assert (K : is_ok r = true) by (vm_compute; reflexivity).
  apply (got_ok _ (graph_new, NoSuchVertex)) in K.
  exists (build tee), (fst (got (graph_new, NoSuchVertex) r)), 2, 3, 2, [], [0; 2], 1.
  split; [apply build_reachable, tee_ok|]. split.
  - fold r. rewrite K.
    assert (S : snd (got (graph_new, NoSuchVertex) r) = AddOk [] [0; 2]) by (vm_compute; reflexivity).
    rewrite <- S. cbn [got]. now rewrite <- surjective_pairing.
  - split; [vm_compute; reflexivity|]. split; [vm_compute; reflexivity|]. simpl. lia.
Qed.
Print Assumptions C08_new_edge_slot_reported_refuted.

Lemma star_real :
  real_point (pos_at (nodes (build star)) 4) = P2 0%R 0%R /\
  real_point (pos_at (nodes (build star)) 5) = P2 (-2)%R (-2)%R /\
  real_point (pos_at (nodes (build star)) 6) = P2 2%R 2%R.
Proof.
  assert (K0 : forall x : f32, B2SF x = SpecFloat.S754_zero false -> B2R x = 0%R).
  { intros x H. rewrite <- SF2R_B2SF, H. reflexivity. }
  assert (Km : forall x : f32, B2SF x = SpecFloat.S754_finite true 8388608 (-22) -> B2R x = (-2)%R).
  { intros x H. rewrite <- SF2R_B2SF, H. unfold SF2R, F2R. simpl. lra. }
  assert (Kp : forall x : f32, B2SF x = SpecFloat.S754_finite false 8388608 (-22) -> B2R x = 2%R).
  { intros x H. rewrite <- SF2R_B2SF, H. unfold SF2R, F2R. simpl. lra. }
  destruct star_positions as (A & B & C & D & E' & F').
  unfold real_point. split; [|split]; apply f_equal2; auto.
Qed.

(** ** C09: three edges through one point; the third one is not split. *)
Theorem C09_planarity_refuted :
  exists g : G, reachable 0 g /\ ~ planar_f32 g.
Proof.
  exists (build star). split; [apply build_reachable, star_ok|]. intros [H _].
  assert (E5 : exists e, nth_error (edges (build star)) 4 = Some e /\ src e = 5 /\ dst e = 6).
  { eexists. split; [vm_compute; reflexivity|]. easy. }
  destruct E5 as (e & He & Hs & Hd).
  apply (H 4 e).
  - vm_compute. lia.
  - eapply nth_error_In; eassumption.
  - unfold touches. lia.
  - rewrite Hs, Hd. exists (/2)%R. split; [lra|].
    destruct star_real as (-> & -> & ->). unfold along; cbn [vx vy]. f_equal; lra.
Qed.
Print Assumptions C09_planarity_refuted.

(** What add_node does ensure: no stored edge keeps the returned new node in its
    interior (by the code's own test).  Missing: crossings and overlaps. *)
Theorem C09_add_node_clears_partial :
  forall lm (T U : Type) (g g' : PlanarGraph (FO lm) T U) p d k ces,
  add_node g p d = Ok (g', (k, ces)) -> node_count g' = S (node_count g) ->
  forall e, In e (edges g') ->
    is_on_line_segment (pos_at (nodes g') (src e)) (pos_at (nodes g') (dst e))
      (pos_at (nodes g') k) false = false.
Proof.
  intros lm T U. exact (add_node_clears (FO_laws lm)).
Qed.
Print Assumptions C09_add_node_clears_partial.

Example C09_example :
  let r := got (graph_new, (0, [])) (add_node (build cross) (xy 1 0) 5) in
  node_count (fst r) = S (node_count (build cross)) /\ edge_count (fst r) = 5.
Proof. vm_compute. easy. Qed.

(** ** C10 *)
Theorem C10_edge_data_provenance :
  forall (O : Ops) (T U : Type) (dT : T) os (g : PlanarGraph O T U),
  run dT graph_new os = Ok g -> forall e, In e (edges g) ->
  elabel e = ""%string /\
  exists os1 s d os2 g1 g2 ns es,
    os = os1 ++ OAddEdge s d (edata e) :: os2 /\ run dT graph_new os1 = Ok g1 /\
    ~ adjacent g1 s d /\ add_edge dT g1 s d (edata e) = Ok (g2, AddOk ns es).
Proof.
  intros O T U dT os g H e Hin.
  destruct (run_supplied dT os g H e Hin) as [S L]. split; [exact L|exact S].
Qed.
Print Assumptions C10_edge_data_provenance.

Example C10_example : run 0 graph_new cross = Ok (build cross) /\
  map edata (edges (build cross)) = [10; 20; 10; 20].
Proof. split; [apply build_ok, cross_ok|vm_compute; reflexivity]. Qed.

(** ** C11 *)
Theorem C11_additions_never_disconnect :
  forall (O : Ops) (T U : Type) (dT : T) (g g' : PlanarGraph O T U),
  (forall p d r, add_node g p d = Ok (g', r) -> forall a b, connected g a b -> connected g' a b) /\
  (forall s d u r, add_edge dT g s d u = Ok (g', r) ->
     (forall a b, connected g a b -> connected g' a b) /\
     (r <> NoSuchVertex -> connected g' s d)).
Proof.
  intros O T U dT g g'. split.
  - intros p d r. exact (add_node_connected g g' p d r).
  - intros s d u r. exact (add_edge_connected dT g g' s d u r).
Qed.
Print Assumptions C11_additions_never_disconnect.

(** The edge 2-3 of [cross] is cut in two, 2 and 3 stay connected. *)
Example C11_example : has_edge_between_nodes (build cross) 2 3 = false /\
  connected (build cross) 2 3.
Proof.
  split; [vm_compute; reflexivity|].
  apply rt_trans with 4; apply rt_step.
  - exists (MkEdge 2 4 20 ""%string). split; [vm_compute; tauto|]. left. easy.
  - exists (MkEdge 3 4 20 ""%string). split; [vm_compute; tauto|]. right. easy.
Qed.

(** ** C12 *)
Theorem C12_remove_node_exact :
  forall (O : Ops) (T U : Type) (dT : T) (g : PlanarGraph O T U) id,
  reachable dT g -> id < node_count g -> 0 < degree g id -> ~ lonely_loop g id ->
  exists g' r, remove_node g id = Ok (g', r) /\
    exists keep, restricts keep g g' (to_delete g id)
                   (filter (fun e => negb (touchesb id e)) (edges g)).
Proof.
  intros O T U dT g id R Hid Hd NL. apply reachable_valid in R.
  destruct (remove_node g id) as [[g' r]|] eqn:E.
  - exists g', r. split; [reflexivity|]. exists (keep_of g id).
    eapply remove_node_restricts; eassumption.
  - exfalso. apply (remove_node_panics g id R) in E.
    destruct E as (_ & [D|(LL & _)]); [lia|contradiction].
Qed.
Print Assumptions C12_remove_node_exact.

(** Histories that never ask for a self-loop meet the last hypothesis everywhere. *)
Theorem C12_no_self_loops_suffices :
  forall lm (T U : Type) (dT : T) os (g : PlanarGraph (FO lm) T U),
  no_loop_requests os -> run dT graph_new os = Ok g -> forall id, ~ lonely_loop g id.
Proof.
  intros lm T U dT os g Hr H id. apply no_loops_not_lonely.
  eapply (run_no_loops (FO_laws lm)); eassumption.
Qed.
Print Assumptions C12_no_self_loops_suffices.

Example C12_example : reachable 0 (build cross) /\ 0 < node_count (build cross) /\
  degree (build cross) 0 = 1 /\ ~ lonely_loop (build cross) 0 /\
  shape (fst (got (graph_new, ([], [])) (remove_node (build cross) 0)))
    = [(1, 3, 20); (0, 3, 10); (2, 3, 20)].
Proof.
  split; [apply build_reachable, cross_ok|]. split; [vm_compute; lia|].
  split; [vm_compute; reflexivity|]. split; [|vm_compute; reflexivity].
  apply (C12_no_self_loops_suffices lm0 nat nat 0 cross); [|apply build_ok, cross_ok].
  intros s u H. simpl in H. unfold N, E in H.
  repeat (destruct H as [H|H]; [inversion H; subst; discriminate|]). destruct H.
Qed.

(** With a lone self-loop the renumbering is wrong: edge 2-3 becomes 0-1, where node 0
    was and is another node. *)
Theorem C12_self_loop_refuted :
  exists (g g' : G) id r,
    reachable 0 g /\ remove_node g id = Ok (g', r) /\
    shape g = [(2, 3, 5); (1, 1, 6)] /\ id = 1 /\
    shape g' = [(0, 1, 5)] /\
    where_is g' 0 = where_is g 0 /\ where_is g' 1 = where_is g 2 /\ where_is g' 2 = where_is g 3.
Proof.
  set (os := [N 0 0; N 4 0; N 8 0; N 8 4; E 2 3 5; E 1 1 6]).
  assert (K : is_ok (run 0 graph_new os) = true) by (vm_compute; reflexivity).
  assert (K2 : is_ok (remove_node (build os) 1) = true) by (vm_compute; reflexivity).
  apply (got_ok _ (graph_new, ([], []))) in K2.
  exists (build os), (fst (got (graph_new, ([], [])) (remove_node (build os) 1))), 1,
    (snd (got (graph_new, ([], [])) (remove_node (build os) 1))).
  split; [apply build_reachable, K|]. split; [rewrite <- surjective_pairing; exact K2|].
  split; [vm_compute; reflexivity|]. split; [reflexivity|].
  split; [vm_compute; reflexivity|]. repeat split; vm_compute; reflexivity.
Qed.
Print Assumptions C12_self_loop_refuted.

(** ** C13 *)
Theorem C13_remove_node_never_panics_refuted :
  exists (g : G) id, reachable 0 g /\ id < node_count g /\ remove_node g id = Panic.
Proof.
  set (os := [N 0 0]).
  exists (build os), 0. split; [apply build_reachable; vm_compute; reflexivity|].
  split; [vm_compute; lia|]. apply not_ok. vm_compute. reflexivity.
Qed.
Print Assumptions C13_remove_node_never_panics_refuted.

(** ** C14 *)
Theorem C14_remove_edge_exact :
  forall (O : Ops) (T U : Type) (dT : T) (g g' : PlanarGraph O T U) id e r,
  reachable dT g -> get_edge g id = Some e -> ~ lonely_loop g (src e) ->
  remove_edge g id = Ok (g', r) ->
  exists keep survivors,
    Permutation survivors (without id (edges g)) /\
    restricts keep g g' (fun i => touches i e /\ degree g i = 1) survivors.
Proof.
  intros O T U dT g g' id e r R He NL H. apply reachable_valid in R.
  eapply remove_edge_restricts; eassumption.
Qed.
Print Assumptions C14_remove_edge_exact.

(** Slot 0 of [cross] goes with its stray end; slot 1 of the triangle goes alone. *)
Example C14_example : reachable 0 (build triangle) /\ ~ lonely_loop (build triangle) 1 /\
  shape (fst (got (graph_new, ([], [])) (remove_edge (build triangle) 1)))
    = [(0, 1, 1); (2, 0, 3)] /\
  shape (fst (got (graph_new, ([], [])) (remove_edge (build cross) 0)))
    = [(1, 3, 20); (0, 3, 10); (2, 3, 20)].
Proof.
  split; [apply build_reachable, triangle_ok|]. split; [|vm_compute; easy].
  intros [_ D]. vm_compute in D. discriminate.
Qed.

(** ** C15 *)
Theorem C15_remove_edge_never_panics_refuted :
  exists (g : G) id, reachable 0 g /\ id < edge_count g /\ remove_edge g id = Panic.
Proof.
  exists (build triangle), 2. split; [apply build_reachable, triangle_ok|].
  split; [vm_compute; lia|]. apply not_ok. vm_compute. reflexivity.
Qed.
Print Assumptions C15_remove_edge_never_panics_refuted.

(** ** C16 *)
Theorem C16_removal_leaves_no_strays :
  forall (O : Ops) (T U : Type) (dT : T) (g g' : PlanarGraph O T U) id r,
  reachable dT g -> no_parallel g -> no_loops g ->
  (id < node_count g -> remove_node g id = Ok (g', r) ->
     exists keep, restricts keep g g' (to_delete g id)
                    (filter (fun e => negb (touchesb id e)) (edges g)) /\
       forall k i, nth_error keep k = Some i -> 0 < degree g i -> 0 < degree g' k) /\
  (forall e, get_edge g id = Some e -> remove_edge g id = Ok (g', r) ->
     exists keep survivors, Permutation survivors (without id (edges g)) /\
       restricts keep g g' (fun i => touches i e /\ degree g i = 1) survivors /\
       forall k i, nth_error keep k = Some i -> 0 < degree g i -> 0 < degree g' k).
Proof.
  intros O T U dT g g' id r R NP NLo. apply reachable_valid in R. split.
  - intros Hid H. exists (keep_of g id). pose proof (no_loops_not_lonely g id NLo) as NL.
    split; [eapply remove_node_restricts; eassumption|].
    eapply remove_node_no_strays; eassumption.
  - intros e He H.
    destruct (remove_edge_restricts g g' id e r R He (no_loops_not_lonely g _ NLo) H)
      as (keep & sv & P & Rs).
    exists keep, sv. split; [exact P|]. split; [exact Rs|].
    eapply remove_edge_no_strays; eassumption.
Qed.
Print Assumptions C16_removal_leaves_no_strays.

Example C16_example : reachable 0 (build triangle) /\ no_parallel (build triangle) /\
  no_loops (build triangle) /\
  shape (fst (got (graph_new, ([], [])) (remove_node (build triangle) 0))) = [(0, 1, 2)].
Proof.
  split; [apply build_reachable, triangle_ok|].
  assert (S : shape (build triangle) = [(0, 1, 1); (1, 2, 2); (2, 0, 3)]) by (vm_compute; reflexivity).
  assert (Ed : forall i e, nth_error (edges (build triangle)) i = Some e ->
     (i = 0 /\ src e = 0 /\ dst e = 1) \/ (i = 1 /\ src e = 1 /\ dst e = 2) \/
     (i = 2 /\ src e = 2 /\ dst e = 0)).
  { intros i e H. assert (H' : nth_error (shape (build triangle)) i = Some (src e, dst e, edata e)).
    { unfold shape. rewrite nth_error_map, H. reflexivity. }
    rewrite S in H'. destruct i as [|[|[|i]]]; simpl in H'; try (inversion H'; lia).
    destruct i; discriminate. }
  split; [|split; [|vm_compute; reflexivity]].
  - intros i j ei ej Hij Hi Hj J. apply Ed in Hi, Hj. unfold joins in J. lia.
  - intros e Hin. apply In_nth_error in Hin. destruct Hin as [i Hi]. apply Ed in Hi. lia.
Qed.

(** ** C17: self-loops only on request *)
Theorem C17_self_loops_only_on_request_partial :
  forall lm (T U : Type) (dT : T) os (g : PlanarGraph (FO lm) T U),
  no_loop_requests os -> run dT graph_new os = Ok g ->
  forall e, In e (edges g) -> src e <> dst e.
Proof. intros lm T U dT os g. exact (run_no_loops (FO_laws lm) dT os g). Qed.
Print Assumptions C17_self_loops_only_on_request_partial.

Example C17_example : no_loop_requests cross /\ run 0 graph_new cross = Ok (build cross).
Proof.
  split; [|apply build_ok, cross_ok].
  intros s u H. simpl in H. unfold N, E in H.
  repeat (destruct H as [H|H]; [inversion H; subst; discriminate|]). destruct H.
Qed.

(** Parallel edges do appear: 0-3 is stored twice. *)
Theorem C17_no_parallel_edges_refuted :
  exists g : G, reachable 0 g /\ ~ no_parallel g /\
    shape g = [(0, 3, 1); (0, 3, 2); (1, 3, 1); (2, 3, 2)].
Proof.
  exists (build overlap). split; [apply build_reachable, overlap_ok|].
  split; [|vm_compute; reflexivity]. intros H.
  assert (E0 : exists e, nth_error (edges (build overlap)) 0 = Some e /\ src e = 0 /\ dst e = 3)
    by (eexists; split; [vm_compute; reflexivity|easy]).
  assert (E1 : exists e, nth_error (edges (build overlap)) 1 = Some e /\ src e = 0 /\ dst e = 3)
    by (eexists; split; [vm_compute; reflexivity|easy]).
  destruct E0 as (e0 & H0 & S0 & D0), E1 as (e1 & H1 & S1 & D1).
  apply (H 0 1 e0 e1); auto. left. lia.
Qed.
Print Assumptions C17_no_parallel_edges_refuted.

(** ** C18 *)
Theorem C18_queries_partial :
  forall (O : Ops) (T U : Type) (g : PlanarGraph O T U),
  (forall i, get_vertex g i <> None <-> i < node_count g) /\
  (forall i, get_edge g i <> None <-> i < edge_count g) /\
  (forall i, i <> 0 -> (has_node_at_index g i = true <-> i < node_count g)) /\
  (forall i, i <> 0 -> (has_edge_at_index g i = true <-> i < edge_count g)) /\
  (forall a b, has_edge_between_nodes g a b = has_edge_between_nodes g b a) /\
  (forall a b, has_edge_between_nodes g a b = true <-> adjacent g a b) /\
  (forall i, number_of_edges_incident_to g i =
     if i <? node_count g then Some (degree g i) else None).
Proof.
  intros O T U g. unfold get_vertex, get_edge, has_node_at_index, has_edge_at_index, node_count, edge_count.
  split; [intros; apply nth_error_Some|]. split; [intros; apply nth_error_Some|].
  assert (Z : forall i, i <> 0 -> (0 <? i) = true) by (intros; apply Nat.ltb_lt; lia).
  split; [intros i Hi; rewrite (Z i Hi); apply Nat.ltb_lt|].
  split; [intros i Hi; rewrite (Z i Hi); apply Nat.ltb_lt|].
  assert (J : forall a b, adjacent g a b -> adjacent g b a).
  { intros a b (e & Hin & Hj). exists e. split; [exact Hin|]. unfold joins in *. tauto. }
  split; [|split].
  - intros a b. destruct (has_edge_between_nodes g a b) eqn:E1, (has_edge_between_nodes g b a) eqn:E2; auto.
    + apply between_adjacent, J, between_adjacent in E1. congruence.
    + apply between_adjacent, J, between_adjacent in E2. congruence.
  - apply between_adjacent.
  - apply incident_count.
Qed.
Print Assumptions C18_queries_partial.

Example C18_example : has_node_at_index (build cross) 4 = true /\
  has_edge_at_index (build cross) 3 = true /\ has_edge_between_nodes (build cross) 4 3 = true /\
  number_of_edges_incident_to (build cross) 4 = Some 4 /\
  number_of_edges_incident_to (build cross) 5 = None.
Proof. vm_compute. easy. Qed.

(** Index 0 is never "there". *)
Theorem C18_index_zero_refuted :
  (forall (O : Ops) (T U : Type) (g : PlanarGraph O T U),
     has_node_at_index g 0 = false /\ has_edge_at_index g 0 = false) /\
  exists g : G, reachable 0 g /\ 0 < node_count g /\ 0 < edge_count g.
Proof.
  split; [intros; split; reflexivity|].
  exists (build cross). split; [apply build_reachable, cross_ok|]. vm_compute. lia.
Qed.
Print Assumptions C18_index_zero_refuted.

(** ** C19: without lone self-loops (see C12_self_loop_refuted for those) *)
Theorem C19_removal_reports_partial :
  forall (O : Ops) (T U : Type) (dT : T) (g g' : PlanarGraph O T U) id cn ce,
  reachable dT g -> (forall i, ~ lonely_loop g i) ->
  (remove_node g id = Ok (g', (cn, ce)) \/ remove_edge g id = Ok (g', (cn, ce))) ->
  exists keep, increasing keep /\
    Forall2 (fun n' i => get_vertex g i = Some n') (nodes g') keep /\
    unreported_same keep g g' cn ce.
Proof.
  intros O T U dT g g' id cn ce R NL H. apply reachable_valid in R.
  assert (Same : g' = g -> exists keep, increasing keep /\
    Forall2 (fun n' i => nth_error (nodes g) i = Some n') (nodes g') keep /\
    unreported_same keep g g' cn ce).
  { intros ->. exists (seq 0 (List.length (nodes g))).
    split; [rewrite <- (filter_true_seq (fun _ => true)) by reflexivity; apply increasing_filter_seq|].
    split; [apply seq_self_nodes|]. split; [reflexivity|].
    intros i _. destruct (nth_error (edges g) i) as [x|] eqn:Ex; [|exact I].
    destruct (R x (nth_error_In _ _ Ex)). unfold same_edge_via. now rewrite !nth_error_seq0. }
  destruct H as [H|H].
  - destruct (lt_dec id (List.length (nodes g))) as [Hid|Hid].
    + exists (keep_of g id).
      pose proof (remove_node_restricts g g' id _ R Hid (NL id) H) as (I1 & _ & I3 & _).
      split; [exact I1|]. split; [exact I3|]. eapply remove_node_report; eauto.
    + rewrite remove_node_missing in H by lia. inversion H; subst. auto.
  - destruct (nth_error (edges g) id) as [e|] eqn:Ee.
    + eapply remove_edge_report; eauto.
    + apply nth_error_None in Ee. rewrite remove_edge_missing in H by exact Ee.
      inversion H; subst. auto.
Qed.
Print Assumptions C19_removal_reports_partial.

Example C19_example :
  snd (got (graph_new, ([], [])) (remove_node (build cross) 1)) = ([1; 2; 3; 4], [2; 3]) /\
  shape (fst (got (graph_new, ([], [])) (remove_node (build cross) 1)))
    = [(0, 3, 10); (1, 3, 20); (2, 3, 20)].
Proof. vm_compute. easy. Qed.

(** ** C84: without requests for self-loops there are no lone self-loops *)
Theorem C84_removal_reports_without_loops :
  forall lm (T U : Type) (dT : T) os (g g' : PlanarGraph (FO lm) T U) id cn ce,
  no_loop_requests os -> run dT graph_new os = Ok g ->
  (remove_node g id = Ok (g', (cn, ce)) \/ remove_edge g id = Ok (g', (cn, ce))) ->
  exists keep, increasing keep /\
    Forall2 (fun n' i => get_vertex g i = Some n') (nodes g') keep /\
    unreported_same keep g g' cn ce.
Proof.
  intros lm T U dT os g g' id cn ce NL H HR.
  apply (C19_removal_reports_partial _ _ _ dT g g' id cn ce).
  - exists os. exact H.
  - intros i. apply no_loops_not_lonely. exact (run_no_loops (FO_laws lm) dT os g NL H).
  - exact HR.
Qed.
Print Assumptions C84_removal_reports_without_loops.

Example C84_example : no_loop_requests cross /\ run 0 graph_new cross = Ok (build cross) /\
  is_ok (remove_node (build cross) 1) = true.
Proof. split; [apply C17_example|]. split; [apply C17_example|]. vm_compute. reflexivity. Qed.

(** ** C56, C57: exactly when the removals panic *)
Theorem C56_remove_node_panics_iff :
  forall (O : Ops) (T U : Type) (dT : T) (g : PlanarGraph O T U) id, reachable dT g ->
  (remove_node g id = Panic <->
   id < node_count g /\
   (degree g id = 0 \/ (lonely_loop g id /\ id = 0 /\ 2 <= node_count g))).
Proof. intros O T U dT g id R. exact (remove_node_panics g id (reachable_valid dT g R)). Qed.
Print Assumptions C56_remove_node_panics_iff.

Example C56_example : reachable 0 (build (cross ++ [N 9 9])) /\
  degree (build (cross ++ [N 9 9])) 5 = 0 /\ 5 < node_count (build (cross ++ [N 9 9])).
Proof.
  split; [apply build_reachable; vm_compute; reflexivity|]. split; [vm_compute; reflexivity|vm_compute; lia].
Qed.

Theorem C57_remove_edge_panics_iff :
  forall (O : Ops) (T U : Type) (dT : T) (g : PlanarGraph O T U) id, reachable dT g ->
  (remove_edge g id = Panic <->
   exists e, get_edge g id = Some e /\
     ((2 <= degree g (src e) /\ 2 <= degree g (dst e) /\ S id = edge_count g) \/
      (src e = 0 /\ dst e = 0 /\ degree g 0 = 1 /\ 2 <= node_count g))).
Proof. intros O T U dT g id R. exact (remove_edge_panics g id (reachable_valid dT g R)). Qed.
Print Assumptions C57_remove_edge_panics_iff.

Example C57_example : reachable 0 (build triangle) /\ edge_count (build triangle) = 3 /\
  degree (build triangle) 2 = 2 /\ degree (build triangle) 0 = 2.
Proof. split; [apply build_reachable, triangle_ok|vm_compute; easy]. Qed.
