(** * Properties: removals from drawings in which edges run through nodes (C148).

    [drops_node g ps id]: remove_node(id) deletes no node that two of the edges that do
    not end at id run through.  [drops_edge g ps id]: remove_edge(id) deletes no end that
    two edges run through. *)
From Coq Require Import List Arith Bool Lia Reals Lra ZArith.
From Flocq Require Import Core.Core IEEE754.BinarySingleNaN.
From Verif Require Import Scalar Utils Polygon Graph GraphSpec PlaneSpec PlanarSpec GridSpec F32 Laws UtilsReal UtilsF32
  PolyF32 PolyNewF32 GraphAdd GraphRemove GraphDemo GraphHistory GraphPlanar GraphSim GridUtils GridSeg GridPrim GridOn GridGraph GridInst GridCheck
  ThroughSpec Through GridThrough GridThroughCheck
  Properties_Utils Properties_Polygon Properties_Grid Properties_GridGraph LooseSpec Loose GridLooseSpec GridLoose GridLooseCheck
  LooseRemoveSpec LooseRemove GridLooseRemove Properties_Loose.
Import ListNotations.
Local Open Scope R_scope.

(** ** Exact arithmetic *)
Theorem C148_remove_node :
  forall (T U : Type) (g g' : PlanarGraph XO T U) ps id r,
  drawn g ps -> loosely_drawn ps (edges g) -> (id < length ps)%nat -> remove_node g id = Ok (g', r) ->
  exists ps', drawn g' ps' /\
    (* the nodes that stay, and the picture: the edges that do not end at id *)
    (forall x, In x ps' <-> exists k, (k < length ps)%nat /\ ~ to_delete g id k /\ x = pt ps k) /\
    (forall x, covers ps' (edges g') x <-> exists e, In e (edges g) /\ ~ touches id e /\ edge_on ps e x) /\
    (* edges run through the same nodes as before, as far as both stay *)
    (forall x, (exists a, crossed ps' (edges g') a /\ x = pt ps' a) <->
       exists k e, (k < length ps)%nat /\ ~ to_delete g id k /\ In e (edges g) /\ ~ touches id e /\ crosses_node ps k e /\ x = pt ps k) /\
    (* two edges cross outside the nodes exactly if a deleted node was their crossing *)
    (loosely_drawn ps' (edges g') <-> drops_node g ps id).
Proof. intros T U. exact remove_node_loose. Qed.
Print Assumptions C148_remove_node.

Theorem C148_remove_edge :
  forall (T U : Type) (g g' : PlanarGraph XO T U) ps id e r,
  drawn g ps -> loosely_drawn ps (edges g) -> nth_error (edges g) id = Some e -> remove_edge g id = Ok (g', r) ->
  exists ps', drawn g' ps' /\
    (forall x, In x ps' <-> exists k, (k < length ps)%nat /\ ~ (touches k e /\ degree g k = 1%nat) /\ x = pt ps k) /\
    (forall x, covers ps' (edges g') x <-> exists i f, i <> id /\ nth_error (edges g) i = Some f /\ edge_on ps f x) /\
    (forall x, (exists a, crossed ps' (edges g') a /\ x = pt ps' a) <->
       exists k i f, (k < length ps)%nat /\ ~ (touches k e /\ degree g k = 1%nat) /\ i <> id /\ nth_error (edges g) i = Some f /\
         crosses_node ps k f /\ x = pt ps k) /\
    (loosely_drawn ps' (edges g') <-> drops_edge g ps id).
Proof. intros T U. exact remove_edge_loose. Qed.
Print Assumptions C148_remove_edge.

(** Histories of additions as in C146 and removals that delete no crossing of two edges. *)
Theorem C148_history :
  forall (T U : Type) (dT : T) os (g : PlanarGraph XO T U),
  slack dT graph_new os -> run dT graph_new os = Ok g -> exists ps, drawn g ps /\ loosely_drawn ps (edges g).
Proof.
  intros T U dT os g L H. destruct (@empty_drawn T U) as [D W]. apply well_loose in W.
  exact (slack_history dT os _ _ _ D (proj1 W) L H).
Qed.
Print Assumptions C148_history.

(** ** f32 on the grids of C90 *)
Theorem C148_grid_history :
  forall lm e S (T U : Type) (dT : T) os (g : PlanarGraph (FO lm) T U), drawable e S ->
  draws dT (grid_le 6 e) S graph_new os -> slacks dT graph_new os -> run dT graph_new os = Ok g ->
  loosely_drawn (places g) (edges g) /\ (planar_f32 g <-> forall k, ~ crossed (places g) (edges g) k).
Proof.
  intros lm e S T U dT os g HS D C R. destruct (drawable_ok e S HS) as (He & H1 & H2 & H3).
  destruct (fam_slacks lm e He dT S (H1 lm) H2 H3 os graph_new g (new_inside _ _) (new_lays T U) D C R) as (I & W).
  split; [exact W|]. split.
  - intros [Pl _] k (Lk & f & Hf & Nt & O). rewrite places_length in Lk. apply (Pl k f Lk Hf Nt). rewrite !fam_pos. exact O.
  - intros N. assert (Q : well_drawn (places g) (edges g)) by (apply well_loose; auto). exact (proj1 (fam_planar_f32 lm e S g I Q)).
Qed.
Print Assumptions C148_grid_history.

Theorem C148_grid_remove_node :
  forall lm e S (T U : Type) (dT : T) os (g g' : PlanarGraph (FO lm) T U) id r, drawable e S ->
  draws dT (grid_le 6 e) S graph_new os -> slacks dT graph_new os -> run dT graph_new os = Ok g ->
  (id < node_count g)%nat -> remove_node g id = Ok (g', r) ->
  let P := places g in let P' := places g' in
  (forall x, In x P' <-> exists k, (k < length P)%nat /\ ~ to_delete g id k /\ x = pt P k) /\
  (forall x, covers P' (edges g') x <-> exists f, In f (edges g) /\ ~ touches id f /\ edge_on P f x) /\
  (forall x, (exists a, crossed P' (edges g') a /\ x = pt P' a) <->
     exists k f, (k < length P)%nat /\ ~ to_delete g id k /\ In f (edges g) /\ ~ touches id f /\ crosses_node P k f /\ x = pt P k) /\
  (loosely_drawn P' (edges g') <-> drops_node g P id).
Proof.
  intros lm e S T U dT os g g' id r HS D C R Hi H. destruct (C148_grid_history lm e S T U dT os g HS D C R) as [W _].
  exact (fam_loose_remove_node lm g g' id r W Hi H).
Qed.
Print Assumptions C148_grid_remove_node.

Theorem C148_grid_remove_edge :
  forall lm e S (T U : Type) (dT : T) os (g g' : PlanarGraph (FO lm) T U) id f0 r, drawable e S ->
  draws dT (grid_le 6 e) S graph_new os -> slacks dT graph_new os -> run dT graph_new os = Ok g ->
  nth_error (edges g) id = Some f0 -> remove_edge g id = Ok (g', r) ->
  let P := places g in let P' := places g' in
  (forall x, In x P' <-> exists k, (k < length P)%nat /\ ~ (touches k f0 /\ degree g k = 1%nat) /\ x = pt P k) /\
  (forall x, covers P' (edges g') x <-> exists i f, i <> id /\ nth_error (edges g) i = Some f /\ edge_on P f x) /\
  (forall x, (exists a, crossed P' (edges g') a /\ x = pt P' a) <->
     exists k i f, (k < length P)%nat /\ ~ (touches k f0 /\ degree g k = 1%nat) /\ i <> id /\ nth_error (edges g) i = Some f /\
       crosses_node P k f /\ x = pt P k) /\
  (loosely_drawn P' (edges g') <-> drops_edge g P id).
Proof.
  intros lm e S T U dT os g g' id f0 r HS D C R Hf H. destruct (C148_grid_history lm e S T U dT os g HS D C R) as [W _].
  exact (fam_loose_remove_edge lm g g' id f0 r W Hf H).
Qed.
Print Assumptions C148_grid_remove_edge.

(** ** Examples *)
Lemma lays_slacks : forall (lm : Libm) (T U : Type) (dT : T) os os' (g : PlanarGraph (FO lm) T U), lays dT g os ->
  (forall g', run dT g os = Ok g' -> slacks dT g' os') -> slacks dT g (os ++ os').
Proof.
  intros lm T U dT os os'. induction os as [|o os IH]; intros g L H; [exact (H g eq_refl)|]. destruct L as [L1 L2]. cbn [app]. split.
  - destruct o; try contradiction; exact L1.
  - intros g1 H1. apply IH; [exact (L2 g1 H1)|]. intros g' R. apply H. cbn [run]. rewrite H1. exact R.
Qed.

(** Four edges end at node 0 and one runs through it; removing node 0 leaves that one. *)
Definition bars_drop : list (@op (FO lm0) nat nat) := bars ++ [ORemoveNode 0].
Example C148_example :
  draws 0%nat (grid_le 6 (-5)) (pleat (-5)) graph_new bars_drop /\ slacks 0%nat graph_new bars_drop /\
  look (run 0%nat graph_new bars_drop) = Some (Some [(-4, -4); (4, 4); (-4, 4); (4, -4)]%Z, [(0, 1)])%nat /\
  slack 0%nat graph_new (map exact_op bars_drop).
Proof.
  assert (E1 : look (run 0%nat graph_new bars) = Some (Some nine_at, [(1, 0); (3, 0); (2, 0); (4, 0); (5, 6)])%nat) by (vm_compute; reflexivity).
  destruct (look_ok _ _ _ E1) as (g & R & Pg & Eg).
  destruct (laid bars g ltac:(vm_compute; reflexivity) ltac:(vm_compute; reflexivity) R) as (_ & _ & _ & _ & _ & L).
  assert (D : draws 0%nat (grid_le 6 (-5)) (pleat (-5)) graph_new bars_drop)
    by (apply (drawsb_ok 0%nat (-5) ltac:(lia) (pleat (-5)) pleatb (pleatb_ok (-5))); vm_compute; reflexivity).
  assert (S : slacks 0%nat graph_new bars_drop).
  { apply lays_slacks; [exact L|]. intros g1 R1. assert (g1 = g) by (rewrite R in R1; congruence). subst g1. split; [|intros; exact Logic.I].
    intros _ k _ (i & j & e & f & N & Hi & Hj & Pe & Pf & _). generalize dependent (edges g). clear - N Pe Pf. intros es Eg Hi Hj.
    destruct es as [|e2 [|e4 [|e3 [|e5 [|e1 [|e6 l]]]]]]; try discriminate.
    injection Eg as S2 T2 S4 T4 S3 T3 S5 T5 S1 T1. unfold touches in *.
    assert (Q : forall i e, nth_error [e2; e4; e3; e5; e1] i = Some e -> ~ (src e = 0%nat \/ dst e = 0%nat) -> i = 4%nat).
    { intros [|[|[|[|[|[|i0]]]]]] e0 H0 N0; cbn in H0; try discriminate; try reflexivity; injection H0 as <-; exfalso; apply N0; auto. }
    rewrite (Q i e Hi Pe), (Q j f Hj Pf) in N. contradiction. }
  split; [exact D|]. split; [exact S|]. split; [vm_compute; reflexivity|].
  destruct (drawable_ok _ _ pleat5) as (He & H1 & H2 & H3).
  exact (fam_slack lm0 (-5) He 0%nat (pleat (-5)) (H1 lm0) H2 H3 bars_drop graph_new (new_inside _ _) (new_lays nat nat) D S).
Qed.

(** Deciding the conditions for removals in a given graph. *)
Lemma slots_filter : forall (A : Type) (q : A -> bool) l i j x y, i <> j -> nth_error l i = Some x -> nth_error l j = Some y ->
  q x = true -> q y = true -> (2 <= length (filter q l))%nat.
Proof.
  intros A q l. assert (One : forall l i x, nth_error l i = Some x -> q x = true -> (1 <= length (filter q l))%nat).
  { clear. induction l as [|a l IH]; intros [|i] x H Q; try discriminate; cbn [filter].
    - injection H as ->. rewrite Q. simpl. lia.
    - destruct (q a); simpl; [lia|]. exact (IH i x H Q). }
  induction l as [|a l IH]; intros [|i] [|j] x y N Hi Hj Qx Qy; try discriminate; [congruence| | |]; cbn [filter]; simpl in Hi, Hj.
  - injection Hi as ->. rewrite Qx. simpl. apply le_n_S. exact (One l j y Hj Qy).
  - injection Hj as ->. rewrite Qy. simpl. apply le_n_S. exact (One l i x Hi Qx).
  - destruct (q a); simpl; [apply le_S|]; (apply (IH i j x y); auto).
Qed.
Definition at_most_one {U} (ks : list (Z * Z)) (es : list (Edge U)) (k : nat) : bool :=
  (length (filter (fun e => negb (touchesb k e) && zon (kat ks (src e)) (kat ks (dst e)) (kat ks k)) es) <? 2)%nat.
Lemma at_most_one_ok : forall (g : PlanarGraph (FO lm0) nat nat) ks P k, places g = map (at_unit (-5)) ks -> at_most_one ks (edges g) k = true ->
  ~ through_two P (places g) (edges g) k.
Proof.
  intros g ks P k E B (i & j & e & f & N & Hi & Hj & _ & _ & [N1 O1] & [N2 O2]). unfold at_most_one in B. apply Nat.ltb_lt in B.
  assert (Z : forall e : Edge nat, ~ touches k e -> edge_on (places g) e (pt (places g) k) -> negb (touchesb k e) && zon (kat ks (src e)) (kat ks (dst e)) (kat ks k) = true).
  { intros e0 N0 O0. apply andb_true_iff. split; [rewrite negb_true_iff; now apply touchesb_false|].
    unfold edge_on in O0. rewrite !(place_kat (-5) g ks (eq_sym E)) in O0. exact (zon_ok (-5) _ _ _ O0). }
  pose proof (slots_filter _ (fun e => negb (touchesb k e) && zon (kat ks (src e)) (kat ks (dst e)) (kat ks k)) (edges g) i j e f N Hi Hj (Z e N1 O1) (Z f N2 O2)). lia.
Qed.

(** A bar through node 0, at which two edges end; these are removed, and node 0 with the
    second of them. *)
Definition stems : list (@op (FO lm0) nat nat) := nine ++ [OAddEdge 3 0 1%nat; OAddEdge 4 0 2%nat; OAddEdge 1 2 3%nat].
Definition stems_drop : list (@op (FO lm0) nat nat) := stems ++ [ORemoveEdge 1; ORemoveEdge 0].
Example C148_example_edges :
  draws 0%nat (grid_le 6 (-5)) (pleat (-5)) graph_new stems_drop /\ slacks 0%nat graph_new stems_drop /\
  look (run 0%nat graph_new stems) = Some (Some nine_at, [(3, 0); (4, 0); (1, 2)])%nat /\
  look (run 0%nat graph_new stems_drop) = Some (Some [(-4, 0); (4, 0); (-4, -4); (4, 4); (-4, 4); (4, -4)]%Z, [(0, 1)])%nat.
Proof.
  assert (E1 : look (run 0%nat graph_new stems) = Some (Some nine_at, [(3, 0); (4, 0); (1, 2)])%nat) by (vm_compute; reflexivity).
  assert (E2 : look (run 0%nat graph_new (stems ++ [ORemoveEdge 1])) = Some (Some [(0, 0); (-4, 0); (4, 0); (0, -4); (-4, -4); (4, 4); (-4, 4); (4, -4)]%Z, [(3, 0); (1, 2)])%nat) by (vm_compute; reflexivity).
  destruct (look_ok _ _ _ E1) as (g & R & Pg & Eg). destruct (look_ok _ _ _ E2) as (g2 & R2 & Pg2 & Eg2).
  destruct (laid stems g ltac:(vm_compute; reflexivity) ltac:(vm_compute; reflexivity) R) as (_ & _ & _ & _ & _ & L).
  assert (Ends : forall (h : PlanarGraph (FO lm0) nat nat) ks es k, places h = map (at_unit (-5)) ks -> map (fun e => (src e, dst e)) (edges h) = es ->
    at_most_one ks (map (fun p => MkEdge (fst p) (snd p) 0%nat DEFAULT_LABEL) es) k = true -> ~ through_two (fun _ => True) (places h) (edges h) k).
  { intros h ks es k P E B. apply (at_most_one_ok h ks _ k P). unfold at_most_one in *. rewrite <- E in B. rewrite <- B. f_equal. clear.
    induction (edges h) as [|a l IH]; [reflexivity|]. cbn [map filter fst snd src dst].
    change (touchesb k (MkEdge (src a) (dst a) 0%nat DEFAULT_LABEL)) with (touchesb k a).
    destruct (negb (touchesb k a) && zon (kat ks (src a)) (kat ks (dst a)) (kat ks k)); cbn [length]; [f_equal|]; exact IH. }
  split; [apply (drawsb_ok 0%nat (-5) ltac:(lia) (pleat (-5)) pleatb (pleatb_ok (-5))); vm_compute; reflexivity|].
  split; [|split; [exact E1|vm_compute; reflexivity]].
  apply lays_slacks; [exact L|]. intros g1 R1. assert (g1 = g) by (rewrite R in R1; congruence). subst g1. split.
  - intros e k He Tk _. apply (Ends g nine_at _ k Pg Eg).
    assert (Q : k = 4%nat \/ k = 0%nat).
    { clear - Eg He Tk. generalize dependent (edges g). intros es Eg He. destruct es as [|a [|b l]]; try discriminate. injection Eg as _ _ S1 T1. injection He as <-. unfold touches in Tk. rewrite S1, T1 in Tk. intuition. }
    destruct Q as [-> | ->]; vm_compute; reflexivity.
  - intros g3 H3. split; [|intros; exact Logic.I]. assert (g3 = g2).
    { destruct (run_app 0%nat stems [ORemoveEdge 1] _ _ R2) as (g4 & Q1 & Q2). assert (g4 = g) by (rewrite R in Q1; congruence). subst g4.
      cbn [run] in Q2. rewrite H3 in Q2. cbn [bind] in Q2. congruence. }
    subst g3. intros e k He Tk _. apply (Ends g2 _ _ k Pg2 Eg2).
    assert (Q : k = 3%nat \/ k = 0%nat).
    { clear - Eg2 He Tk. generalize dependent (edges g2). intros es Eg2 He. destruct es as [|a l]; try discriminate. injection Eg2 as S1 T1 _. injection He as <-. unfold touches in Tk. rewrite S1, T1 in Tk. intuition. }
    destruct Q as [-> | ->]; vm_compute; reflexivity.
Qed.

(** With two edges running through node 0, removing it leaves them crossing at no node. *)
Definition two_bars : list (@op (FO lm0) nat nat) := bars ++ [OAddEdge 7 8 4%nat].
Theorem C148_fails_at_two_edges :
  exists g g' r, draws 0%nat (grid_le 6 (-5)) (pleat (-5)) graph_new two_bars /\ slacks 0%nat graph_new two_bars /\
    run 0%nat graph_new two_bars = Ok g /\ loosely_drawn (places g) (edges g) /\ remove_node g 0 = Ok (g', r) /\
    ~ loosely_drawn (places g') (edges g') /\
    map (fun e => (src e, dst e)) (edges g') = [(0, 1); (2, 3)]%nat.
Proof.
  assert (E1 : look (run 0%nat graph_new two_bars) = Some (Some nine_at, [(1, 0); (3, 0); (2, 0); (4, 0); (5, 6); (7, 8)])%nat) by (vm_compute; reflexivity).
  destruct (look_ok _ _ _ E1) as (g & R & Pg & Eg).
  destruct (laid two_bars g ltac:(vm_compute; reflexivity) ltac:(vm_compute; reflexivity) R) as (_ & _ & _ & W & D & L).
  assert (S : slacks 0%nat graph_new two_bars).
  { rewrite <- (app_nil_r two_bars). apply lays_slacks; [exact L|]. intros; exact Logic.I. }
  assert (E2 : look (run 0%nat graph_new (two_bars ++ [ORemoveNode 0])) = Some (Some [(-4, -4); (4, 4); (-4, 4); (4, -4)]%Z, [(0, 1); (2, 3)])%nat) by (vm_compute; reflexivity).
  destruct (look_ok _ _ _ E2) as (g2 & R2 & _ & Eg2).
  assert (R3 : step 0%nat g (ORemoveNode 0) = Ok g2).
  { destruct (run_app 0%nat two_bars [ORemoveNode 0] _ _ R2) as (g1 & Q1 & Q2). assert (g1 = g) by (rewrite R in Q1; congruence). subst g1.
    cbn [run] in Q2. apply bind_ok in Q2. destruct Q2 as (g1 & Q2 & Q3). inversion Q3; subst g1. exact Q2. }
  cbn [step] in R3. apply bind_ok in R3. destruct R3 as ([g' r] & R3 & Q). inversion Q; subst g2. exists g, g', r.
  split; [exact D|]. split; [exact S|]. split; [exact R|]. split; [exact W|]. split; [exact R3|]. split; [|exact Eg2].
  assert (Hc : (0 < node_count g)%nat) by (unfold node_count; rewrite <- (places_length lm0 g), Pg; simpl; lia).
  destruct (C148_grid_remove_node lm0 (-5) (pleat (-5)) nat nat 0%nat two_bars g g' 0 r pleat5 D S R Hc R3) as (_ & _ & _ & Iff).
  rewrite Iff. intros Dn. apply (Dn 0%nat (or_introl eq_refl)). rewrite Pg. generalize dependent (edges g). clear. intros es Eg. intros.
  destruct es as [|e2 [|e4 [|e3 [|e5 [|e1 [|e6 [|e7 l]]]]]]]; try discriminate.
  injection Eg as S2 T2 S4 T4 S3 T3 S5 T5 S1 T1 S6 T6. pose proof (bpow_gt_0 radix2 (-5)) as UP.
  exists 4%nat, 5%nat, e1, e6. split; [lia|]. split; [reflexivity|]. split; [reflexivity|]. unfold crosses_node, touches, edge_on. rewrite S1, T1, S6, T6.
  assert (O : forall a b, (a = 5 /\ b = 6 \/ a = 7 /\ b = 8)%nat -> on_segment (pt (map (at_unit (-5)) nine_at) a) (pt (map (at_unit (-5)) nine_at) b) (pt (map (at_unit (-5)) nine_at) 0)).
  { intros a b H. exists (/ 2). split; [lra|]. destruct H as [[-> ->]|[-> ->]]; unfold along, pt, at_unit, nine_at; cbn [map nth fst snd vx vy]; f_equal; lra. }
  repeat split; try (apply O; lia); lia.
Qed.
Print Assumptions C148_fails_at_two_edges.
