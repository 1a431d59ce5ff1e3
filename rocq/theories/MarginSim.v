(** * f32 and exact arithmetic draw the same graph when there is room to spare. *)
From Coq Require Import ZArith Reals Lia Lra List Bool Arith.
From Flocq Require Import Core.Core IEEE754.BinarySingleNaN.
From Verif Require Import Scalar Utils F32 Laws Graph ListSpec GraphSpec PlaneSpec PlanarSpec GridSpec Format RoundSpec GeoSpec GeoRound SimSpec Closest
  GraphAdd GraphAddProps GeoOn UtilsReal GeoSeg GeoGraph GraphPlanar GridGraph MarginSpec MarginReal MarginSeg MarginGraph MarginAdd Follow.
Import ListNotations.
Local Open Scope R_scope.

Section Instances.
Context (lm : Libm) {T U : Type} (dT : T).
Local Notation F := (FO lm).
Local Notation graph := (PlanarGraph F T U).
Local Notation xgraph := (PlanarGraph XO T U).
Local Notation edge := (Edge U).
Local Notation rp := real_point.
Variables (M K dl : R).
Hypothesis Fn : fine M K dl.
Local Notation h := (slip M K).

(** ** f32 *)
Definition forF (q : Vec2 F) (x : point) : Prop := pfin q /\ dist (rp q) x <= h /\ Rabs (vx x) <= M /\ Rabs (vy x) <= M.
Local Notation relF := (rel lm M K).

Lemma F_new : forall (g g' : graph) X (n : Node F T) x, relF g X -> nodes g' = nodes g ++ [n] -> forF (position n) x -> relF g' (X ++ [x]).
Proof. intros g g' X n x R Hn (Fq & D & B1 & B2). exact (rel_app lm M K g g' X (position n) x n R Hn eq_refl Fq D B1 B2). Qed.
Lemma F_near : forall (g : graph) X q k, relF g X -> (k < length X)%nat -> forF q (pt X k) -> near_node g q.
Proof. intros g X q k R Hk (Fq & D & _). exact (MarginGraph.near_old lm M K dl Fn g X q k R Fq Hk D). Qed.
Lemma F_far : forall (g : graph) X q x, relF g X -> forF q x -> (forall k, (k < length X)%nat -> dl <= dist x (pt X k)) -> ~ near_node g q.
Proof. intros g X q x R (Fq & D & _). exact (MarginGraph.far_old lm M K dl Fn g X q x R Fq D). Qed.
Lemma F_off : forall (g : graph) X j e, relF g X -> spaced dl X (edges g) -> (j < length X)%nat -> In e (edges g) -> on_edge (nodes g) j e = false.
Proof.
  intros g X j e R S Hj He. pose proof S as (V & A & C). destruct (V e He) as (Ne & L1 & L2). pose proof R as (RL & RB & RC).
  destruct (rel_pos lm M K dl Fn g X _ R L1) as [I1 D1]. destruct (rel_pos lm M K dl Fn g X _ R L2) as [I2 D2]. destruct (rel_pos lm M K dl Fn g X _ R Hj) as [Ij Dj].
  unfold on_edge. destruct (Nat.eq_dec (src e) j) as [<-|N1]; [apply on_end; auto|]. destruct (Nat.eq_dec (dst e) j) as [<-|N2]; [apply on_end; auto|].
  eapply (on_reject lm M K dl Fn); try eassumption.
  - eapply edge_len; eassumption.
  - apply (C j e Hj He). intros [Q|Q]; congruence.
Qed.
Lemma F_on : forall (g : graph) X (n : Node F T) x e, relF g X -> spaced dl X (edges g) -> lone dl X (edges g) x -> forF (position n) x ->
  In e (edges g) -> (on_edge (nodes g ++ [n]) (length (nodes g)) e = true <-> edge_on X e x).
Proof.
  intros g X n x e R S Lx (Fq & D & B1 & B2) He. eapply (fresh_on lm M K dl Fn); try eassumption; [reflexivity|]. eapply close_inbox; eassumption.
Qed.
Lemma F_close : forall q q' x x', forF q x -> forF q' x' -> dl <= dist x x' -> close_to (O := F) q q' = false.
Proof.
  intros q q' x x' (Fq & D & _) (Fq' & D' & _) Hd. destruct (margins M K dl Fn) as (_ & _ & Far & _).
  apply close_real; [exact Fq|exact Fq'|]. pose proof (triangle x (rp q) x') as T1. pose proof (triangle (rp q) (rp q') x') as T2. rewrite (dist_sym x (rp q)) in T1. lra.
Qed.

(** ** Exact arithmetic *)
Definition forX (q : Vec2 XO) (x : point) : Prop := q = xp x /\ Rabs (vx x) <= M /\ Rabs (vy x) <= M.
Definition relX (g : xgraph) (X : list point) : Prop := drawn g X /\ boxed M X.

Lemma X_len : forall g X, relX g X -> length X = length (nodes g).
Proof. intros g X [D _]. symmetry. now apply drawn_length. Qed.
Lemma X_box : forall g X, relX g X -> boxed M X. Proof. now intros g X []. Qed.
Lemma X_nodes : forall g g' X, relX g X -> nodes g' = nodes g -> relX g' X.
Proof. intros g g' X [D B] E. split; [unfold drawn; now rewrite E|exact B]. Qed.
Lemma X_new : forall (g g' : xgraph) X (n : Node XO T) x, relX g X -> nodes g' = nodes g ++ [n] -> forX (position n) x -> relX g' (X ++ [x]).
Proof.
  intros g g' X n x [D B] E (P & B1 & B2). split.
  - unfold drawn. rewrite E, !map_app. unfold drawn in D. cbn [map]. now rewrite D, P.
  - intros p Hp. apply in_app_or in Hp. destruct Hp as [Hp|[<-|[]]]; auto.
Qed.
Lemma X_at : forall (g : xgraph) X k n, relX g X -> nth_error (nodes g) k = Some n -> (k < length X)%nat /\ position n = xp (pt X k).
Proof.
  intros g X k n R Hn. assert (Hk : (k < length X)%nat) by (rewrite (X_len g X R); apply nth_error_Some; congruence). split; [exact Hk|].
  rewrite <- (drawn_pos (nodes g) X k (proj1 R) Hk). unfold pos_at. now rewrite Hn.
Qed.
Lemma X_near : forall (g : xgraph) X q k, relX g X -> (k < length X)%nat -> forX q (pt X k) -> near_node g q.
Proof.
  intros g X q k R Hk (-> & _). destruct (nth_error (nodes g) k) as [n|] eqn:E; [|apply nth_error_None in E; rewrite (X_len g X R) in Hk; lia].
  destruct (X_at g X k n R E) as [_ P]. exists k, n. split; [exact E|]. rewrite P, distance_xp. apply olt_eps. rewrite dist_self0. apply eps32_pos.
Qed.
Lemma X_far : forall (g : xgraph) X q x, relX g X -> forX q x -> (forall k, (k < length X)%nat -> dl <= dist x (pt X k)) -> ~ near_node g q.
Proof.
  intros g X q x R (-> & _) Far (k & n & Hn & Q). destruct (X_at g X k n R Hn) as [Hk P]. rewrite P, distance_xp in Q. apply olt_eps in Q.
  specialize (Far k Hk). pose proof (fine_eps M K dl Fn). lra.
Qed.
Lemma X_off : forall (g : xgraph) X j e, relX g X -> spaced dl X (edges g) -> (j < length X)%nat -> In e (edges g) -> on_edge (nodes g) j e = false.
Proof.
  intros g X j e R S Hj He. destruct (proj1 S e He) as (_ & L1 & L2). destruct (on_edge (nodes g) j e) eqn:E; [|reflexivity]. exfalso.
  apply (drawn_on (nodes g) X j e (proj1 R) Hj L1 L2) in E. exact (spaced_clear M K dl Fn X (edges g) (proj2 R) S j e Hj He E).
Qed.
Lemma X_on : forall (g : xgraph) X (n : Node XO T) x e, relX g X -> spaced dl X (edges g) -> lone dl X (edges g) x -> forX (position n) x ->
  In e (edges g) -> (on_edge (nodes g ++ [n]) (length (nodes g)) e = true <-> edge_on X e x).
Proof.
  intros g X n x e R S Lx Fx He. destruct (proj1 S e He) as (_ & L1 & L2).
  pose proof (X_new g (MkGraph (nodes g ++ [n]) (edges g)) X n x R eq_refl Fx) as R'.
  rewrite <- (X_len g X R). rewrite (drawn_on (nodes g ++ [n]) (X ++ [x]) (length X) e (proj1 R')); try (rewrite app_length; cbn [length]; lia).
  rewrite pt_new. rewrite (edge_near_app X [x] (edges g) e x (proj1 S) He). exact (lone_near M K dl Fn X (edges g) x e (proj2 R) S Lx He).
Qed.
Lemma X_close : forall q q' x x', forX q x -> forX q' x' -> dl <= dist x x' -> close_to (O := XO) q q' = false.
Proof. intros q q' x x' (-> & _) (-> & _) Hd. apply xclose. pose proof (fine_eps M K dl Fn). lra. Qed.

(** The exact answers follow from the shape. *)
Lemma X_answers : forall (g : xgraph) X s d i e o, relX g X -> spaced dl X (edges g) -> s <> d -> (s < length X)%nat -> (d < length X)%nat ->
  nth_error (edges g) i = Some e -> shape dl X (edges g) s d i e o -> answers forX g X s d e o.
Proof.
  intros g X s d i e o R S N Ls Ld Hi Sh. pose proof S as (V & A & _). destruct (V e (nth_error_In _ _ Hi)) as (Ne & L1 & L2).
  pose proof (fine_eps M K dl Fn) as E0. pose proof eps32_pos as E1. pose proof (A s d Ls Ld N) as Dsd.
  pose proof (boxed_pt M X s (proj2 R) Ls) as Bs. pose proof (boxed_pt M X d (proj2 R) Ld) as Bd.
  unfold answers. rewrite !(drawn_pos (nodes g) X _ (proj1 R)) by assumption. destruct o as [x|].
  - destruct Sh as (O1 & O2 & Far & _ & Un). exists (xp x). split; [|split; [reflexivity|exact (box_along M _ _ x Bs Bd O2)]].
    apply segment_intersection_spec. exists x. split; [reflexivity|]. split; [|split; [exact O1|exact O2]]. intros Z.
    assert (Nx : forall k, (k < length X)%nat -> x <> pt X k) by (intros k Hk ->; specialize (Far k Hk); rewrite dist_self0 in Far; lra).
    assert (Nsd : pt X s <> pt X d) by (intros Q; rewrite Q, dist_self0 in Dsd; lra).
    destruct (parallel_overlap _ _ _ _ x Z Nsd O1 O2 (Nx s Ls) (Nx d Ld)) as [(Q & _)|[(Q & _)|(Q & _)]].
    + apply (Nx _ L1). symmetry. apply (Un (pt X (src e))); [apply on_left|exact Q].
    + apply (Nx _ L2). symmetry. apply (Un (pt X (dst e))); [apply on_right|exact Q].
    + apply (Nx s Ls). symmetry. apply (Un (pt X s)); [exact Q|apply on_left].
  - intros q Hq. apply segment_intersection_spec in Hq. destruct Hq as (p & -> & _ & O1 & O2). destruct (Sh p O1 O2) as (k & _ & Hk & ->).
    exists k. split; [destruct Hk as [-> | ->]; assumption|]. split; [reflexivity|]. destruct Hk as [-> | ->]; assumption.
Qed.

(** ** Two runs of add_edge along the same exact drawing *)
Theorem both_add_edge : forall (g : graph) (gx : xgraph) X s d os u g' r gx' rx,
  relF g X -> relX gx X -> edges gx = edges g -> spaced dl X (edges g) -> ForallOrdPairs (meet X []) (edges g) ->
  s <> d -> ~ adjacent g s d -> (s < length X)%nat -> (d < length X)%nat ->
  (forall k, (k < length X)%nat -> k <> s -> k <> d -> off dl (pt X s) (pt X d) (pt X k)) ->
  length os = length (edges g) ->
  (forall i e o, nth_error (edges g) i = Some e -> nth_error os i = Some o -> shape dl X (edges g) s d i e o) ->
  (forall i e o, nth_error (edges g) i = Some e -> nth_error os i = Some o -> answers forF g X s d e o) ->
  add_edge dT g s d u = Ok (g', r) -> add_edge dT gx s d u = Ok (gx', rx) ->
  edges g' = edges gx' /\ r = rx /\ (exists qs, nodes g' = nodes g ++ map (fresh_node dT) qs /\ Forall2 (made forF g s d os) qs (somes os)) /\
  nodes gx' = nodes gx ++ map (fun x => MkNode (xp x) dT DEFAULT_LABEL) (somes os) /\
  relF g' (X ++ somes os) /\ relX gx' (X ++ somes os) /\ minv dl (X ++ somes os) (edges g') [].
Proof.
  intros g gx X s d os u g' r gx' rx RF RX Ee Sp Pl N NA Ls Ld Way Lo Sh An H Hx.
  assert (RFl : forall (g : graph) X, relF g X -> length X = length (nodes g)) by (intros ? ? Q; apply Q).
  assert (RFb : forall (g : graph) X, relF g X -> boxed M X) by (intros ? ? Q; apply Q).
  assert (RFn : forall (g g' : graph) X, relF g X -> nodes g' = nodes g -> relF g' X) by (intros ? ? ? Q E; unfold rel; rewrite E; exact Q).
  destruct (follow_add_edge (FO_laws lm) dT M K dl Fn relF forF RFl RFb RFn F_new F_near F_far F_off F_on F_close
    g X s d RF Sp Pl N NA Ls Ld Way os Lo Sh An u g' r H) as (rep & qs & S1 & -> & N1 & Q1 & R1 & I1 & _).
  rewrite <- Ee in Sp, Pl, Lo, Sh.
  assert (NAx : ~ adjacent gx s d) by (unfold adjacent in *; now rewrite Ee).
  assert (AnX : forall i e o, nth_error (edges gx) i = Some e -> nth_error os i = Some o -> answers forX gx X s d e o).
  { intros i e o Hi Ho. exact (X_answers gx X s d i e o RX Sp N Ls Ld Hi (Sh i e o Hi Ho)). }
  destruct (follow_add_edge XO_laws dT M K dl Fn relX forX X_len X_box X_nodes X_new X_near X_far X_off X_on X_close
    gx X s d RX Sp Pl N NAx Ls Ld Way os Lo Sh AnX u gx' rx Hx) as (repx & qx & S2 & -> & N2 & Q2 & R2 & I2 & _).
  rewrite Ee in S2. destruct (splits_fun _ _ _ _ _ S1 _ _ S2) as [E1 E2].
  split; [exact E1|]. split; [now rewrite E1, E2|]. split; [now exists qs|]. split; [|split; [exact R1|split; [exact R2|exact I1]]].
  rewrite N2. f_equal. clear - Q2. induction Q2 as [|q x ql xl ((-> & _) & _) _ IH]; [reflexivity|]. cbn [map]. now rewrite IH.
Qed.
End Instances.

Section Single.
Context (lm : Libm) {T U : Type} (dT : T).
Local Notation F := (FO lm).
Local Notation graph := (PlanarGraph F T U).
Local Notation rp := real_point.
Variables (M K dl : R).
Hypothesis Fn : fine M K dl.
Local Notation h := (slip M K).

Lemma exact_relX : forall g : graph, (forall n, In n (nodes g) -> pbound M (position n)) -> relX M (exact_graph g) (places g).
Proof. intros g PB. split; [apply exact_drawn|]. apply (at_rel lm M K dl Fn g PB). Qed.

Lemma shape_of : forall (g : graph) s d i e o, contributes lm M K dl g s d i e o -> shape dl (places g) (edges g) s d i e o.
Proof. intros g s d i e [x|]; cbn [contributes shape]; [intros (_ & C)|intros (_ & C)]; exact C. Qed.
Lemma answers_of : forall (g : graph) s d i e o, (forall n, In n (nodes g) -> pbound M (position n)) -> (s < length (places g))%nat -> (d < length (places g))%nat ->
  contributes lm M K dl g s d i e o -> answers (forF lm M K) g (places g) s d e o.
Proof.
  intros g s d i e o PB Ls Ld C. pose proof (at_rel lm M K dl Fn g PB) as (_ & B & _). destruct o as [x|]; cbn [contributes] in C; unfold answers.
  - destruct C as ((q & E & Fq & D) & O1 & O2 & _). exists q. split; [exact E|]. split; [exact Fq|]. split; [exact D|].
    exact (box_along M _ _ x (boxed_pt M _ s B Ls) (boxed_pt M _ d B Ld) O2).
  - intros q Hq. destruct C as [C _]. destruct (C q Hq) as (Fq & k & Hk & D). exists k. split; [exact Hk|]. split; [exact Fq|]. split; [exact D|]. exact (boxed_pt M _ k B Hk).
Qed.

Lemma near_self : forall n : Node F T, pfin (position n) -> forall t, 0 <= t -> node_near t n (exact_node n).
Proof. intros n Fp t Ht. exists (rp (position n)). split; [reflexivity|]. split; [exact Fp|]. rewrite dist_self0. auto. Qed.

Theorem single_add_edge : forall (g : graph) s d u,
  (forall n, In n (nodes g) -> pbound M (position n)) -> spaced dl (places g) (edges g) -> planar_f32 g -> s <> d -> ~ adjacent g s d ->
  (s < length (nodes g))%nat -> (d < length (nodes g))%nat -> clear_way dl K (places g) (edges g) s d ->
  exists g' gx r, add_edge dT g s d u = Ok (g', r) /\ add_edge dT (exact_graph g) s d u = Ok (gx, r) /\ edges g' = edges gx /\
    Forall2 (node_near h) (nodes g') (nodes gx).
Proof.
  intros g s d u PB Sp P N NA Ls Ld CW. rewrite <- place_len in Ls, Ld. pose proof Sp as (V & _).
  assert (Vg : valid g) by (intros e He; destruct (V e He) as (_ & L1 & L2); rewrite place_len in L1, L2; auto).
  assert (Vx : valid (exact_graph g)) by (intros e He; unfold exact_graph; cbn [nodes]; rewrite map_length; now apply Vg).
  destruct (add_edge_total dT g s d u Vg) as [[g' r] H]. destruct (add_edge_total dT (exact_graph g) s d u Vx) as [[gx rx] Hx].
  destruct (choose_list _ _ (contributes lm M K dl g s d) (edges g) (classify lm M K dl Fn g s d PB Sp N NA Ls Ld CW)) as (os & Lo & Q).
  assert (Pl : ForallOrdPairs (meet (places g) []) (edges g)) by now apply planar_pairs.
  destruct (both_add_edge lm dT M K dl Fn g (exact_graph g) (places g) s d os u g' r gx rx (at_rel lm M K dl Fn g PB) (exact_relX g PB) eq_refl Sp Pl N NA Ls Ld (proj1 CW) Lo)
    as (E1 & <- & (qs & N1 & Q1) & N2 & _); [| |exact H|exact Hx|].
  - intros i e o Hi Ho. exact (shape_of g s d i e o (Q i e o Hi Ho)).
  - intros i e o Hi Ho. exact (answers_of g s d i e o PB Ls Ld (Q i e o Hi Ho)).
  - exists g', gx, r. split; [exact H|]. split; [exact Hx|]. split; [exact E1|]. rewrite N1, N2. destruct (margins M K dl Fn) as (H0 & _).
    apply Forall2_app.
    + unfold exact_graph. cbn [nodes]. assert (G : forall l : list (Node F T), (forall n, In n l -> pbound M (position n)) -> Forall2 (node_near h) l (map exact_node l)).
      { induction l as [|n l IH]; intros B; [constructor|]. cbn [map]. constructor; [|apply IH; intros; apply B; now right]. apply near_self; [|exact H0]. apply B. now left. }
      now apply G.
    + clear - Q1. induction Q1 as [|q x ql xl ((Fq & D & _) & _) _ IH]; [constructor|]. cbn [map]. constructor; [|exact IH].
      exists x. cbn [fresh_node position ndata nlabel]. auto.
Qed.
End Single.
