(** * add_edge, add_node and histories in f32 on drawings with room to spare. *)
From Coq Require Import ZArith Reals Lia Lra List Bool Arith.
From Flocq Require Import Core.Core IEEE754.BinarySingleNaN.
From Verif Require Import Scalar Utils F32 Laws Graph ListSpec GraphSpec PlaneSpec PlanarSpec GridSpec Format RoundSpec GeoSpec GeoRound Closest
  GraphAdd GraphAddProps GeoOn UtilsReal GeoSeg GeoGraph GraphPlanar MarginSpec MarginReal MarginSeg MarginGraph.
Import ListNotations.
Local Open Scope R_scope.

Lemma choose_list : forall A B (P : nat -> A -> B -> Prop) (l : list A), (forall i a, nth_error l i = Some a -> exists b, P i a b) ->
  exists bs, length bs = length l /\ forall i a b, nth_error l i = Some a -> nth_error bs i = Some b -> P i a b.
Proof.
  intros A B P l. revert P. induction l as [|a l IH]; intros P H.
  - exists []. split; [reflexivity|]. intros i a b Hi. destruct i; discriminate.
  - destruct (H O a eq_refl) as (b & Hb). destruct (IH (fun i => P (S i))) as (bs & L & Q); [intros i a' Hi; exact (H (S i) a' Hi)|].
    exists (b :: bs). split; [simpl; now rewrite L|]. intros [|i] a' b' H1 H2; cbn [nth_error] in *; [|eauto].
    injection H1 as <-. injection H2 as <-. exact Hb.
Qed.

Lemma nth_combine : forall A B (l : list A) (m : list B) i a b, nth_error (combine l m) i = Some (a, b) -> nth_error l i = Some a /\ nth_error m i = Some b.
Proof.
  intros A B l. induction l as [|x l IH]; intros [|y m] [|i] a b H; try discriminate; cbn [combine nth_error] in *; [now inversion H|now apply IH].
Qed.
Lemma combine_nth : forall A B (l : list A) (m : list B) i a b, nth_error l i = Some a -> nth_error m i = Some b -> In (a, b) (combine l m).
Proof.
  intros A B l. induction l as [|x l IH]; intros [|y m] [|i] a b H1 H2; try discriminate; cbn [combine nth_error] in *.
  - left. congruence.
  - right. eapply IH; eassumption.
Qed.

Section MarginAdd.
Context (lm : Libm) {T U : Type} (dT : T).
Local Notation F := (FO lm).
Local Notation graph := (PlanarGraph F T U).
Local Notation edge := (Edge U).
Local Notation rp := real_point.
Variables (M K dl : R).
Hypothesis Fn : fine M K dl.
Local Notation h := (slip M K).

Lemma place_pos : forall (g : graph) i, pt (places g) i = rp (pos_at (nodes g) i).
Proof.
  intros g i. unfold pos_at, pt. destruct (nth_error (nodes g) i) as [n|] eqn:En.
  - apply nth_error_nth. exact (map_nth_error (fun n => real_point (position n)) i (nodes g) En).
  - rewrite nth_overflow; [|unfold places; rewrite map_length; now apply nth_error_None]. unfold real_point. cbn [vx vy]. f_equal; reflexivity.
Qed.
Lemma place_len : forall g : graph, length (places g) = length (nodes g).
Proof. intros. apply map_length. Qed.
Lemma planar_places : forall g : graph, planar_f32 g <-> planar_drawing (pt (places g)) (length (places g)) (edges g).
Proof.
  intros g. unfold planar_f32, planar_drawing. rewrite place_len. split; intros [P1 P2]; split.
  - intros k f Hk Hf. rewrite !place_pos. now apply P1.
  - intros i j ei ej x N Hi Hj. rewrite !place_pos. intros O1 O2. destruct (P2 i j ei ej x N Hi Hj O1 O2) as (k & K1 & K2 & K3). exists k. rewrite place_pos. auto.
  - intros k f Hk Hf. rewrite <- !place_pos. now apply P1.
  - intros i j ei ej x N Hi Hj. rewrite <- !place_pos. intros O1 O2. destruct (P2 i j ei ej x N Hi Hj O1 O2) as (k & K1 & K2 & K3). exists k. rewrite <- place_pos. auto.
Qed.
Lemma planar_pairs : forall (g : graph) pd, planar_f32 g -> ForallOrdPairs (meet (places g) pd) (edges g).
Proof.
  intros g pd P. apply planar_places in P. destruct P as [_ P]. apply (pairs_nth _ (meet_sym (places g) pd)). intros i j e f N Hi Hj x H1 H2. left. exact (P i j e f x N Hi Hj H1 H2).
Qed.

Lemma at_rel : forall g : graph, (forall n, In n (nodes g) -> pbound M (position n)) -> rel lm M K g (places g).
Proof.
  intros g P. destruct (margins M K dl Fn) as (H0 & _). split; [apply place_len|]. split.
  - intros p Hp. unfold places in Hp. apply in_map_iff in Hp. destruct Hp as (n & <- & Hn). destruct (P n Hn) as (_ & B1 & B2). split; assumption.
  - intros k n Hk. pose proof (nth_error_In _ _ Hk) as Hn. destruct (P n Hn) as (Fp & _). split; [exact Fp|].
    assert (E : pt (places g) k = rp (position n)) by (rewrite place_pos; unfold pos_at; now rewrite Hk). rewrite E, dist_self0. exact H0.
Qed.

(** The drawing after the loop, from the exact drawing it follows. *)
Lemma shadow_rel : forall (g : graph) X, rel lm M K g X -> minv dl X (edges g) [] -> planar_f32 g /\ spaced (dl - 2 * h) (places g) (edges g).
Proof.
  intros g X (L & B & C) I. destruct (margins M K dl Fn) as (_ & _ & _ & H2 & _).
  assert (Lg : length (places g) = length X) by (rewrite place_len; now symmetry).
  assert (Cl : forall k, (k < length X)%nat -> dist (pt (places g) k) (pt X k) <= h).
  { intros k Hk. rewrite place_pos. unfold pos_at. destruct (nth_error (nodes g) k) as [n|] eqn:E; [|apply nth_error_None in E; lia]. now apply C. }
  split; [apply planar_places; now apply (shadow_planar dl h X)|now apply (spaced_shadow dl h X)].
Qed.

Lemma point_dec : forall p q : point, p = q \/ p <> q.
Proof.
  intros [px py] [qx qy]. destruct (Req_dec px qx) as [->|N1]; [|right; congruence]. destruct (Req_dec py qy) as [->|N2]; [now left|right; congruence].
Qed.
Lemma beside_apart : forall c d a b y, c <> d -> beside dl c d a b -> on_segment a b y -> on_segment c d y -> False.
Proof.
  intros c d a b y N Bs (t & Ht & E1) (s & Hs & E2). destruct (margins M K dl Fn) as (_ & _ & _ & _ & Pd).
  assert (Pc : 0 < dist c d) by now apply dist_pos. assert (P : 0 < dl * dist c d) by (apply Rmult_lt_0_compat; assumption).
  assert (Z : cross c d c y = 0) by (rewrite E2; unfold cross, along; cbn [vx vy]; ring).
  assert (Y : cross c d c y = (1 - t) * cross c d c a + t * cross c d c b) by (rewrite E1; unfold cross, along; cbn [vx vy]; ring).
  unfold beside in Bs. set (w := dl * dist c d) in *. set (p := cross c d c a) in *. set (q := cross c d c b) in *.
  destruct Bs as [[B1 B2]|[B1 B2]].
  - assert ((1 - t) * w <= (1 - t) * p) by (apply Rmult_le_compat_l; lra). assert (t * w <= t * q) by (apply Rmult_le_compat_l; lra). lra.
  - assert ((1 - t) * p <= (1 - t) * - w) by (apply Rmult_le_compat_l; lra). assert (t * q <= t * - w) by (apply Rmult_le_compat_l; lra). lra.
Qed.

Section Edge.
Variables (g : graph) (s d : nat).
Hypothesis PB : forall n, In n (nodes g) -> pbound M (position n).
Local Notation X := (places g).
Local Notation es := (edges g).
Hypothesis Sp : spaced dl X es.
Hypothesis Pl : planar_f32 g.
Hypothesis Nsd : s <> d.
Hypothesis NA : ~ adjacent g s d.
Hypothesis Ls : (s < length X)%nat.
Hypothesis Ld : (d < length X)%nat.
Hypothesis CW : clear_way dl K X es s d.

Definition interp (e : edge) : option (Vec2 f32) :=
  calculate_line_segment_intersection (O := F) (pos_at (nodes g) (src e)) (pos_at (nodes g) (dst e)) (pos_at (nodes g) s) (pos_at (nodes g) d).
(** What edge [i] contributes: a crossing, or at most a point next to a stored node. *)
Definition contributes (i : nat) (e : edge) (o : option point) : Prop :=
  match o with
  | Some x => (exists q, interp e = Some q /\ pfin q /\ dist (rp q) x <= h) /\ edge_on X e x /\ on_segment (pt X s) (pt X d) x /\
      (forall k, (k < length X)%nat -> dl <= dist x (pt X k)) /\
      (forall j f, j <> i -> nth_error es j = Some f -> edge_off dl X f x) /\
      (forall y, edge_on X e y -> on_segment (pt X s) (pt X d) y -> y = x)
  | None => (forall q, interp e = Some q -> pfin q /\ exists k, (k < length X)%nat /\ dist (rp q) (pt X k) <= h) /\
      (forall y, edge_on X e y -> on_segment (pt X s) (pt X d) y -> exists k, touches k e /\ (k = s \/ k = d) /\ y = pt X k)
  end.

Lemma pos_pb : forall k, (k < length X)%nat -> pbound M (pos_at (nodes g) k).
Proof.
  intros k Hk. rewrite place_len in Hk. unfold pos_at. destruct (nth_error (nodes g) k) as [n|] eqn:E; [|apply nth_error_None in E; lia].
  apply PB. eapply nth_error_In; exact E.
Qed.

Lemma share_only : forall e k, In e es -> touches k e -> k = s \/ k = d ->
  forall y, edge_on X e y -> on_segment (pt X s) (pt X d) y -> y = pt X k.
Proof.
  intros e k He Tk Hk y H1 H2. pose proof Sp as (V & A & C). destruct (V e He) as (Ne & L1 & L2). destruct (margins M K dl Fn) as (_ & _ & _ & _ & Pd).
  destruct (touch_join k e Tk) as (a & Ja). apply (join_on X k a e y Ja) in H1.
  assert (La : (a < length X)%nat) by (destruct Ja as [(<- & <-)|(<- & <-)]; assumption).
  assert (Nka : k <> a) by (destruct Ja as [(<- & <-)|(<- & <-)]; congruence).
  assert (Ex : exists b, (b < length X)%nat /\ b <> k /\ (k = s /\ b = d \/ k = d /\ b = s)).
  { destruct Hk as [-> | ->]; [exists d|exists s]; auto. }
  destruct Ex as (b & Lb & Nbk & Hb).
  assert (Nab : a <> b).
  { intros <-. apply NA. exists e. split; [exact He|]. unfold joins in *. destruct Ja as [(J1 & J2)|(J1 & J2)], Hb as [(E1 & E2)|(E1 & E2)]; [left|right|right|left]; split; congruence. }
  assert (H2' : on_segment (pt X k) (pt X b) y) by (destruct Hb as [(E1 & E2)|(E1 & E2)]; rewrite E1, E2; [exact H2|now apply on_sym]).
  destruct (fork _ _ _ _ H1 H2') as [Q|[Q|Q]]; [exact Q| |]; exfalso.
  - assert (Q' : on_segment (pt X s) (pt X d) (pt X a)) by (destruct Hb as [(E1 & E2)|(E1 & E2)]; rewrite E1, E2 in Q; [exact Q|now apply on_sym]).
    assert (Nas : a <> s) by (destruct Hb as [(E1 & E2)|(E1 & E2)]; congruence). assert (Nad : a <> d) by (destruct Hb as [(E1 & E2)|(E1 & E2)]; congruence).
    pose proof (proj1 CW a La Nas Nad _ Q') as G. rewrite dist_self0 in G. lra.
  - assert (NT : ~ touches b e) by (destruct Ja as [(<- & <-)|(<- & <-)]; intros [E|E]; congruence).
    pose proof (C b e Lb He NT (pt X b)) as G. unfold edge_off, off in G.
    assert (G' : dl <= dist (pt X b) (pt X b)) by (apply G; now apply (join_on X k a e)). rewrite dist_self0 in G'. lra.
Qed.

Lemma classify : forall i e, nth_error es i = Some e -> exists o, contributes i e o.
Proof.
  intros i e Hi. pose proof (nth_error_In _ _ Hi) as He. pose proof Sp as (V & A & C). destruct (V e He) as (Ne & L1 & L2).
  pose proof (proj2 CW i e Hi) as Ps. unfold passes in Ps.
  pose proof (pos_pb _ L1) as Pa. pose proof (pos_pb _ L2) as Pb. pose proof (pos_pb _ Ls) as Pc. pose proof (pos_pb _ Ld) as Pdd.
  pose proof (A _ _ L1 L2 Ne) as Hab. pose proof (A _ _ Ls Ld Nsd) as Hcd. destruct (margins M K dl Fn) as (_ & _ & _ & _ & Pd).
  assert (Nab : pt X (src e) <> pt X (dst e)) by (intros Q; rewrite Q, dist_self0 in Hab; lra).
  assert (Ncd : pt X s <> pt X d) by (intros Q; rewrite Q, dist_self0 in Hcd; lra).
  set (a := pos_at (nodes g) (src e)) in *. set (b := pos_at (nodes g) (dst e)) in *. set (c := pos_at (nodes g) s) in *. set (dd := pos_at (nodes g) d) in *.
  assert (Ea : pt X (src e) = rp a) by apply place_pos. assert (Eb : pt X (dst e) = rp b) by apply place_pos.
  assert (Ec : pt X s = rp c) by apply place_pos. assert (Ed : pt X d = rp dd) by apply place_pos.
  rewrite Ea, Eb in Hab. rewrite Ec, Ed in Hcd.
  assert (Ei : interp e = inter lm a b c dd) by reflexivity.
  assert (Share : forall k, touches k e -> k = s \/ k = d -> (forall q, inter lm a b c dd = Some q -> dist (rp q) (pt X k) <= h) -> contributes i e None).
  { intros k Tk Hk D. split.
    - intros q Q. rewrite Ei in Q. split; [exact (some_fin lm M K dl Fn a b c dd Pa Pb q Q)|]. exists k. split; [destruct Hk as [-> | ->]; assumption|]. now apply D.
    - intros y H1 H2. exists k. split; [exact Tk|]. split; [exact Hk|]. now apply (share_only e). }
  destruct Ps as [Q|[Q|[Q|[[Q W]|[Q|[Q|[W (x & O1 & O2 & Far & Oth)]]]]]]].
  - exists None. apply (Share s); [now left|now left|]. intros q Hq. rewrite <- Q, Ea. apply (shared_close lm M K dl Fn a b c dd Pa Pb Pc Pdd q Hq).
    left. unfold a, c. now rewrite Q.
  - exists None. apply (Share d); [now left|now right|]. intros q Hq. rewrite <- Q, Ea. apply (shared_close lm M K dl Fn a b c dd Pa Pb Pc Pdd q Hq).
    right. unfold a, dd. now rewrite Q.
  - exists None. apply (Share s); [now right|now left|]. intros q Hq. rewrite <- Q, Eb. apply (shared_close lm M K dl Fn a b c dd Pa Pb Pc Pdd q Hq).
    unfold b, c. now rewrite Q.
  - exists None. apply (Share d); [now right|now right|]. intros q Hq. rewrite Ea, Eb, Ec, Ed in W. destruct W as [W1 W2].
    assert (Bd : b = dd) by (unfold b, dd; now rewrite Q). rewrite Ed.
    apply (cross_close lm M K dl Fn a b c dd Pa Pb Pc Pdd Hab q (rp dd) 1 1 W1 W2); [|now rewrite along_1|exact Hq]. rewrite along_1. now rewrite Bd.
  - exists None. assert (N : interp e = None) by (rewrite Ei; apply (beside_none lm M K dl Fn a b c dd Pa Pb Pc Pdd Hab Hcd); left; rewrite <- Ea, <- Eb, <- Ec, <- Ed; exact Q).
    split; [intros q Hq; congruence|]. intros y H1 H2. exfalso. exact (beside_apart _ _ _ _ y Ncd Q H1 H2).
  - exists None. assert (N : interp e = None) by (rewrite Ei; apply (beside_none lm M K dl Fn a b c dd Pa Pb Pc Pdd Hab Hcd); right; rewrite <- Ea, <- Eb, <- Ec, <- Ed; exact Q).
    split; [intros q Hq; congruence|]. intros y H1 H2. exfalso. exact (beside_apart _ _ _ _ y Nab Q H2 H1).
  - exists (Some x). destruct W as [W1 W2].
    split; [|split; [exact O1|split; [exact O2|split; [exact Far|split; [exact Oth|]]]]].
    + unfold edge_on in O1. rewrite Ea, Eb, Ec, Ed in *.
      destruct (cross_some lm M K dl Fn a b c dd Pa Pb Pc Pdd Hab Hcd W1 W2 x O1 O2) as (q & Hq).
      * rewrite <- Ea. now apply Far.
      * rewrite <- Eb. now apply Far.
      * rewrite <- Ec. now apply Far.
      * rewrite <- Ed. now apply Far.
      * exists q. split; [rewrite Ei; exact Hq|]. split; [exact (some_fin lm M K dl Fn a b c dd Pa Pb q Hq)|].
        destruct O1 as (t & _ & Et). destruct O2 as (t' & _ & Et').
        exact (cross_close lm M K dl Fn a b c dd Pa Pb Pc Pdd Hab q x t t' W1 W2 Et Et' Hq).
    + intros y H1 H2. symmetry. eapply segment_intersection_unique; [exact W1| | | |]; apply on_segment_line; assumption.
Qed.

Definition item_of (eo : edge * option point) : list item := match interp (fst eo) with Some q => [(q, snd eo)] | None => [] end.
Definition sep (o o' : option point) : Prop := forall x x', o = Some x -> o' = Some x' -> dl <= dist x x'.
Lemma sep_sym : forall o o', sep o o' -> sep o' o.
Proof. intros o o' H x x' E E'. rewrite dist_sym. now apply H. Qed.

Lemma collect : exists items : list item,
  map fst items = crossings g (pos_at (nodes g) s) (pos_at (nodes g) d) es /\ Forall (good M K X) items /\
  ForallOrdPairs (fun i i' => sep (snd i) (snd i')) items /\
  (forall x, In x (pend items) -> exists i e, nth_error es i = Some e /\ contributes i e (Some x)) /\
  (forall e y, In e es -> edge_on X e y -> on_segment (pt X s) (pt X d) y -> In y (pend items) \/ exists k, touches k e /\ (k = s \/ k = d) /\ y = pt X k).
Proof.
  destruct (choose_list _ _ contributes es classify) as (os & L & Q). exists (flat_map item_of (combine es os)).
  assert (Pr : forall i e o, nth_error (combine es os) i = Some (e, o) -> contributes i e o).
  { intros i e o H. destruct (nth_combine _ _ _ _ _ _ _ H) as [H1 H2]. now apply Q. }
  assert (Pi : forall e o, In (e, o) (combine es os) -> exists i, nth_error es i = Some e /\ contributes i e o).
  { intros e o H. apply In_nth_error in H. destruct H as (i & H). exists i. split; [|now apply Pr]. now destruct (nth_combine _ _ _ _ _ _ _ H). }
  assert (It : forall it e o, In it (item_of (e, o)) -> interp e = Some (fst it) /\ snd it = o).
  { intros it e o H. unfold item_of in H. cbn [fst snd] in H. destruct (interp e) as [q|]; [|contradiction]. destruct H as [<-|[]]. auto. }
  split; [|split; [|split; [|split]]].
  - clear Q Pr Pi. revert os L. generalize es as l0. intros l0. induction l0 as [|e l IH]; intros [|o os] L; try discriminate; [reflexivity|].
    injection L as L. specialize (IH os L).
    change (map fst (item_of (e, o) ++ flat_map item_of (combine l os)) =
      match interp e with Some p => [p] | None => [] end ++ crossings g (pos_at (nodes g) s) (pos_at (nodes g) d) l).
    rewrite map_app. apply f_equal2; [|exact IH]. unfold item_of. cbn [fst snd]. destruct (interp e); reflexivity.
  - apply Forall_forall. intros it H. apply in_flat_map in H. destruct H as ([e o] & H1 & H2).
    destruct (It it e o H2) as [I1 I2]. destruct (Pi e o H1) as (i & Hi & Cn). destruct it as [q o']. cbn [fst snd] in I1, I2. subst o'. unfold good. cbn [fst snd].
    destruct o as [x|]; cbn [contributes] in Cn.
    + destruct Cn as ((q' & E' & Fq & Dq) & O1 & O2 & _). assert (q' = q) by congruence. subst q'. split; [exact Fq|]. split; [exact Dq|].
      pose proof (at_rel g PB) as (_ & B & _). apply (box_along M _ _ x (boxed_pt M X s B Ls) (boxed_pt M X d B Ld) O2).
    + destruct Cn as [Cn _]. exact (Cn q I1).
  - apply (pairs_flat_map _ _ (fun a b : edge * option point => sep (snd a) (snd b))).
    + apply (pairs_nth _ (fun a b => sep_sym (snd a) (snd b))). intros i j [e o] [f o'] N Hi Hj x x' E E'. cbn [snd] in E, E'. subst o o'.
      pose proof (Pr i e _ Hi) as (_ & _ & _ & _ & Oth & _). pose proof (Pr j f _ Hj) as (_ & O1 & _).
      apply (Oth j f (not_eq_sym N)); [|exact O1]. now destruct (nth_combine _ _ _ _ _ _ _ Hj).
    + intros [e o] _. unfold item_of. cbn [fst snd]. destruct (interp e); [|constructor]. constructor; constructor.
    + intros [e o] [f o'] it it' _ _ S H1 H2. cbn [snd] in S. destruct (It it e o H1) as [_ ->]. destruct (It it' f o' H2) as [_ ->]. exact S.
  - intros x H. unfold pend in H. apply in_flat_map in H. destruct H as (it & H & Hx). apply in_flat_map in H. destruct H as ([e o] & H1 & H2).
    destruct (It it e o H2) as [I1 I2]. destruct (snd it) as [x'|]; [|contradiction]. destruct Hx as [<-|[]]. subst o.
    destruct (Pi e _ H1) as (i & Hi & Cn). exists i, e. auto.
  - intros e y He H1 H2. apply In_nth_error in He. destruct He as (i & Hi).
    destruct (nth_error os i) as [o|] eqn:Ho; [|apply nth_error_None in Ho; assert (i < length es)%nat by (apply nth_error_Some; congruence); lia].
    pose proof (Q i e o Hi Ho) as Cn. destruct o as [x|]; [left|right].
    + destruct Cn as ((q & Eq & _) & _ & _ & _ & _ & Un). rewrite (Un y H1 H2). unfold pend. apply in_flat_map. exists (q, Some x). split; [|now left].
      apply in_flat_map. exists (e, Some x). split; [exact (combine_nth _ _ _ _ _ _ _ Hi Ho)|]. unfold item_of. cbn [fst snd]. rewrite Eq. now left.
    + destruct Cn as [_ Cn]. now apply Cn.
Qed.

Lemma pend_pairs : forall items : list item, ForallOrdPairs (fun i i' => sep (snd i) (snd i')) items -> ForallOrdPairs (fun x y => dl <= dist x y) (pend items).
Proof.
  intros items H. apply (pairs_flat_map _ _ _ _ _ _ H).
  - intros [q [x|]] _; constructor; constructor.
  - intros it it' x x' _ _ S H1 H2. destruct it as [q [z|]], it' as [q' [z'|]]; cbn [snd In] in *; try contradiction.
    destruct H1 as [<-|[]], H2 as [<-|[]]. now apply S.
Qed.

Section With.
Variable u : U.
Let sd := MkEdge s d u DEFAULT_LABEL.
Lemma with_minv : forall items : list item, ForallOrdPairs (fun i i' => sep (snd i) (snd i')) items ->
  (forall x, In x (pend items) -> exists i e, nth_error es i = Some e /\ contributes i e (Some x)) ->
  (forall e y, In e es -> edge_on X e y -> on_segment (pt X s) (pt X d) y -> In y (pend items) \/ exists k, touches k e /\ (k = s \/ k = d) /\ y = pt X k) ->
  minv dl X (es ++ [sd]) (pend items).
Proof.
  intros items S1 S2 S3. pose proof Sp as (V & A & C). split; [split; [|split]|split; [|split]].
  - intros e He. apply in_app_or in He. destruct He as [He|[<-|[]]]; [now apply V|]. cbn [sd src dst]. auto.
  - exact A.
  - intros k e Hk He NT. apply in_app_or in He. destruct He as [He|[<-|[]]]; [now apply C|].
    apply (proj1 CW k Hk); intros ->; apply NT; [now left|now right].
  - apply pairs_app.
    + now apply planar_pairs.
    + constructor; constructor.
    + intros e f He [<-|[]] y H1 H2. destruct (S3 e y He H1 H2) as [Hy|(k & Tk & Hk & Ey)]; [now right|left].
      exists k. split; [exact Tk|]. split; [|exact Ey]. destruct Hk as [-> | ->]; [now left|now right].
  - intros x Hx. destruct (S2 x Hx) as (i & e & Hi & _ & O1 & O2 & Far & Oth & _). split; [exact Far|].
    intros f Hf. apply in_app_or in Hf. destruct Hf as [Hf|[<-|[]]]; [|left; exact O2].
    apply In_nth_error in Hf. destruct Hf as (j & Hj). destruct (Nat.eq_dec j i) as [->|N]; [left|right].
    + assert (f = e) by congruence. subst f. exact O1.
    + now apply (Oth j).
  - now apply pend_pairs.
Qed.

Lemma kept_pend : forall items : list item, Forall (good M K X) items ->
  Forall2 (fun n x => pfin (position n) /\ dist (rp (position n)) x <= h) (map (mk lm dT) (kept items)) (pend items).
Proof.
  intros items H. induction H as [|[q [x|]] l G Gl IH]; [constructor| |exact IH].
  cbn [kept pend flat_map fst snd app map]. fold (kept l) (pend l). constructor; [|exact IH]. destruct G as [G1 [G2 _]]. split; [exact G1|exact G2].
Qed.
Lemma pairs_nodup : forall l : list point, ForallOrdPairs (fun x y => dl <= dist x y) l -> NoDup l.
Proof.
  intros l H. destruct (margins M K dl Fn) as (_ & _ & _ & _ & Pd). induction H as [|x l H1 H2 IH]; constructor; [|exact IH].
  intros Hx. rewrite Forall_forall in H1. specialize (H1 x Hx). rewrite dist_self0 in H1. lra.
Qed.

Theorem add_edge_margin : forall g' r, add_edge dT g s d u = Ok (g', r) -> exists new xs,
  nodes g' = nodes g ++ new /\ Forall2 (fun n x => pfin (position n) /\ dist (rp (position n)) x <= h) new xs /\ NoDup xs /\
  (forall x, In x xs <-> on_segment (pt X s) (pt X d) x /\ covers X es x /\ x <> pt X s /\ x <> pt X d) /\
  planar_f32 g' /\ spaced (dl - 2 * h) (places g') (edges g') /\
  (forall y, covers (X ++ xs) (edges g') y <-> covers X es y \/ on_segment (pt X s) (pt X d) y).
Proof.
  intros g' r H. destruct collect as (items & E1 & G & S1 & S2 & S3). pose proof (with_minv items S1 S2 S3) as I.
  unfold add_edge in H. assert (HB : has_edge_between_nodes g s d = false).
  { destruct (has_edge_between_nodes g s d) eqn:E; [|reflexivity]. apply between_adjacent in E. contradiction. }
  rewrite HB in H. cbn [negb] in H. unfold get_vertex in H. pose proof Ls as Ls'. pose proof Ld as Ld'. rewrite place_len in Ls', Ld'.
  destruct (nth_error (nodes g) s) eqn:Es; [|apply nth_error_None in Es; lia].
  destruct (nth_error (nodes g) d) eqn:Ed; [|apply nth_error_None in Ed; lia]. fold sd in H.
  apply bind_ok in H. destruct H as ([g2 [cn ce]] & H1 & H). injection H as Eg _. subst g2.
  unfold split_edges_along_edge in H1. apply bind_ok in H1. destruct H1 as (is & Hi & H1). cbn [edges edge_count] in Hi.
  unfold edge_count in Hi. cbn [edges] in Hi. rewrite app_length in Hi. cbn [length] in Hi.
  replace (length (edges g) + 1 - 1)%nat with (length (edges g)) in Hi by lia.
  apply inter_loop in Hi; [|cbn [edges]; rewrite nth_error_app2, Nat.sub_diag by lia; reflexivity|lia].
  change (is = crossings g (pos_at (nodes g) s) (pos_at (nodes g) d) es) in Hi. rewrite <- E1 in Hi. subst is.
  destruct (margins M K dl Fn) as (_ & _ & Far & _ & Pd).
  destruct (unique_items lm items items 0) as (l' & El & Pp & Inc).
  { intros k it x k' it' H2 H3 H4 H5. rewrite Forall_forall in G. pose proof (nth_error_In _ _ H2) as In1. pose proof (nth_error_In _ _ H4) as In2.
    destruct (G it In1) as (F1 & D1). destruct (G it' In2) as (F2 & D2). rewrite H3 in D1. destruct D1 as (D1 & _).
    apply close_real; [exact F1|exact F2|]. 
    assert (Z : exists z, dist (rp (fst it')) z <= h /\ dl <= dist x z).
    { destruct (snd it') as [x'|] eqn:E'.
      - exists x'. split; [apply D2|]. apply (proj1 (pairs_nth _ (fun a b => sep_sym (snd a) (snd b)) items) S1 k k' it it'); auto.
      - destruct D2 as (m & Lm & Dm). exists (pt X m). split; [exact Dm|]. assert (Hx : In x (pend items)).
        { unfold pend. apply in_flat_map. exists it. split; [exact In1|]. rewrite H3. now left. }
        destruct (S2 x Hx) as (i & e & _ & _ & _ & _ & Fx & _). now apply Fx. }
    destruct Z as (z & Z1 & Z2). pose proof (triangle x (rp (fst it)) z) as T1. pose proof (triangle (rp (fst it)) (rp (fst it')) z) as T2. rewrite (dist_sym x (rp (fst it))) in T1. lra. }
  change (unique_points_among (O := F) (map fst items) = map fst l') in El. rewrite El in H1.
  assert (G' : Forall (good M K X) l').
  { apply Forall_forall. intros it Hit. rewrite Forall_forall in G. apply G. now apply Inc. }
  rewrite <- Pp in I. pose proof (at_rel g PB) as R.
  destruct (points_loop lm dT M K dl Fn l' (MkGraph (nodes g) (es ++ [sd])) X _ _ g' _ R I G' H1) as (R' & I' & C' & N').
  destruct (shadow_rel g' _ R' I') as (P' & S'). cbn [nodes edges] in N', C'.
  exists (map (mk lm dT) (kept l')), (pend l'). split; [exact N'|]. split; [now apply kept_pend|].
  split; [apply pairs_nodup; rewrite Pp; now apply pend_pairs|]. split; [|split; [exact P'|split; [exact S'|]]].
  - intros x. rewrite Pp. split.
    + intros Hx. destruct (S2 x Hx) as (i & e & Hi & _ & O1 & O2 & Fx & _). split; [exact O2|]. split; [exists e; split; [eapply nth_error_In; exact Hi|exact O1]|].
      split; intros ->; [specialize (Fx s Ls)|specialize (Fx d Ld)]; rewrite dist_self0 in Fx; lra.
    + intros (O2 & (e & He & O1) & Ns & Nd). destruct (S3 e x He O1 O2) as [Hx|(k & _ & [-> | ->] & E)]; [exact Hx|contradiction|contradiction].
  - intros y. rewrite C'. unfold covers. split.
    + intros (e & He & Oe). apply in_app_or in He. destruct He as [He|[<-|[]]]; [left; eauto|right; exact Oe].
    + intros [(e & He & Oe)|Oy].
      * exists e. split; [apply in_or_app; now left|exact Oe].
      * exists sd. split; [apply in_or_app; right; now left|exact Oy].
Qed.
End With.
End Edge.

(** ** add_node *)
Section Node.
Variables (g : graph).
Hypothesis PB : forall n, In n (nodes g) -> pbound M (position n).
Hypothesis Sp : spaced dl (places g) (edges g).
Hypothesis Pl : planar_f32 g.

Theorem add_node_margin : forall p dat g' i ces, pfin p -> room_at M K dl g (rp p) -> add_node g (p : Vec2 F) dat = Ok (g', (i, ces)) ->
  (g' = g /\ (i < length (nodes g))%nat /\ dist (rp p) (pt (places g) i) < eps32 * (1 + 4 * u32)) \/
  (nodes g' = nodes g ++ [MkNode p dat DEFAULT_LABEL] /\ i = length (nodes g) /\ planar_f32 g' /\ spaced (dl - 2 * h) (places g') (edges g') /\
   exists x, dist (rp p) x <= h /\ lone dl (places g) (edges g) x /\ forall y, covers (places g ++ [x]) (edges g') y <-> covers (places g) (edges g) y).
Proof.
  intros p dat g' i ces Fp Rm H. pose proof (at_rel g PB) as R.
  destruct Rm as [(k & Hk & D)|(x & D & Bx & By & Lx)].
  - left. apply add_node_ok in H. destruct H as [(dd & Fc & Lt & -> & _)|(dd & j & Fc & Lt & _)].
    + split; [reflexivity|]. destruct (closest_not_near (FO_laws lm) g p i dd Fc) as [_ Q]. destruct (Q Lt) as (n & Hn & ->).
      split; [apply nth_error_Some; congruence|]. rewrite place_pos. unfold pos_at. rewrite Hn.
      exact (proj1 (lt_eps_real lm p (position n) Fp (proj1 (PB n (nth_error_In _ _ Hn)))) Lt).
    + exfalso. destruct (closest_not_near (FO_laws lm) g p j dd Fc) as [Q _]. assert (NN : near_node g p).
      { destruct (nth_error (nodes g) k) as [n|] eqn:E; [|apply nth_error_None in E; lia]. exists k, n. split; [exact E|]. apply not_false_is_true. intros Z.
        pose proof (proj2 (lt_eps_real lm p (position n) Fp (proj1 (PB n (nth_error_In _ _ E)))) Z) as G. cbv zeta in G.
        rewrite place_pos in D. unfold pos_at in D. rewrite E in D. exact (Rlt_irrefl _ (Rlt_trans _ _ _ G D)). }
      apply Q in NN. exact (diff_true_false (eq_trans (eq_sym NN) Lt)).
  - right. assert (I : minv dl (places g) (edges g) [x]).
    { split; [exact Sp|]. split; [now apply planar_pairs|]. split; [intros y [<-|[]]; exact Lx|]. constructor; constructor. }
    destruct (add_fresh_margin lm M K dl Fn g g' (places g) p x [] dat i ces R I Fp D Bx By H) as (R' & I' & C' & N' & Ei).
    destruct (shadow_rel g' _ R' I') as (P' & S'). split; [exact N'|]. split; [exact Ei|]. split; [exact P'|]. split; [exact S'|]. exists x. auto.
Qed.
End Node.
End MarginAdd.
