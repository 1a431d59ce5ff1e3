(** * add_edge over any scalars that decide a drawing with room to spare like exact arithmetic. *)
From Coq Require Import Reals Lia Lra List Bool Arith.
From Verif Require Import Scalar Utils Laws Graph ListSpec GraphSpec PlaneSpec PlanarSpec GeoSpec Closest
  GraphAdd GraphAddProps UtilsReal GeoGraph GraphPlanar GraphReport MarginSpec MarginReal MarginAdd.
Import ListNotations.
From Verif Require MarginGraph.
Local Open Scope R_scope.

(** ** The splits at a list of points, without scalars *)
Section Splits.
Context {U : Type}.
Local Notation edge := (Edge U).

Inductive splits : list point -> list edge -> list point -> list edge -> list nat -> Prop :=
| splits_nil : forall X es, splits X es [] es []
| splits_cons : forall X es x pd (on : edge -> bool) es' rep,
    (forall e, In e es -> (on e = true <-> edge_on X e x)) ->
    splits (X ++ [x]) (split_edges on (length X) es) pd es' rep ->
    splits X es (x :: pd) es' (split_report on es ++ rep).

Lemma on_ext : forall (on on' : edge -> bool) (es : list edge), (forall e, In e es -> on e = on' e) ->
  filter on es = filter on' es /\ (forall i, slots on i es = slots on' i es).
Proof.
  intros on on' es. induction es as [|e es IH]; intros H; [split; reflexivity|].
  destruct IH as [I1 I2]; [intros; apply H; now right|]. cbn [filter slots]. rewrite (H e) by now left. split; [now rewrite I1|].
  intros i. now rewrite I2.
Qed.

Lemma splits_fun : forall X es pd es1 r1, splits X es pd es1 r1 -> forall es2 r2, splits X es pd es2 r2 -> es1 = es2 /\ r1 = r2.
Proof.
  intros X es pd es1 r1 H. induction H as [X es|X es x pd on es' rep On H IH]; intros es2 r2 H2.
  - inversion H2; subst. auto.
  - inversion H2 as [|? ? ? ? on2 es2' rep2 On2 H2']; subst.
    assert (E : forall e, In e es -> on2 e = on e).
    { intros e He. specialize (On e He). specialize (On2 e He). destruct (on e), (on2 e); try reflexivity; exfalso.
      - assert (false = true) by (apply On2, On; reflexivity). discriminate.
      - assert (false = true) by (apply On, On2; reflexivity). discriminate. }
    destruct (on_ext on2 on es E) as [E1 E2].
    assert (Es : split_edges on2 (length X) es = split_edges on (length X) es).
    { unfold split_edges. rewrite E1. f_equal. apply map_ext_in. intros e He. now rewrite (E e He). }
    assert (Er : split_report on2 es = split_report on es) by (unfold split_report; now rewrite E1, E2).
    rewrite Es in H2'. destruct (IH _ _ H2') as [-> ->]. now rewrite Er.
Qed.
End Splits.

(** ** Which edges the new segment crosses, without scalars *)
Section Shapes.
Context {U : Type}.
Local Notation edge := (Edge U).
Variables (dl : R) (X : list point) (es : list edge) (s d : nat).
Definition shape (i : nat) (e : edge) (o : option point) : Prop :=
  match o with
  | Some x => edge_on X e x /\ on_segment (pt X s) (pt X d) x /\
      (forall k, (k < length X)%nat -> dl <= dist x (pt X k)) /\
      (forall j f, j <> i -> nth_error es j = Some f -> edge_off dl X f x) /\
      (forall y, edge_on X e y -> on_segment (pt X s) (pt X d) y -> y = x)
  | None => forall y, edge_on X e y -> on_segment (pt X s) (pt X d) y -> exists k, touches k e /\ (k = s \/ k = d) /\ y = pt X k
  end.
Definition somes (os : list (option point)) : list point := flat_map (fun o => match o with Some x => [x] | None => [] end) os.

Hypothesis Pd : 0 < dl.
Hypothesis Sp : spaced dl X es.
Hypothesis Pl : ForallOrdPairs (meet X []) es.
Hypothesis Nsd : s <> d.
Hypothesis Ls : (s < length X)%nat.
Hypothesis Ld : (d < length X)%nat.
Hypothesis Way : forall k, (k < length X)%nat -> k <> s -> k <> d -> off dl (pt X s) (pt X d) (pt X k).
Variable os : list (option point).
Hypothesis Lo : length os = length es.
Hypothesis Sh : forall i e o, nth_error es i = Some e -> nth_error os i = Some o -> shape i e o.

Lemma somes_in : forall x, In x (somes os) -> exists i e, nth_error es i = Some e /\ nth_error os i = Some (Some x).
Proof.
  intros x H. unfold somes in H. apply in_flat_map in H. destruct H as (o & Ho & Hx). destruct o as [y|]; [|contradiction]. destruct Hx as [->|[]].
  apply In_nth_error in Ho. destruct Ho as (i & Hi). destruct (nth_error es i) as [e|] eqn:E; [exists i, e; auto|].
  apply nth_error_None in E. assert (i < length os)%nat by (apply nth_error_Some; congruence). lia.
Qed.
Lemma somes_nth : forall i x, nth_error os i = Some (Some x) -> In x (somes os).
Proof. intros i x H. unfold somes. apply in_flat_map. exists (Some x). split; [eapply nth_error_In; exact H|now left]. Qed.
Lemma os_nth : forall i e, nth_error es i = Some e -> exists o, nth_error os i = Some o.
Proof. intros i e H. destruct (nth_error os i) as [o|] eqn:E; [eauto|]. apply nth_error_None in E. assert (i < length es)%nat by (apply nth_error_Some; congruence). lia. Qed.

Lemma somes_pairs : ForallOrdPairs (fun x y => dl <= dist x y) (somes os).
Proof.
  apply (pairs_flat_map _ _ (fun o o' : option point => forall x x', o = Some x -> o' = Some x' -> dl <= dist x x')).
  - apply pairs_nth; [intros o o' H x x' E E'; rewrite dist_sym; now apply H|]. intros i j o o' N Hi Hj x x' -> ->.
    assert (exists e, nth_error es i = Some e) as (e & He).
    { destruct (nth_error es i) eqn:E; [eauto|]. apply nth_error_None in E. assert (i < length os)%nat by (apply nth_error_Some; congruence). lia. }
    assert (exists f, nth_error es j = Some f) as (f & Hf).
    { destruct (nth_error es j) eqn:E; [eauto|]. apply nth_error_None in E. assert (j < length os)%nat by (apply nth_error_Some; congruence). lia. }
    pose proof (Sh i e _ He Hi) as (_ & _ & _ & Oth & _). pose proof (Sh j f _ Hf Hj) as (O1 & _). exact (Oth j f (not_eq_sym N) Hf x' O1).
  - intros [x|] _; constructor; constructor.
  - intros o o' x x' _ _ S H1 H2. destruct o as [z|], o' as [z'|]; try contradiction. destruct H1 as [<-|[]], H2 as [<-|[]]. now apply S.
Qed.

Lemma somes_minv : forall u, minv dl X (es ++ [MkEdge s d u DEFAULT_LABEL]) (somes os).
Proof.
  intros u. pose proof Sp as (V & A & C). split; [split; [|split]|split; [|split]].
  - intros e He. apply in_app_or in He. destruct He as [He|[<-|[]]]; [now apply V|]. cbn [src dst]. auto.
  - exact A.
  - intros k e Hk He NT. apply in_app_or in He. destruct He as [He|[<-|[]]]; [now apply C|].
    apply (Way k Hk); intros ->; apply NT; [now left|now right].
  - apply pairs_app.
    + eapply pairs_impl; [|exact Pl]. intros e f M y H1 H2. destruct (M y H1 H2) as [?|[]]. now left.
    + constructor; constructor.
    + intros e f He [<-|[]] y H1 H2. apply In_nth_error in He. destruct He as (i & Hi). destruct (os_nth i e Hi) as (o & Ho).
      pose proof (Sh i e o Hi Ho) as S. destruct o as [x|].
      * right. destruct S as (_ & _ & _ & _ & Un). rewrite (Un y H1 H2). exact (somes_nth i x Ho).
      * left. destruct (S y H1 H2) as (k & Tk & Hk & Ey). exists k. split; [exact Tk|]. split; [|exact Ey]. destruct Hk as [-> | ->]; [now left|now right].
  - intros x Hx. destruct (somes_in x Hx) as (i & e & Hi & Ho). destruct (Sh i e _ Hi Ho) as (O1 & O2 & Far & Oth & _). split; [exact Far|].
    intros f Hf. apply in_app_or in Hf. destruct Hf as [Hf|[<-|[]]]; [|left; exact O2].
    apply In_nth_error in Hf. destruct Hf as (j & Hj). destruct (Nat.eq_dec j i) as [->|N]; [left|right].
    + assert (f = e) by congruence. subst f. exact O1.
    + now apply (Oth j).
  - exact somes_pairs.
Qed.

Lemma somes_are : forall x, In x (somes os) <-> on_segment (pt X s) (pt X d) x /\ covers X es x /\ x <> pt X s /\ x <> pt X d.
Proof.
  intros x. split.
  - intros Hx. destruct (somes_in x Hx) as (i & e & Hi & Ho). destruct (Sh i e _ Hi Ho) as (O1 & O2 & Far & _).
    split; [exact O2|]. split; [exists e; split; [eapply nth_error_In; exact Hi|exact O1]|].
    split; intros ->; [specialize (Far s Ls)|specialize (Far d Ld)]; rewrite dist_self0 in Far; lra.
  - intros (O2 & (e & He & O1) & Ns & Nd). apply In_nth_error in He. destruct He as (i & Hi). destruct (os_nth i e Hi) as (o & Ho).
    pose proof (Sh i e o Hi Ho) as S. destruct o as [y|].
    + destruct S as (_ & _ & _ & _ & Un). rewrite (Un x O1 O2). exact (somes_nth i y Ho).
    + destruct (S x O1 O2) as (k & _ & [-> | ->] & E); contradiction.
Qed.
End Shapes.

(** ** Scalars that follow the exact drawing *)
Section Follow.
Context {O : Ops} (L : Laws O) {T U : Type} (dT : T).
Local Notation graph := (PlanarGraph O T U).
Local Notation edge := (Edge U).
Variables (M K dl : R).
Hypothesis Fn : fine M K dl.
(** The stored nodes stand for the points [X]; the computed point [q] stands for [x]. *)
Variable rel : graph -> list point -> Prop.
Variable for_ : Vec2 O -> point -> Prop.
Hypothesis rel_len : forall g X, rel g X -> length X = length (nodes g).
Hypothesis rel_box : forall g X, rel g X -> boxed M X.
Hypothesis rel_nodes : forall g g' X, rel g X -> nodes g' = nodes g -> rel g' X.
Hypothesis rel_new : forall g g' X n x, rel g X -> nodes g' = nodes g ++ [n] -> for_ (position n) x -> rel g' (X ++ [x]).
Hypothesis near_old : forall g X q k, rel g X -> (k < length X)%nat -> for_ q (pt X k) -> near_node g q.
Hypothesis far_old : forall g X q x, rel g X -> for_ q x -> (forall k, (k < length X)%nat -> dl <= dist x (pt X k)) -> ~ near_node g q.
Hypothesis old_off : forall g X j e, rel g X -> spaced dl X (edges g) -> (j < length X)%nat -> In e (edges g) -> on_edge (nodes g) j e = false.
Hypothesis new_on : forall g X n x e, rel g X -> spaced dl X (edges g) -> lone dl X (edges g) x -> for_ (position n) x ->
  In e (edges g) -> (on_edge (nodes g ++ [n]) (length (nodes g)) e = true <-> edge_on X e x).
Hypothesis not_close : forall q q' x x', for_ q x -> for_ q' x' -> dl <= dist x x' -> close_to q q' = false.

Definition fitem : Type := Vec2 O * option point.
Definition fgood (X : list point) (i : fitem) : Prop :=
  match snd i with Some x => for_ (fst i) x | None => exists k, (k < length X)%nat /\ for_ (fst i) (pt X k) end.
Definition fpend (l : list fitem) : list point := somes (map snd l).
Definition fkept (l : list fitem) : list (Vec2 O) := flat_map (fun i => match snd i with Some _ => [fst i] | None => [] end) l.
Definition fresh_node (q : Vec2 O) : Node O T := MkNode q dT DEFAULT_LABEL.

Lemma fgood_app : forall X Y i, fgood X i -> fgood (X ++ Y) i.
Proof.
  intros X Y [q [x|]] G; [exact G|]. destruct G as (k & Hk & D). exists k. cbn [fst snd] in *. rewrite app_length. split; [lia|]. now rewrite pt_app.
Qed.

Lemma follow_new : forall g g' X q x pd d i ces, rel g X -> minv dl X (edges g) (x :: pd) -> for_ q x ->
  add_node g q d = Ok (g', (i, ces)) ->
  exists on, (forall e, In e (edges g) -> (on e = true <-> edge_on X e x)) /\ edges g' = split_edges on (length X) (edges g) /\
  ces = split_report on (edges g) /\ i = length X /\ nodes g' = nodes g ++ [MkNode q d DEFAULT_LABEL] /\
  rel g' (X ++ [x]) /\ minv dl (X ++ [x]) (edges g') pd /\ (forall y, covers (X ++ [x]) (edges g') y <-> covers X (edges g) y).
Proof.
  intros g g' X q x pd d i ces R I Fq H. pose proof I as (S & _ & Lp & _). pose proof (Lp x (or_introl eq_refl)) as Lx.
  assert (NN : ~ near_node g q) by (eapply far_old; try eassumption; apply Lx).
  apply add_node_ok in H. destruct H as [(dd & Fc & Lt & _)|(dd & j & Fc & Lt & -> & Hn & He & Hc)].
  - exfalso. apply NN. now apply (closest_not_near L g q i dd Fc).
  - pose proof (rel_len _ _ R) as RL. exists (on_edge (nodes g') (length X)).
    assert (On : forall e, In e (edges g) -> (on_edge (nodes g') (length X) e = true <-> edge_on X e x)).
    { intros e Hin. rewrite Hn, RL. now apply (new_on g X (MkNode q d DEFAULT_LABEL) x e). }
    rewrite <- RL in He, Hc. split; [exact On|]. split; [exact He|]. split; [exact Hc|]. split; [now symmetry|]. split; [exact Hn|].
    split; [eapply rel_new; try eassumption; exact Fq|]. rewrite He. split.
    + eapply mstep; try eassumption. eapply rel_box; eassumption.
    + eapply mstep_covers; try eassumption. eapply rel_box; eassumption.
Qed.

Lemma follow_points : forall (l : list fitem) g X cn ce g' rn re, rel g X -> minv dl X (edges g) (fpend l) -> Forall (fgood X) l ->
  split_at_points dT g (map fst l) cn ce = Ok (g', (rn, re)) ->
  exists rep, splits X (edges g) (fpend l) (edges g') rep /\ re = ce ++ rep /\ rn = cn ++ seq (length X) (length (fpend l)) /\
  rel g' (X ++ fpend l) /\ minv dl (X ++ fpend l) (edges g') [] /\
  (forall y, covers (X ++ fpend l) (edges g') y <-> covers X (edges g) y) /\ nodes g' = nodes g ++ map fresh_node (fkept l).
Proof.
  induction l as [|[q o] l IH]; intros g X cn ce g' rn re R I G H; cbn [map split_at_points fst] in H.
  - inversion H; subst. exists []. cbn [fpend somes map flat_map fkept length seq]. rewrite !app_nil_r.
    split; [constructor|]. repeat (split; [assumption || reflexivity|]). reflexivity.
  - inversion G as [|? ? Gq Gl]; subst. unfold fgood in Gq. cbn [fst snd] in Gq.
    destruct (find_closest_to q (gather_node_positions g)) as [j dd] eqn:Fc.
    destruct (closest_not_near L g q j dd Fc) as [Near _].
    destruct o as [x|].
    + change (fpend ((q, Some x) :: l)) with (x :: fpend l) in *. change (fkept ((q, Some x) :: l)) with (q :: fkept l).
      assert (NN : ~ near_node g q).
      { pose proof I as (_ & _ & Lp & _). eapply far_old; try eassumption. apply (Lp x (or_introl eq_refl)). }
      destruct (olt dd ceps) eqn:Lt; [exfalso; apply NN, Near; reflexivity|].
      apply bind_ok in H. destruct H as ([g1 [ni ces]] & H1 & H).
      destruct (follow_new g g1 X q x (fpend l) dT ni ces R I Gq H1) as (on & On & E1 & Ec & Ei & N1 & R1 & I1 & C1).
      assert (Gl' : Forall (fgood (X ++ [x])) l) by (eapply Forall_impl; [|exact Gl]; intros; now apply fgood_app).
      destruct (IH g1 (X ++ [x]) _ _ g' rn re R1 I1 Gl' H) as (rep & S2 & Er & En & R2 & I2 & C2 & N2).
      exists (split_report on (edges g) ++ rep). rewrite <- app_assoc in R2, I2, C2. cbn [app] in R2, I2, C2.
      split; [constructor; [exact On|]; rewrite <- E1; exact S2|]. split; [rewrite Er, Ec, app_assoc; reflexivity|].
      split; [rewrite En, Ei, app_length, <- app_assoc; cbn [length seq app]; now rewrite Nat.add_1_r|].
      split; [exact R2|]. split; [exact I2|]. split; [intros y; rewrite C2; apply C1|]. rewrite N2, N1, <- app_assoc. reflexivity.
    + change (fpend ((q, None) :: l)) with (fpend l) in *. change (fkept ((q, None) :: l)) with (fkept l).
      destruct Gq as (k & Hk & Dk).
      assert (Lt : olt dd ceps = true) by (apply Near; eapply near_old; eassumption). rewrite Lt in H.
      apply bind_ok in H. destruct H as ([g1 ces] & H1 & H). apply split_at_node_ok in H1. destruct H1 as (Hn & H1).
      assert (E1 : edges g1 = edges g /\ ces = []).
      { destruct H1 as [(_ & -> & ->)|(Lj & E & ->)]; [easy|].
        assert (Off : forall e, In e (edges g) -> on_edge (nodes g) j e = false) by (intros e He; apply (old_off g X); auto; [apply I|rewrite (rel_len _ _ R); exact Lj]).
        rewrite E. split; [now apply split_noop|now apply report_nil]. }
      destruct E1 as [E1 ->]. rewrite app_nil_r in H.
      assert (R1 : rel g1 X) by (eapply rel_nodes; eassumption).
      rewrite <- E1 in I. destruct (IH g1 X _ _ g' rn re R1 I Gl H) as (rep & S2 & Er & En & R2 & I2 & C2 & N2). exists rep.
      rewrite E1 in S2, C2. rewrite Hn in N2. auto 10.
Qed.

Lemma follow_unique : forall (all rest : list fitem) i,
  (forall k it x k' it', nth_error rest k = Some it -> snd it = Some x -> nth_error all k' = Some it' -> k' <> (i + k)%nat ->
     close_to (fst it) (fst it') = false) ->
  exists l', unique_loop (map fst all) (map fst rest) i = map fst l' /\ fpend l' = fpend rest /\ incl l' rest.
Proof.
  intros all rest. induction rest as [|[q o] rest IH]; intros i H.
  - exists []. split; [reflexivity|]. split; [reflexivity|easy].
  - destruct (IH (S i)) as (l' & E & P & In').
    { intros k it x k' it' H1 H2 H3 H4. apply (H (S k) it x k' it' H1 H2 H3). lia. }
    cbn [map unique_loop fst]. destruct (has_close_other q i 0 (map fst all)) eqn:Hc; cbn [negb].
    + exists l'. split; [exact E|]. split; [|intros z Hz; right; now apply In'].
      destruct o as [x|]; [|exact P]. exfalso. apply has_close_other_spec in Hc. destruct Hc as (k' & q' & Hq & Nk & Cl).
      destruct (MarginGraph.map_nth_some _ _ _ _ _ _ Hq) as (it' & E' & <-).
      assert (N : close_to q (fst it') = false) by (apply (H 0%nat (q, Some x) x k' it' eq_refl eq_refl E'); lia). congruence.
    + exists ((q, o) :: l'). split; [cbn [map fst]; now rewrite E|]. split.
      * change (somes (o :: map snd l') = somes (o :: map snd rest)). unfold fpend in P. destruct o; cbn [somes flat_map app] in *; unfold somes in P; now rewrite P.
      * intros z [<-|Hz]; [now left|right; now apply In'].
Qed.

(** What the scalars answer when the edge [e] is intersected with the new segment. *)
Definition answers (g : graph) (X : list point) (s d : nat) (e : edge) (o : option point) : Prop :=
  let r := calculate_line_segment_intersection (pos_at (nodes g) (src e)) (pos_at (nodes g) (dst e)) (pos_at (nodes g) s) (pos_at (nodes g) d) in
  match o with
  | Some x => exists q, r = Some q /\ for_ q x
  | None => forall q, r = Some q -> exists k, (k < length X)%nat /\ for_ q (pt X k)
  end.

Section Edge.
Variables (g : graph) (X : list point) (s d : nat).
Local Notation es := (edges g).
Hypothesis R : rel g X.
Hypothesis Sp : spaced dl X es.
Hypothesis Pl : ForallOrdPairs (meet X []) es.
Hypothesis Nsd : s <> d.
Hypothesis NA : ~ adjacent g s d.
Hypothesis Ls : (s < length X)%nat.
Hypothesis Ld : (d < length X)%nat.
Hypothesis Way : forall k, (k < length X)%nat -> k <> s -> k <> d -> off dl (pt X s) (pt X d) (pt X k).
Variable os : list (option point).
Hypothesis Lo : length os = length es.
Hypothesis Sh : forall i e o, nth_error es i = Some e -> nth_error os i = Some o -> shape dl X es s d i e o.
Hypothesis An : forall i e o, nth_error es i = Some e -> nth_error os i = Some o -> answers g X s d e o.

Definition fitems : list fitem := flat_map (fun eo : edge * option point =>
  match calculate_line_segment_intersection (pos_at (nodes g) (src (fst eo))) (pos_at (nodes g) (dst (fst eo))) (pos_at (nodes g) s) (pos_at (nodes g) d) with
  | Some q => [(q, snd eo)] | None => [] end) (combine es os).

Lemma fitems_fst : map fst fitems = crossings g (pos_at (nodes g) s) (pos_at (nodes g) d) es.
Proof.
  unfold fitems. clear Sh An Sp Pl NA. revert Lo. generalize es as l0. generalize os. intros os0 l0. revert os0.
  induction l0 as [|e l IH]; intros [|o os0] E; try discriminate; [reflexivity|].
  injection E as E. specialize (IH os0 E). unfold crossings in *. cbn [combine flat_map fst snd]. rewrite map_app, IH. f_equal.
  destruct (calculate_line_segment_intersection _ _ _ _); reflexivity.
Qed.
Lemma fitems_in : forall it, In it fitems -> exists i e, nth_error es i = Some e /\ nth_error os i = Some (snd it) /\
  calculate_line_segment_intersection (pos_at (nodes g) (src e)) (pos_at (nodes g) (dst e)) (pos_at (nodes g) s) (pos_at (nodes g) d) = Some (fst it).
Proof.
  intros it H. unfold fitems in H. apply in_flat_map in H. destruct H as ([e o] & H1 & H2). cbn [fst snd] in H2.
  apply In_nth_error in H1. destruct H1 as (i & Hi). apply nth_combine in Hi. destruct Hi as [Hi Ho]. exists i, e.
  destruct (calculate_line_segment_intersection _ _ _ _) as [q|]; [|contradiction]. destruct H2 as [<-|[]]. auto.
Qed.
Lemma fitems_good : Forall (fgood X) fitems.
Proof.
  apply Forall_forall. intros it H. destruct (fitems_in it H) as (i & e & Hi & Ho & Hq). pose proof (An i e _ Hi Ho) as A.
  unfold fgood. unfold answers in A. destruct (snd it) as [x|].
  - destruct A as (q & E & Fq). rewrite Hq in E. injection E as ->. exact Fq.
  - exact (A _ Hq).
Qed.
Lemma fitems_pend : fpend fitems = somes os.
Proof.
  unfold fitems, fpend. assert (G : forall l0 os0, length os0 = length l0 -> (forall e o, In (e, o) (combine l0 os0) -> answers g X s d e o) ->
    somes (map snd (flat_map (fun eo : edge * option point =>
      match calculate_line_segment_intersection (pos_at (nodes g) (src (fst eo))) (pos_at (nodes g) (dst (fst eo))) (pos_at (nodes g) s) (pos_at (nodes g) d) with
      | Some q => [(q, snd eo)] | None => [] end) (combine l0 os0))) = somes os0).
  { induction l0 as [|e l IH]; intros [|o os0] E A; try discriminate; [reflexivity|]. injection E as E.
    specialize (IH os0 E (fun e' o' H' => A e' o' (or_intror H'))). specialize (A e o (or_introl eq_refl)). unfold answers in A.
    cbn [combine flat_map fst snd]. rewrite map_app. unfold somes in *. rewrite flat_map_app, IH. cbn [flat_map]. f_equal.
    destruct o as [x|].
    - destruct A as (q & -> & _). reflexivity.
    - destruct (calculate_line_segment_intersection _ _ _ _); reflexivity. }
  apply G; [exact Lo|]. intros e o H. apply In_nth_error in H. destruct H as (i & Hi). apply nth_combine in Hi. destruct Hi as [Hi Ho]. exact (An i e o Hi Ho).
Qed.
Lemma fitems_apart : forall k it x k' it', nth_error fitems k = Some it -> snd it = Some x -> nth_error fitems k' = Some it' -> k' <> k ->
  close_to (fst it) (fst it') = false.
Proof.
  assert (G : ForallOrdPairs (fun it it' : fitem => (exists x, snd it = Some x) \/ (exists x, snd it' = Some x) ->
    close_to (fst it) (fst it') = false /\ close_to (fst it') (fst it) = false) fitems).
  { unfold fitems. apply (pairs_flat_map _ _ (fun a b : edge * option point => exists i j, i <> j /\ nth_error es i = Some (fst a) /\ nth_error os i = Some (snd a) /\
      nth_error es j = Some (fst b) /\ nth_error os j = Some (snd b))).
    - apply pairs_nth; [intros a b (i & j & N & H1 & H2 & H3 & H4); exists j, i; auto 6|]. intros i j [e o] [f o'] N Hi Hj. apply nth_combine in Hi, Hj. exists i, j. tauto.
    - intros [e o] _. cbn [fst snd]. destruct (calculate_line_segment_intersection _ _ _ _); [|constructor]. constructor; constructor.
    - intros [e o] [f o'] it it' _ _ (i & j & N & H1 & H2 & H3 & H4) I1 I2. cbn [fst snd] in *.
      pose proof (An i e o H1 H2) as A1. pose proof (An j f o' H3 H4) as A2. pose proof (Sh i e o H1 H2) as S1. pose proof (Sh j f o' H3 H4) as S2.
      unfold answers in A1, A2.
      destruct (calculate_line_segment_intersection (pos_at (nodes g) (src e)) _ _ _) as [q|]; [|contradiction].
      destruct (calculate_line_segment_intersection (pos_at (nodes g) (src f)) _ _ _) as [q'|]; [|contradiction].
      destruct I1 as [<-|[]], I2 as [<-|[]]. cbn [fst snd].
      assert (Z : forall x z p p', for_ p x -> for_ p' z -> dl <= dist x z -> close_to p p' = false /\ close_to p' p = false).
      { intros x z p p' F1 F2 D. split; [eapply not_close; eassumption|]. eapply not_close; try eassumption. now rewrite dist_sym. }
      intros Hs. destruct o as [x|], o' as [x'|].
      + destruct A1 as (q1 & E1 & F1), A2 as (q2 & E2 & F2). injection E1 as <-. injection E2 as <-. apply (Z x x'); auto.
        destruct S1 as (_ & _ & _ & Oth & _), S2 as (O2 & _). exact (Oth j f (not_eq_sym N) H3 x' O2).
      + destruct A1 as (q1 & E1 & F1). injection E1 as <-. destruct (A2 q' eq_refl) as (k & Hk & F2). apply (Z x (pt X k)); auto.
        destruct S1 as (_ & _ & Far & _). now apply Far.
      + destruct A2 as (q2 & E2 & F2). injection E2 as <-. destruct (A1 q eq_refl) as (k & Hk & F1). apply (Z (pt X k) x'); auto.
        destruct S2 as (_ & _ & Far & _). rewrite dist_sym. now apply Far.
      + exfalso. destruct Hs as [(x & Q)|(x & Q)]; discriminate. }
  intros k it x k' it' H1 H2 H3 N. assert (Sy : forall a b : fitem, ((exists x, snd a = Some x) \/ (exists x, snd b = Some x) -> close_to (fst a) (fst b) = false /\ close_to (fst b) (fst a) = false) ->
     ((exists x, snd b = Some x) \/ (exists x, snd a = Some x) -> close_to (fst b) (fst a) = false /\ close_to (fst a) (fst b) = false)) by (intros a b Q W; destruct Q; [tauto|auto]).
  rewrite (pairs_nth _ Sy) in G. apply (G k k' it it' (not_eq_sym N) H1 H3). left. now exists x.
Qed.

(** The point was computed by the intersection of an edge with the new segment. *)
Definition made (q : Vec2 O) (x : point) : Prop := for_ q x /\ exists i e, nth_error es i = Some e /\ nth_error os i = Some (Some x) /\
  calculate_line_segment_intersection (pos_at (nodes g) (src e)) (pos_at (nodes g) (dst e)) (pos_at (nodes g) s) (pos_at (nodes g) d) = Some q.

Theorem follow_add_edge : forall u g' r, add_edge dT g s d u = Ok (g', r) -> exists rep qs,
  splits X (es ++ [MkEdge s d u DEFAULT_LABEL]) (somes os) (edges g') rep /\
  r = AddOk (seq (length X) (length (somes os))) (match rep with [] => [(length (edges g') - 1)%nat] | _ => rep end) /\
  nodes g' = nodes g ++ map fresh_node qs /\ Forall2 made qs (somes os) /\
  rel g' (X ++ somes os) /\ minv dl (X ++ somes os) (edges g') [] /\
  (forall y, covers (X ++ somes os) (edges g') y <-> covers X es y \/ on_segment (pt X s) (pt X d) y).
Proof.
  intros u g' r H. set (sd := MkEdge s d u DEFAULT_LABEL) in *. pose proof (somes_minv dl X es s d Sp Pl Nsd Ls Ld Way os Lo Sh u) as I. fold sd in I.
  unfold add_edge in H. assert (HB : has_edge_between_nodes g s d = false).
  { destruct (has_edge_between_nodes g s d) eqn:E; [|reflexivity]. apply between_adjacent in E. contradiction. }
  rewrite HB in H. cbn [negb] in H. unfold get_vertex in H. pose proof Ls as Ls'. pose proof Ld as Ld'. rewrite (rel_len _ _ R) in Ls', Ld'.
  destruct (nth_error (nodes g) s) eqn:Es; [|apply nth_error_None in Es; lia].
  destruct (nth_error (nodes g) d) eqn:Ed; [|apply nth_error_None in Ed; lia]. fold sd in H.
  apply bind_ok in H. destruct H as ([g2 [cn ce]] & H1 & H). inversion H; subst g2 r. clear H.
  unfold split_edges_along_edge in H1. apply bind_ok in H1. destruct H1 as (is & Hi & H1). cbn [edges edge_count] in Hi.
  unfold edge_count in Hi. cbn [edges] in Hi. rewrite app_length in Hi. cbn [length] in Hi.
  replace (length (edges g) + 1 - 1)%nat with (length (edges g)) in Hi by lia.
  apply inter_loop in Hi; [|cbn [edges]; rewrite nth_error_app2, Nat.sub_diag by lia; reflexivity|lia].
  change (is = crossings g (pos_at (nodes g) s) (pos_at (nodes g) d) es) in Hi. rewrite <- fitems_fst in Hi. subst is.
  destruct (follow_unique fitems fitems 0) as (l' & El & Pp & Inc); [exact fitems_apart|].
  change (unique_points_among (map fst fitems) = map fst l') in El. rewrite El in H1.
  assert (G' : Forall (fgood X) l').
  { apply Forall_forall. intros it Hit. pose proof fitems_good as G. rewrite Forall_forall in G. apply G. now apply Inc. }
  rewrite fitems_pend in Pp. rewrite <- Pp in I.
  assert (R1 : rel (MkGraph (nodes g) (es ++ [sd])) X) by (eapply rel_nodes; [exact R|reflexivity]).
  destruct (follow_points l' (MkGraph (nodes g) (es ++ [sd])) X _ _ g' _ _ R1 I G' H1) as (rep & S' & Er & En & R' & I' & C' & N').
  cbn [app] in Er, En. subst ce cn. cbn [nodes edges] in *. rewrite Pp in *. exists rep, (fkept l').
  split; [exact S'|]. split; [reflexivity|]. split; [exact N'|]. split; [|split; [exact R'|split; [exact I'|]]].
  - rewrite <- Pp. assert (Md : forall it x, In it l' -> snd it = Some x -> made (fst it) x).
    { intros it x Hit Ex. split.
      - rewrite Forall_forall in G'. specialize (G' it Hit). unfold fgood in G'. now rewrite Ex in G'.
      - destruct (fitems_in it (Inc it Hit)) as (i & e & Hi & Ho & Hq). exists i, e. rewrite <- Ex. auto. }
    clear - Md. induction l' as [|[q [x|]] l IH]; [constructor| |apply IH; intros; apply Md; [now right|assumption]].
    change (Forall2 made (q :: fkept l) (x :: fpend l)). constructor; [apply (Md (q, Some x)); [now left|reflexivity]|].
    apply IH. intros; apply Md; [now right|assumption].
  - intros y. rewrite C'. unfold covers. split.
    + intros (e & He & Oe). apply in_app_or in He. destruct He as [He|[<-|[]]]; [left; eauto|right; exact Oe].
    + intros [(e & He & Oe)|Oy].
      * exists e. split; [apply in_or_app; now left|exact Oe].
      * exists sd. split; [apply in_or_app; right; now left|exact Oy].
Qed.
End Edge.
End Follow.
