(** * Calm histories are tidy, and the order in which f32 draws segments matters only up to
    the drift. *)
From Coq Require Import Reals Lia Lra List Bool Arith Permutation.
From Verif Require Import Scalar Utils Laws Graph ListSpec GraphSpec PlaneSpec PlanarSpec GridSpec GeoSpec GeoRound SimSpec DrawSpec
  GraphAdd GraphAddProps UtilsReal GeoOn GeoSeg GraphPlanar GraphReport GridGraph MarginSpec MarginReal MarginSeg MarginGraph MarginAdd Follow MarginSim Drift MarginDrift SimplePoly Draw.
Import ListNotations.
Local Open Scope R_scope.

Section Exact.
Context {T U : Type} (dT : T).
Local Notation edge := (Edge U).
Local Notation xgraph := (PlanarGraph XO T U).
Variables (M K H dl : R).
Hypothesis Fn : fine M H dl.

Section Way.
Variables (X : list point) (es : list edge) (s d : nat).
Hypothesis Bx : boxed M X.
Hypothesis Sp : spaced dl X es.
Hypothesis Nsd : s <> d.
Hypothesis NA : ~ exists e, In e es /\ joins s d e.
Hypothesis Ls : (s < length X)%nat.
Hypothesis Ld : (d < length X)%nat.
Hypothesis CW : clear_way dl K X es s d.

Lemma way_shape : forall i e, nth_error es i = Some e -> exists o, shape dl X es s d i e o.
Proof.
  intros i e Hi. pose proof (nth_error_In _ _ Hi) as He. destruct (margins M H dl Fn) as (_ & _ & _ & _ & Pd). destruct (proj1 Sp e He) as (Ne & L1 & L2).
  assert (Inj : forall i j, (i < length X)%nat -> (j < length X)%nat -> i <> j -> pt X i <> pt X j).
  { intros a b Ha Hb N E. pose proof (proj1 (proj2 Sp) a b Ha Hb N) as Q. rewrite E, dist_self0 in Q. lra. }
  assert (Share : forall k, touches k e -> k = s \/ k = d -> exists o, shape dl X es s d i e o).
  { intros k Tk Hk. exists None. intros y H1 H2. exists k. split; [exact Tk|]. split; [exact Hk|]. exact (share_apart U X es dl s d Pd Sp Nsd Ls Ld NA (proj1 CW) e k He Tk Hk y H1 H2). }
  destruct (proj2 CW i e Hi) as [Q|[Q|[Q|[[Q _]|[Q|[Q|((W & _) & x & O1 & O2 & Far & Oth)]]]]]].
  - apply (Share s); [now left|now left].
  - apply (Share d); [now left|now right].
  - apply (Share s); [now right|now left].
  - apply (Share d); [now right|now right].
  - exists None. intros y H1 H2. exfalso. exact (beside_apart M H dl Fn _ _ _ _ y (Inj s d Ls Ld Nsd) Q H1 H2).
  - exists None. intros y H1 H2. exfalso. exact (beside_apart M H dl Fn _ _ _ _ y (Inj _ _ L1 L2 Ne) Q H2 H1).
  - exists (Some x). split; [exact O1|]. split; [exact O2|]. split; [exact Far|]. split; [exact Oth|].
    intros y H1 H2. symmetry. eapply segment_intersection_unique; [exact W| | | |]; apply on_segment_line; assumption.
Qed.
Lemma way_general : general_position X es s d.
Proof.
  pose proof (fine_eps M H dl Fn) as El. split.
  - intros k Hk N1 N2. apply (off_not_near M H dl); [exact Fn| |now apply (proj1 CW)].
    apply (box_dist M); try (apply Bx; now apply nth_In).
  - intros i e x Hi O1 O2 Ns Nd. destruct (way_shape i e Hi) as ([x0|] & Sh).
    + destruct Sh as (_ & _ & Far & Oth & Un). rewrite (Un x O1 O2) in *. split; [intros k Hk; pose proof (Far k Hk); lra|].
      intros j f N Hj. pose proof (Oth j f N Hj) as Of. split.
      * destruct (proj1 Sp f (nth_error_In _ _ Hj)) as (_ & L1 & L2). apply (off_not_near M H dl); [exact Fn| |exact Of]. apply (box_dist M); try (apply Bx; now apply nth_In).
      * intros y Y1 _. pose proof (Of y Y1). lra.
    + exfalso. destruct (Sh x O1 O2) as (k & _ & [-> | ->] & E); contradiction.
Qed.
(** What the exact program makes of it. *)
Lemma exact_edge : forall (gx g1 : xgraph) u r, drawn gx X -> edges gx = es -> planar_drawing (pt X) (length X) es -> add_edge dT gx s d u = Ok (g1, r) ->
  exists xs rep, drawn g1 (X ++ xs) /\ splits X (es ++ [MkEdge s d u DEFAULT_LABEL]) xs (edges g1) rep /\
    planar_drawing (pt (X ++ xs)) (length (X ++ xs)) (edges g1).
Proof.
  intros gx g1 u r D Ee Pl Ha. destruct (choose_list _ _ (shape dl X es s d) es way_shape) as (os & Lo & Sh).
  assert (Pr : ForallOrdPairs (meet X []) (edges gx)).
  { rewrite Ee. apply (pairs_nth _ (meet_sym X [])). intros i j e f N Hi Hj x H1 H2. left. exact (proj2 Pl i j e f x N Hi Hj H1 H2). }
  pose proof Sp as Sp'. pose proof NA as NA'. rewrite <- Ee in Sp', Sh, NA', Lo.
  assert (RX : relX M gx X) by (split; assumption).
  assert (AnX : forall i e o, nth_error (edges gx) i = Some e -> nth_error os i = Some o -> answers (forX M) gx X s d e o).
  { intros i e o Hi Ho. exact (X_answers M H dl Fn gx X s d i e o RX Sp' Nsd Ls Ld Hi (Sh i e o Hi Ho)). }
  destruct (follow_add_edge XO_laws dT M H dl Fn (relX M) (forX M) (X_len M) (X_box M) (X_nodes M) (X_new M) (X_near M) (X_far M H dl Fn) (X_off M H dl Fn) (X_on M H dl Fn) (X_close M H dl Fn)
    gx X s d RX Sp' Pr Nsd NA' Ls Ld (proj1 CW) _ Lo Sh AnX u g1 r Ha) as (rep & qx & S2 & _ & N2 & Q2 & R2 & I2 & _).
  exists (somes os), rep. rewrite Ee in S2. split; [exact (proj1 R2)|]. split; [exact S2|].
  exact (proj2 (proj2 (proj2 (inv_planar _ _ (minv_inv M H dl Fn _ _ _ (proj2 R2) I2))))).
Qed.
End Way.

(** Pieces lie on what they are pieces of. *)
Lemma pt_left : forall (X Y : list point) i, (i < length X)%nat -> pt (X ++ Y) i = pt X i.
Proof. intros X Y i Hi. unfold pt. now apply app_nth1. Qed.
Lemma pt_mid : forall (X Y : list point) x, pt (X ++ x :: Y) (length X) = x.
Proof. intros X Y x. unfold pt. rewrite app_nth2 by lia. now rewrite Nat.sub_diag. Qed.
Lemma splits_sub : forall X (es : list edge) xs es' rep, splits X es xs es' rep ->
  (forall e, In e es -> (src e < length X)%nat /\ (dst e < length X)%nat) ->
  forall e', In e' es' -> exists e, In e es /\ forall y, edge_on (X ++ xs) e' y -> edge_on X e y.
Proof.
  intros X es xs es' rep S. induction S as [X es|X es x pd on es' rep On S IH]; intros V e' He'.
  - exists e'. split; [exact He'|]. rewrite app_nil_r. auto.
  - assert (V' : forall e, In e (split_edges on (length X) es) -> (src e < length (X ++ [x]))%nat /\ (dst e < length (X ++ [x]))%nat).
    { intros e He. rewrite app_length. cbn [length]. unfold split_edges in He. apply in_app_or in He. destruct He as [He|He].
      - apply in_map_iff in He. destruct He as (e0 & <- & He). destruct (V e0 He). destruct (on e0); cbn; lia.
      - apply in_map_iff in He. destruct He as (e0 & <- & He). apply filter_In in He. destruct (V e0 (proj1 He)). cbn; lia. }
    destruct (IH V' e' He') as (e1 & He1 & Sub). rewrite <- app_assoc in Sub. cbn [app] in Sub.
    assert (Half : forall e0, In e0 es -> on e0 = true -> forall y, on_segment (pt X (src e0)) x y \/ on_segment (pt X (dst e0)) x y -> edge_on X e0 y).
    { intros e0 He0 Oe y Hy. pose proof (proj1 (On e0 He0) Oe) as Ox. unfold edge_on in *. destruct Hy as [Hy|Hy]; [exact (on_seg_sub _ _ _ _ Ox Hy)|].
      apply on_sym. apply on_sym in Ox. exact (on_seg_sub _ _ _ _ Ox Hy). }
    unfold split_edges in He1. apply in_app_or in He1. destruct He1 as [He1|He1]; apply in_map_iff in He1; destruct He1 as (e0 & E & He0).
    + destruct (V e0 He0) as [V1 V2]. destruct (on e0) eqn:Oe; subst e1; exists e0; (split; [exact He0|]); intros y Hy; apply Sub in Hy; unfold edge_on in Hy; cbn [half1 src dst] in Hy.
      * rewrite pt_left, pt_mid in Hy by exact V1. apply (Half e0 He0 Oe). now left.
      * rewrite !pt_left in Hy by assumption. exact Hy.
    + apply filter_In in He0. destruct He0 as [He0 Oe]. destruct (V e0 He0) as [V1 V2]. subst e1. exists e0. split; [exact He0|]. intros y Hy. apply Sub in Hy. unfold edge_on in Hy. cbn [half2 src dst] in Hy.
      rewrite pt_left, pt_mid in Hy by exact V2. apply (Half e0 He0 Oe). now right.
Qed.
(** Two nodes that are not joined stay so, unless they are joined by the new segment. *)
Lemma stay_apart : forall X (es : list edge) s d u xs es' rep s' d', spaced dl X es -> (s < length X)%nat -> (d < length X)%nat -> s <> d ->
  (forall k, (k < length X)%nat -> k <> s -> k <> d -> off dl (pt X s) (pt X d) (pt X k)) ->
  splits X (es ++ [MkEdge s d u DEFAULT_LABEL]) xs es' rep -> (s' < length X)%nat -> (d' < length X)%nat -> s' <> d' ->
  (~ exists e, In e es /\ joins s' d' e) -> ~ joins s' d' (MkEdge s d u DEFAULT_LABEL) -> ~ exists e, In e es' /\ joins s' d' e.
Proof.
  intros X es s d u xs es' rep s' d' Sp Ls Ld Nsd Way S Ls' Ld' N' NA NJ (e' & He' & J). destruct (margins M H dl Fn) as (_ & _ & _ & _ & Pd).
  destruct (splits_sub _ _ _ _ _ S) with (e' := e') as (e & He & Sub); [|exact He'|].
  { intros e He. apply in_app_or in He. destruct He as [He|[<-|[]]]; [|now split]. destruct (proj1 Sp e He) as (_ & L1 & L2). auto. }
  assert (Ends : edge_on X e (pt X s') /\ edge_on X e (pt X d')).
  { assert (E0 : forall a b, on_segment a b a) by (intros; apply on_left).
    assert (E1 : forall a b, on_segment a b b) by (intros a b; apply on_sym, E0).
    rewrite <- (pt_left X xs s' Ls'), <- (pt_left X xs d' Ld'). unfold edge_on in Sub. split; apply Sub; destruct J as [[-> ->]|[-> ->]]; auto. }
  destruct Ends as [O1 O2].
  assert (On : forall k, (k < length X)%nat -> edge_on X e (pt X k) -> touches k e).
  { intros k Lk Ok. unfold touches. destruct (Nat.eq_dec (src e) k) as [E|E1]; [now left|]. destruct (Nat.eq_dec (dst e) k) as [E|E2]; [now right|]. exfalso.
    assert (Q : dl <= dist (pt X k) (pt X k)); [|rewrite dist_self0 in Q; lra]. apply in_app_or in He. destruct He as [He|[<-|[]]].
    - apply (proj2 (proj2 Sp) k e Lk He); [|exact Ok]. intros [Q|Q]; contradiction.
    - cbn [src dst] in *. apply (Way k Lk); [intros Q; apply E1; now symmetry|intros Q; apply E2; now symmetry|exact Ok]. }
  assert (Je : joins s' d' e).
  { destruct (On s' Ls' O1) as [A|A], (On d' Ld' O2) as [B|B]; unfold joins; try (exfalso; congruence); auto. }
  apply in_app_or in He. destruct He as [He|[<-|[]]]; [apply NA; exists e; split; assumption|exact (NJ Je)].
Qed.
End Exact.

Lemma differ_sym : forall c c', differ c c' -> differ c' c.
Proof. unfold differ. intros c c' H [[A B]|[A B]]; apply H; [left|right]; split; congruence. Qed.
Lemma differ_perm : forall l l', Permutation l l' -> ForallOrdPairs differ l -> ForallOrdPairs differ l'.
Proof.
  intros l l' P. induction P as [|x l l' P IH|x y l|l l' l'' P1 IH1 P2 IH2]; intros H; [constructor| | |auto].
  - inversion H as [|? ? H1 H2]; subst. constructor; [|now apply IH]. rewrite Forall_forall in *. intros z Hz. apply H1. now apply (Permutation_in _ (Permutation_sym P)).
  - inversion H as [|? ? H1 H2]; subst. inversion H2 as [|? ? H3 H4]; subst. inversion H1 as [|? ? H5 H6]; subst.
    constructor; [constructor; [now apply differ_sym|exact H3]|constructor; assumption].
Qed.

Section Order.
Context {lm : Libm} {T U : Type} (dT : T).
Local Notation F := (FO lm).
Local Notation xgraph := (PlanarGraph XO T U).
Variables (M K dl H : R) (G : nat).
Hypothesis St : steady M K dl H G.
Let Fn : fine M H dl := steady_fine M K dl H G St.

Lemma calm_box : forall X, (forall p, In p X -> within (M - slip M H) p) -> boxed M X.
Proof. intros X B p Hp. destruct (B p Hp) as [B1 B2]. destruct (margins M H dl Fn) as (H0 & _). lra. Qed.
Lemma calm_well : forall X (es : list (Edge U)), (forall p, In p X -> within (M - slip M H) p) -> spaced dl X es -> planar_drawing (pt X) (length X) es -> well_drawn X es.
Proof.
  intros X es B Sp Pl. pose proof Sp as (V & A & C). pose proof (fine_eps M H dl Fn) as E.
  split; [exact V|]. split; [intros i j Hi Hj N; pose proof (A i j Hi Hj N); lra|]. split; [exact (spaced_clear M H dl Fn X es (calm_box X B) Sp)|exact Pl].
Qed.

Lemma calm_draws : forall depth l (gx : xgraph) X, drawn gx X -> planar_drawing (pt X) (length X) (edges gx) ->
  (forall c, In c (map fst l) -> fst c <> snd c /\ (fst c < length X)%nat /\ (snd c < length X)%nat /\ ~ adjacent gx (fst c) (snd c)) ->
  ForallOrdPairs differ (map fst l) -> calm (lm := lm) dT M K dl H G depth gx (adds l) ->
  exists g' a, calls dT gx (map exact_op (adds (O := F) l)) = Ok (g', a) /\ draws dT gx l g'.
Proof.
  intros depth l. induction l as [|[[s d] u] l IH]; intros gx X D Pl Ok Df C.
  { exists gx, []. split; [reflexivity|constructor]. }
  cbn [adds map] in C. cbn [calm fst snd] in C. destruct C as ((X' & D' & Bx & Sp & Co) & Next). rewrite (drawn_fun gx X X' D D') in *. clear X D. rename X' into X.
  destruct (Ok (s, d) (or_introl eq_refl)) as (Nsd & Ls & Ld & NA). cbn [fst snd] in Nsd, Ls, Ld, NA.
  cbn [calm_op] in Co. destruct Co as (_ & [Q|[Q|[CW _]]]); [exfalso; apply NA; exact Q|exfalso; apply Q; split; assumption|].
  destruct (add_edge_total dT gx s d u) as ([g1 r] & Ha).
  { intros e He. rewrite (drawn_length _ _ D'). destruct (proj1 Sp e He) as (_ & L1 & L2). auto. }
  destruct (exact_edge dT M K H dl Fn X (edges gx) s d (calm_box X Bx) Sp Nsd NA Ls Ld CW gx g1 u r D' eq_refl Pl Ha) as (xs & rep & D1 & S1 & P1).
  inversion Df as [|? ? Df1 Df2]; subst. rewrite Forall_forall in Df1. cbn [fst map] in Df1, Df2.
  destruct (IH g1 (X ++ xs) D1 P1) as (g' & a & Hc & Dr); [|exact Df2| |].
  - intros c Hc. destruct (Ok c (or_intror Hc)) as (N' & Ls' & Ld' & NA'). rewrite app_length. split; [exact N'|]. split; [lia|]. split; [lia|].
    unfold adjacent in *. apply (stay_apart M H dl Fn X (edges gx) s d u xs (edges g1) rep (fst c) (snd c) Sp Ls Ld Nsd (proj1 CW) S1 Ls' Ld' N' NA').
    pose proof (Df1 c Hc) as Q. unfold differ in Q. unfold joins. cbn [src dst fst snd] in *. intros [[A B]|[A B]]; apply Q; [left|right]; split; congruence.
  - apply Next. cbn [step exact_op]. now rewrite Ha.
  - exists g', (EdgeDone r :: a). split; [cbn [adds map fst snd exact_op calls call]; rewrite Ha; cbn [bind]; unfold adds in Hc; rewrite Hc; reflexivity|].
    econstructor; [exact D'|exact Nsd|exact NA| |exact Ha|exact Dr]. exact (way_general M K H dl Fn X (edges gx) s d (calm_box X Bx) Sp Nsd NA Ls Ld CW).
Qed.

(** Calm histories are tidy for the exact program. *)
Lemma calm_tidy : forall depth os (gx : xgraph) X, drawn gx X -> planar_drawing (pt X) (length X) (edges gx) ->
  calm (lm := lm) dT M K dl H G depth gx os -> tidy dT gx (map exact_op os).
Proof.
  intros depth os. induction os as [|o os IH]; intros gx X D Pl C; [exact I|]. cbn [calm map tidy] in *.
  destruct C as ((X' & D' & Bx & Sp & Co) & Next). rewrite (drawn_fun gx X X' D D') in *. clear X D. rename X' into X.
  pose proof (calm_well X (edges gx) Bx Sp Pl) as W. pose proof (calm_box X Bx) as Bm.
  assert (Td : tidy_op gx (exact_op o)).
  { destruct o as [p dat|s d u|i|i]; cbn [exact_op tidy_op]; try exact I.
    - exists X, (real_point p). split; [exact D'|]. split; [reflexivity|]. destruct Co as (_ & [(k & Lk & Q)|(B & Lo)]).
      + left. exists k. split; [exact Lk|]. destruct (margins M H dl Fn) as (H0 & H1 & _). pose proof eps32_pos. pose proof u_pos.
        assert (0 <= eps32 * (4 * u32)) by (apply Rmult_le_pos; lra). lra.
      + right. exact (lone_fresh M H dl Fn X (edges gx) (real_point p) Bm Sp Lo).
    - destruct Co as (Nsd & Co). split; [exact Nsd|]. rewrite (drawn_length _ _ D'). destruct Co as [Q|[Q|[CW _]]]; [now left|right; now left|].
      destruct (has_edge_between_nodes gx s d) eqn:Q; [left; now apply between_adjacent|].
      assert (NA : ~ adjacent gx s d) by (intros Z; apply between_adjacent in Z; congruence). clear Q. right.
      destruct (Nat.lt_ge_cases s (length X)) as [Ls|Ls]; [|left; lia]. destruct (Nat.lt_ge_cases d (length X)) as [Ld|Ld]; [|left; lia].
      right. exists X. split; [exact D'|]. exact (way_general M K H dl Fn X (edges gx) s d Bm Sp Nsd NA Ls Ld CW). }
  split; [exact Td|]. intros g' Hs. destruct (step_planar dT _ _ _ _ D' W Td Hs) as (ps' & D1 & W1).
  apply (IH g' ps' D1); [apply W1|]. exact (Next g' Hs).
Qed.

(** Two f32 runs next to the exact one. *)
Lemma twin_at : forall depth (g : PlanarGraph F T U) (gx : xgraph) X, twin (drifted M K G depth) g gx -> drawn gx X ->
  length (places g) = length X /\ forall k, dist (pt (places g) k) (pt X k) <= drift M K G.
Proof.
  intros depth g gx X W D. pose proof (Forall2_len _ _ _ _ _ (proj2 W)) as L. pose proof (drawn_length _ _ D) as Lx.
  assert (Lp : length (places g) = length X) by (rewrite place_len; lia). split; [exact Lp|]. intros k.
  destruct (nth_error (nodes g) k) as [n|] eqn:E.
  - rewrite place_pos. unfold pos_at. rewrite E. destruct (track lm M K G depth g gx X k n (proj2 W) D E) as (_ & _ & Dn). eapply Rle_trans; [exact Dn|]. apply (drift_mono M K dl H G St). lia.
  - apply nth_error_None in E. unfold pt. rewrite !nth_overflow by (rewrite ?Lp; lia). rewrite dist_self0. apply (drift_pos M K dl H G St).
Qed.
Lemma same_alike : forall depth1 depth2 (g1 g2 : PlanarGraph F T U) (x1 x2 : xgraph) X1 X2, twin (drifted M K G depth1) g1 x1 -> twin (drifted M K G depth2) g2 x2 ->
  drawn x1 X1 -> drawn x2 X2 -> same_drawing X1 (edges x1) X2 (edges x2) -> alike (2 * drift M K G) g1 g2.
Proof.
  intros depth1 depth2 g1 g2 x1 x2 X1 X2 W1 W2 D1 D2 (S1 & S2 & S3 & S4 & S5).
  destruct (twin_at depth1 g1 x1 X1 W1 D1) as [L1 C1]. destruct (twin_at depth2 g2 x2 X2 W2 D2) as [L2 C2].
  assert (Z : forall i j, pt X1 i = pt X2 j -> dist (pt (places g1) i) (pt (places g2) j) <= 2 * drift M K G).
  { intros i j E. pose proof (C1 i) as A. pose proof (C2 j) as B. rewrite E in A. pose proof (triangle (pt (places g1) i) (pt X2 j) (pt (places g2) j)) as Tr.
    rewrite (dist_sym (pt X2 j)) in Tr. lra. }
  assert (Nd : forall p l, In p l -> exists k, (k < length l)%nat /\ pt l k = p) by (intros p l Hp; exact (In_nth l p (P2 0 0) Hp)).
  unfold alike. rewrite (proj1 W1), (proj1 W2), <- !place_len. split; [lia|]. split; [exact S3|]. split; [|split; [|split]].
  - intros p Hp. destruct (Nd p _ Hp) as (k & Lk & <-). rewrite L1 in Lk. assert (Q : In (pt X1 k) X2) by (apply S1, nth_In, Lk).
    destruct (Nd _ _ Q) as (j & Lj & Ej). exists (pt (places g2) j). split; [apply nth_In; lia|]. apply Z. now symmetry.
  - intros q Hq. destruct (Nd q _ Hq) as (k & Lk & <-). rewrite L2 in Lk. assert (Q : In (pt X2 k) X1) by (apply S1, nth_In, Lk).
    destruct (Nd _ _ Q) as (j & Lj & Ej). exists (pt (places g1) j). split; [apply nth_In; lia|]. now apply Z.
  - intros e He. destruct (S4 e He) as (f & Hf & [[E1 E2]|[E1 E2]]); exists f; (split; [exact Hf|]); [left|right]; split; now apply Z.
  - intros f Hf. destruct (S5 f Hf) as (e & He & [[E1 E2]|[E1 E2]]); exists e; (split; [exact He|]); [left|right]; split; now apply Z.
Qed.
Theorem order_f32 : forall depth1 depth2 (g : PlanarGraph F T U) l1 l2, (forall n, In n (nodes g) -> pfin (position n)) -> planar_f32 g ->
  Permutation (map fst l1) (map fst l2) -> ForallOrdPairs differ (map fst l1) ->
  (forall c, In c (map fst l1) -> fst c <> snd c /\ (fst c < length (nodes g))%nat /\ (snd c < length (nodes g))%nat /\ ~ adjacent g (fst c) (snd c)) ->
  calm (lm := lm) dT M K dl H G depth1 (exact_graph g) (adds l1) -> calm (lm := lm) dT M K dl H G depth2 (exact_graph g) (adds l2) ->
  exists g1 a1 g2 a2, calls dT g (adds l1) = Ok (g1, a1) /\ calls dT g (adds l2) = Ok (g2, a2) /\ alike (2 * drift M K G) g1 g2.
Proof.
  intros depth1 depth2 g l1 l2 Fin Pl P Df Ok C1 C2. pose proof (proj1 (planar_places lm g) Pl) as Pp.
  assert (Ok1 : forall c, In c (map fst l1) -> fst c <> snd c /\ (fst c < length (places g))%nat /\ (snd c < length (places g))%nat /\ ~ adjacent (exact_graph g) (fst c) (snd c)).
  { intros c Hc. rewrite place_len. exact (Ok c Hc). }
  assert (Ok2 : forall c, In c (map fst l2) -> fst c <> snd c /\ (fst c < length (places g))%nat /\ (snd c < length (places g))%nat /\ ~ adjacent (exact_graph g) (fst c) (snd c)).
  { intros c Hc. apply Ok1. now apply (Permutation_in c (Permutation_sym P)). }
  destruct (calm_draws depth1 l1 (exact_graph g) (places g) (exact_drawn lm g) Pp Ok1 Df C1) as (x1 & a1 & X1 & R1).
  destruct (calm_draws depth2 l2 (exact_graph g) (places g) (exact_drawn lm g) Pp Ok2 (differ_perm _ _ P Df) C2) as (x2 & a2 & X2 & R2).
  pose proof (drift_histories lm dT M K dl H G depth1 St (adds l1) g Fin Pl C1) as A1. pose proof (drift_histories lm dT M K dl H G depth2 St (adds l2) g Fin Pl C2) as A2.
  rewrite X1 in A1. rewrite X2 in A2. destruct (calls dT g (adds l1)) as [[g1 b1]|]; [|destruct A1]. destruct (calls dT g (adds l2)) as [[g2 b2]|]; [|destruct A2].
  cbn [agree] in A1, A2. exists g1, b1, g2, b2. split; [reflexivity|]. split; [reflexivity|].
  destruct l1 as [|c1 l1].
  - cbn [map] in P. apply Permutation_nil in P. destruct l2; [|discriminate]. inversion R1; subst. inversion R2; subst.
    apply (same_alike depth1 depth2 g1 g2 (exact_graph g) (exact_graph g) (places g) (places g) (proj2 A1) (proj2 A2) (exact_drawn lm g) (exact_drawn lm g)).
    split; [reflexivity|]. split; [reflexivity|]. split; [reflexivity|]. split; intros e He; exists e; (split; [exact He|]); left; split; reflexivity.
  - assert (W : well_drawn (places g) (edges (exact_graph g))).
    { cbn [adds map calm] in C1. destruct C1 as ((X & D & Bx & Sp & _) & _). rewrite (drawn_fun _ _ _ D (exact_drawn lm g)) in *. exact (calm_well (places g) _ Bx Sp Pp). }
    destruct (draws_order dT (exact_graph g) x1 x2 (places g) (c1 :: l1) l2 (exact_drawn lm g) W P) as (P1 & P2 & D1 & D2 & S); [|exact R1|exact R2|].
    { intros c Hc. destruct (Ok1 c Hc) as (_ & Q1 & Q2 & _). split; assumption. }
    exact (same_alike depth1 depth2 g1 g2 x1 x2 P1 P2 (proj2 A1) (proj2 A2) D1 D2 S).
Qed.
End Order.
