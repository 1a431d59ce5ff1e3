(** * Additions in a different order, with edges that may run through nodes. *)
From Coq Require Import Reals Lia Lra List Bool Arith Permutation ZArith Classical.
From Flocq Require Import Core.Core IEEE754.BinarySingleNaN.
From Verif Require Import Scalar Utils Polygon Laws Graph GraphSpec PlaneSpec PlanarSpec GridSpec
  GraphAdd GraphAddProps GraphRemove GraphHistory UtilsReal F32 UtilsF32 PolyF32 PolyNewF32 GraphPlanar GraphSim GridUtils GridSeg GridPrim GridOn
  GridGraph ThroughSpec Through GridThroughSpec GridThrough DrawSpec Draw AnyOrderSpec AnyOrder LooseSpec Loose GridLooseSpec GridLoose LooseOrderSpec.
Import ListNotations.
Local Open Scope R_scope.

(** ** Cutting all edges at the nodes they run through *)
Lemma fop_perm : forall A (R : A -> A -> Prop), (forall x y, R x y -> R y x) ->
  forall l l', Permutation l l' -> ForallOrdPairs R l -> ForallOrdPairs R l'.
Proof.
  intros A R Sy l l' P. induction P as [|x l l' P IH|x y l|l l' l'' _ IH1 _ IH2]; intros H; auto.
  - inversion H; subst. constructor; [now apply (Permutation_Forall P)|auto].
  - inversion H as [|? ? F1 H1]; subst. inversion H1 as [|? ? F2 H2]; subst. inversion F1; subst.
    constructor; [constructor; auto|]. constructor; assumption.
Qed.

Section Cut.
Context {U : Type} (ps : list point).
Hypothesis ND : NoDup ps.
Local Notation edge := (Edge U).
Definition stored (e : edge) : Prop := src e <> dst e /\ (src e < length ps)%nat /\ (dst e < length ps)%nat.
Definition node_meet (e f : edge) : Prop :=
  forall x, edge_on ps e x -> edge_on ps f x -> exists k, (k < length ps)%nat /\ x = pt ps k.
Lemma node_meet_sym : forall e f, node_meet e f -> node_meet f e.
Proof. intros e f H x H1 H2. exact (H x H2 H1). Qed.

Lemma chain : forall n (e : edge) rest, runs_through ps e n -> stored e -> ForallOrdPairs node_meet (e :: rest) ->
  exists fs, length fs = S n /\ (forall f, In f fs -> stored f /\ forall k, (k < length ps)%nat -> ~ crosses_node ps k f) /\
    (forall x, covers ps fs x <-> edge_on ps e x) /\ ForallOrdPairs node_meet (fs ++ rest).
Proof.
  induction n as [n IH] using lt_wf_ind. intros e rest (l & Nl & Ll & Hl) V M. destruct l as [|k l].
  - exists [e]. cbn in Ll. subst n. split; [reflexivity|]. split; [|split; [|exact M]].
    + intros f [<-|[]]. split; [exact V|]. intros k Lk C. apply (Hl k). auto.
    + intros x. split; [intros (f & [<-|[]] & O); exact O|]. intros O. exists e. split; [now left|exact O].
  - destruct (proj1 (Hl k) (or_introl eq_refl)) as (Lk & Tk & (t & Ht & Ek)). destruct V as (Ne & L1 & L2).
    set (a := pt ps (src e)) in *. set (b := pt ps (dst e)) in *.
    assert (Nab : a <> b) by (intros E; apply Ne; now apply (pt_inj ps)).
    assert (T0 : t <> 0).
    { intros ->. apply Tk. left. apply (pt_inj ps); auto. fold a. rewrite Ek. now rewrite along_0. }
    assert (T1 : t <> 1).
    { intros ->. apply Tk. right. apply (pt_inj ps); auto. fold b. rewrite Ek. now rewrite along_1. }
    set (e1 := MkEdge (src e) k (edata e) (elabel e)). set (e2 := MkEdge k (dst e) (edata e) (elabel e)).
    assert (On1 : forall z, edge_on ps e1 (along a b z) <-> 0 <= z <= t).
    { intros z. unfold edge_on. cbn [e1 src dst]. fold a. rewrite Ek. split.
      - intros (w & Hw & E). assert (Q : along a b z = along a b (w * t)).
        { rewrite E. transitivity (along (along a b 0) (along a b t) w); [now rewrite along_0|]. rewrite along_along. f_equal. ring. }
        apply along_inj in Q; [|exact Nab]. rewrite Q. split; [apply Rmult_le_pos; lra|]. assert (w * t <= 1 * t) by (apply Rmult_le_compat_r; lra). lra.
      - intros Hz. exists (z / t). split.
        + split; [apply Rmult_le_pos; [lra|apply Rlt_le, Rinv_0_lt_compat; lra]|]. apply (Rmult_le_reg_r t); [lra|]. unfold Rdiv. rewrite Rmult_assoc, Rinv_l by lra. lra.
        + transitivity (along (along a b 0) (along a b t) (z / t)); [|now rewrite along_0]. rewrite along_along. f_equal. field. lra. }
    assert (On2 : forall z, edge_on ps e2 (along a b z) <-> t <= z <= 1).
    { intros z. unfold edge_on. cbn [e2 src dst]. fold b. rewrite Ek. split.
      - intros (w & Hw & E). assert (Q : along a b z = along a b (t + w * (1 - t))).
        { rewrite E. transitivity (along (along a b t) (along a b 1) w); [now rewrite along_1|]. now rewrite along_along. }
        apply along_inj in Q; [|exact Nab]. rewrite Q. assert (0 <= w * (1 - t)) by (apply Rmult_le_pos; lra). assert (w * (1 - t) <= 1 * (1 - t)) by (apply Rmult_le_compat_r; lra). lra.
      - intros Hz. exists ((z - t) / (1 - t)). split.
        + split; [apply Rmult_le_pos; [lra|apply Rlt_le, Rinv_0_lt_compat; lra]|]. apply (Rmult_le_reg_r (1 - t)); [lra|]. unfold Rdiv. rewrite Rmult_assoc, Rinv_l by lra. lra.
        + transitivity (along (along a b t) (along a b 1) ((z - t) / (1 - t))); [|now rewrite along_1]. rewrite along_along. f_equal. field. lra. }
    assert (Sub1 : forall x, edge_on ps e1 x -> exists z, 0 <= z <= t /\ x = along a b z).
    { intros x (w & Hw & E). cbn [e1 src dst] in E. fold a in E. rewrite Ek in E.
      assert (Q : x = along a b (w * t)).
      { rewrite E. transitivity (along (along a b 0) (along a b t) w); [now rewrite along_0|]. rewrite along_along. f_equal. ring. }
      exists (w * t). split; [|exact Q]. split; [apply Rmult_le_pos; lra|]. assert (w * t <= 1 * t) by (apply Rmult_le_compat_r; lra). lra. }
    assert (Sub2 : forall x, edge_on ps e2 x -> exists z, t <= z <= 1 /\ x = along a b z).
    { intros x (w & Hw & E). cbn [e2 src dst] in E. fold b in E. rewrite Ek in E.
      assert (Q : x = along a b (t + w * (1 - t))).
      { rewrite E. transitivity (along (along a b t) (along a b 1) w); [now rewrite along_1|]. now rewrite along_along. }
      exists (t + w * (1 - t)). split; [|exact Q]. assert (0 <= w * (1 - t)) by (apply Rmult_le_pos; lra). assert (w * (1 - t) <= 1 * (1 - t)) by (apply Rmult_le_compat_r; lra). lra. }
    assert (On : forall x, edge_on ps e x <-> edge_on ps e1 x \/ edge_on ps e2 x).
    { intros x. split.
      - intros (z & Hz & E). fold a b in E. subst x. rewrite On1, On2. destruct (Rle_dec z t); [left|right]; lra.
      - intros [O|O]; [apply Sub1 in O|apply Sub2 in O]; destruct O as (z & Hz & ->); exists z; (split; [lra|reflexivity]). }
    assert (Both : forall x, edge_on ps e1 x -> edge_on ps e2 x -> x = pt ps k).
    { intros x O1 O2. apply Sub1 in O1. destruct O1 as (z & Hz & ->). apply On2 in O2. rewrite Ek. f_equal. lra. }
    assert (Stored1 : stored e1) by (split; [cbn; intros E; apply Tk; now left|split; [exact L1|exact Lk]]).
    assert (Stored2 : stored e2) by (split; [cbn; intros E; apply Tk; right; now rewrite E|split; [exact Lk|exact L2]]).
    apply NoDup_cons_iff in Nl. destruct Nl as [Nk Nl].
    (* the nodes on the first half come before k *)
    set (dot := fun x : point => (vx x - vx a) * (vx b - vx a) + (vy x - vy a) * (vy b - vy a)).
    set (before := fun j => if Rle_dec (dot (pt ps j)) (dot (pt ps k)) then true else false).
    assert (Dz : forall z, dot (along a b z) = z * ((vx b - vx a) * (vx b - vx a) + (vy b - vy a) * (vy b - vy a))).
    { intros z. unfold dot, along. cbn [vx vy]. ring. }
    assert (DP : 0 < (vx b - vx a) * (vx b - vx a) + (vy b - vy a) * (vy b - vy a)).
    { destruct (Req_dec (vx b - vx a) 0) as [Z1|Z1]; [destruct (Req_dec (vy b - vy a) 0) as [Z2|Z2]|].
      - exfalso. apply Nab. clearbody a b. clear - Z1 Z2. destruct a as [ax ay], b as [bx by_]. cbn [vx vy] in *. f_equal; lra.
      - apply Rplus_le_lt_0_compat; [apply Rle_0_sqr|now apply Rsqr_pos_lt].
      - apply Rplus_lt_le_0_compat; [now apply Rsqr_pos_lt|apply Rle_0_sqr]. }
    assert (Bf : forall j z, pt ps j = along a b z -> (before j = true <-> z <= t)).
    { intros j z Ej. unfold before. rewrite Ej, Ek, !Dz. destruct (Rle_dec _ _) as [Q|Q].
      - split; [|auto]. intros _. apply Rmult_le_reg_r in Q; [exact Q|exact DP].
      - split; [discriminate|]. intros W. exfalso. apply Q. apply Rmult_le_compat_r; lra. }
    assert (C1 : runs_through ps e1 (length (filter before l))).
    { exists (filter before l). split; [now apply NoDup_filter|]. split; [reflexivity|]. intros j. rewrite filter_In. split.
      - intros (Hj & B). destruct (proj1 (Hl j) (or_intror Hj)) as (Lj & Tj & Oj). split; [exact Lj|].
        destruct Oj as (z & Hz & Ej). fold a b in Ej. split.
        + intros [Q|Q]; cbn in Q; [apply Tj; now left|subst j; contradiction].
        + unfold edge_on. rewrite Ej. apply On1. apply (Bf j z Ej) in B. lra.
      - intros (Lj & Tj & Oj). assert (Njk : j <> k) by (intros ->; apply Tj; now right).
        destruct (Sub1 _ Oj) as (z & Hz & Ej). assert (Hj : In j (k :: l)).
        { apply Hl. split; [exact Lj|]. split; [|apply On; now left]. intros [Q|Q]; [apply Tj; now left|].
          apply T1. assert (z = 1); [|lra]. apply (along_inj1 a b); [exact Nab|]. rewrite <- Ej. rewrite <- Q. reflexivity. }
        destruct Hj as [Q|Hj]; [congruence|]. split; [exact Hj|]. apply (Bf j z Ej). lra. }
    assert (C2 : runs_through ps e2 (length (filter (fun j => negb (before j)) l))).
    { exists (filter (fun j => negb (before j)) l). split; [now apply NoDup_filter|]. split; [reflexivity|]. intros j. rewrite filter_In, negb_true_iff. split.
      - intros (Hj & B). destruct (proj1 (Hl j) (or_intror Hj)) as (Lj & Tj & Oj). split; [exact Lj|].
        destruct Oj as (z & Hz & Ej). fold a b in Ej. split.
        + intros [Q|Q]; cbn in Q; [subst j; contradiction|apply Tj; now right].
        + unfold edge_on. rewrite Ej. apply On2. destruct (Rle_dec z t) as [Q|Q]; [|lra]. apply (Bf j z Ej) in Q. congruence.
      - intros (Lj & Tj & Oj). assert (Njk : j <> k) by (intros ->; apply Tj; now left).
        destruct (Sub2 _ Oj) as (z & Hz & Ej). assert (Hj : In j (k :: l)).
        { apply Hl. split; [exact Lj|]. split; [|apply On; now right]. intros [Q|Q]; [|apply Tj; now right].
          apply T0. assert (z = 0); [|lra]. apply (along_inj0 a b); [exact Nab|]. rewrite <- Ej. rewrite <- Q. reflexivity. }
        destruct Hj as [Q|Hj]; [congruence|]. split; [exact Hj|]. destruct (before j) eqn:B; [|reflexivity]. apply (Bf j z Ej) in B.
        exfalso. apply Njk. apply (pt_inj ps); auto. rewrite Ej, Ek. f_equal. lra. }
    assert (Len : (length (filter before l) + length (filter (fun j => negb (before j)) l) = length l)%nat).
    { clear. induction l as [|j l IHl]; [reflexivity|]. cbn [filter]. destruct (before j); cbn [negb length]; lia. }
    cbn in Ll. inversion M as [|? ? F1 M1]; subst.
    assert (M' : ForallOrdPairs node_meet (e1 :: e2 :: rest)).
    { constructor; [constructor|constructor; [|exact M1]].
      - intros x O1 O2. exists k. split; [exact Lk|]. now apply Both.
      - apply Forall_forall. intros f Hf x O1 O2. rewrite Forall_forall in F1. apply (F1 f Hf x); [apply On; now left|exact O2].
      - apply Forall_forall. intros f Hf x O1 O2. rewrite Forall_forall in F1. apply (F1 f Hf x); [apply On; now right|exact O2]. }
    destruct (IH (length (filter before l)) ltac:(lia) e1 (e2 :: rest) C1 Stored1 M') as (fs1 & A1 & A2 & A3 & A4).
    assert (A5 : ForallOrdPairs node_meet (e2 :: (fs1 ++ rest))).
    { apply (fop_perm _ _ node_meet_sym _ _ (Permutation_sym (Permutation_middle fs1 rest e2)) A4). }
    destruct (IH (length (filter (fun j => negb (before j)) l)) ltac:(lia) e2 (fs1 ++ rest) C2 Stored2 A5) as (fs2 & B1 & B2 & B3 & B4).
    exists (fs2 ++ fs1). split; [rewrite app_length; lia|]. split; [|split; [|now rewrite <- app_assoc]].
    + intros f Hf. apply in_app_or in Hf. destruct Hf; auto.
    + intros x. rewrite On, <- A3, <- B3. split.
      * intros (f & Hf & O). apply in_app_or in Hf. destruct Hf; [right|left]; exists f; auto.
      * intros [(f & Hf & O)|(f & Hf & O)]; exists f; (split; [apply in_or_app; auto|exact O]).
Qed.

Lemma cut_all : forall (es : list edge) n, passings ps es n -> forall rest, (forall e, In e es -> stored e) -> ForallOrdPairs node_meet (es ++ rest) ->
  exists fs, length fs = (length es + n)%nat /\ (forall f, In f fs -> stored f /\ forall k, (k < length ps)%nat -> ~ crosses_node ps k f) /\
    (forall x, covers ps fs x <-> covers ps es x) /\ ForallOrdPairs node_meet (fs ++ rest).
Proof.
  intros es n P. induction P as [|e n es m C P IH]; intros rest V M.
  - exists []. split; [reflexivity|]. split; [intros f []|]. split; [tauto|exact M].
  - destruct (chain n e (es ++ rest) C (V e (or_introl eq_refl)) M) as (fs1 & A1 & A2 & A3 & A4).
    assert (A5 : ForallOrdPairs node_meet (es ++ (fs1 ++ rest))).
    { apply (fop_perm _ _ node_meet_sym (fs1 ++ es ++ rest)); [apply Permutation_app_swap_app|exact A4]. }
    destruct (IH (fs1 ++ rest) (fun f Hf => V f (or_intror Hf)) A5) as (fs2 & B1 & B2 & B3 & B4).
    exists (fs2 ++ fs1). split; [rewrite app_length; cbn [length]; lia|]. split; [|split; [|now rewrite <- app_assoc]].
    + intros f Hf. apply in_app_or in Hf. destruct Hf; auto.
    + intros x. split.
      * intros (f & Hf & O). apply in_app_or in Hf. destruct Hf as [Hf|Hf].
        -- destruct (proj1 (B3 x) (ex_intro _ f (conj Hf O))) as (h & Hh & Oh). exists h. split; [now right|exact Oh].
        -- exists e. split; [now left|]. apply A3. exists f. auto.
      * intros (f & [<-|Hf] & O).
        -- apply A3 in O. destruct O as (h & Hh & Oh). exists h. split; [apply in_or_app; now right|exact Oh].
        -- destruct (proj2 (B3 x) (ex_intro _ f (conj Hf O))) as (h & Hh & Oh). exists h. split; [apply in_or_app; now left|exact Oh].
Qed.

Lemma runs_some : forall e : edge, exists n, runs_through ps e n.
Proof.
  intros e. assert (G : forall m, exists l, NoDup l /\ forall k, In k l <-> (k < m)%nat /\ crosses_node ps k e).
  { induction m as [|m (l & N & H)]; [exists []; split; [constructor|]; intros k; split; [intros []|lia]|].
    destruct (classic (crosses_node ps m e)) as [C|C].
    - exists (m :: l). split; [constructor; [rewrite H; lia|exact N]|]. intros k. cbn [In]. rewrite H. split.
      + intros [<-|[? ?]]; split; auto; lia.
      + intros [L K]. destruct (Nat.eq_dec m k); [now left|right]. split; [lia|exact K].
    - exists l. split; [exact N|]. intros k. rewrite H. split; intros [L K]; (split; [|exact K]); [lia|]. assert (k <> m) by (intros ->; contradiction). lia. }
  destruct (G (length ps)) as (l & N & H). exists (length l), l. auto.
Qed.
Lemma passings_some : forall es : list edge, exists n, passings ps es n.
Proof.
  induction es as [|e es (m & P)]; [exists 0%nat; constructor|]. destruct (runs_some e) as (n & C). exists (n + m)%nat. now constructor.
Qed.
End Cut.

Lemma loose_nodup : forall U ps (es : list (Edge U)), loosely_drawn ps es -> NoDup ps.
Proof.
  intros U ps es (_ & A & _). apply (NoDup_nth ps (P2 0 0)). intros i j Hi Hj E.
  destruct (Nat.eq_dec i j) as [|N]; [assumption|]. exfalso. pose proof (A i j Hi Hj N) as D. unfold pt in D. rewrite E, dist_self0 in D. pose proof eps32_pos. lra.
Qed.

Lemma loose_cut : forall U ps (es : list (Edge U)) n, loosely_drawn ps es -> passings ps es n ->
  exists fs : list (Edge U), plane_drawing ps fs /\ length fs = (length es + n)%nat /\ forall x, covers ps fs x <-> covers ps es x.
Proof.
  intros U ps es n W P. pose proof (loose_nodup U ps es W) as ND. pose proof W as (V & _ & _ & M).
  destruct (cut_all ps ND es n P [] V) as (fs & L & F & C & M').
  { rewrite app_nil_r. apply (pairs_nth _ (node_meet_sym ps)). intros i j e f N Hi Hj x O1 O2. exact (M i j e f x N Hi Hj O1 O2). }
  rewrite app_nil_r in M'. exists fs. split; [|split; [exact L|exact C]]. split; [exact ND|]. split; [intros f Hf; exact (proj1 (F f Hf))|]. split.
  - intros k e Lk He Nt O. exact (proj2 (F e He) k Lk (conj Nt O)).
  - intros i j e f x N Hi Hj O1 O2. destruct (proj1 (pairs_nth _ (node_meet_sym ps) _) M' i j e f N Hi Hj x O1 O2) as (k & Lk & ->).
    exists k. split; [|split; [|reflexivity]].
    + destruct (classic (touches k e)) as [|Nt]; [assumption|]. exfalso. exact (proj2 (F e (nth_error_In _ _ Hi)) k Lk (conj Nt O1)).
    + destruct (classic (touches k f)) as [|Nt]; [assumption|]. exfalso. exact (proj2 (F f (nth_error_In _ _ Hj)) k Lk (conj Nt O2)).
Qed.

(** Loosely drawn graphs with the same nodes and the same picture: the same numbers of
    edges and of passed nodes together. *)
Lemma loose_count : forall U V ps qs (es : list (Edge U)) (fs : list (Edge V)) n m, loosely_drawn ps es -> loosely_drawn qs fs ->
  (forall x, In x ps <-> In x qs) -> (forall x, covers ps es x <-> covers qs fs x) ->
  passings ps es n -> passings qs fs m -> (length es + n = length fs + m)%nat.
Proof.
  intros U V ps qs es fs n m W1 W2 N C P1 P2.
  destruct (loose_cut U ps es n W1 P1) as (es' & D1 & L1 & C1). destruct (loose_cut V qs fs m W2 P2) as (fs' & D2 & L2 & C2).
  assert (Q : same_drawing ps es' qs fs') by (apply drawing_unique; auto; intros x; rewrite C1, C2; apply C).
  destruct Q as (_ & _ & Q & _). lia.
Qed.

Section Exact.
Context {T U : Type} (dT : T).
Local Notation graph := (PlanarGraph XO T U).
Local Notation asksX := (asks dT (@drawn T U)).

Lemma node_loose_full : forall (g g1 : graph) ps p dat i ces, drawn g ps -> loosely_drawn ps (edges g) ->
  good_place ps (edges g) p -> add_node g (xp p) dat = Ok (g1, (i, ces)) ->
  exists ps1, drawn g1 ps1 /\ loosely_drawn ps1 (edges g1) /\ (forall x, covers ps1 (edges g1) x <-> covers ps (edges g) x) /\
    (forall x, In x ps1 <-> In x ps \/ x = pt ps1 i).
Proof.
  intros g g1 ps p dat i ces D W GP H. destruct (add_node_loose g g1 ps p dat (i, ces) D W GP H) as (qs & D1 & W1 & C1 & _).
  exists (ps ++ qs). split; [exact D1|]. split; [exact W1|]. split; [exact C1|].
  assert (L1 : (i < length (ps ++ qs))%nat).
  { apply add_node_ok in H. destruct H as [(dd & Fc & L & -> & _)|(dd & j & _ & _ & -> & Hn & _)].
    - destruct (drawn_closest _ _ _ _ _ D Fc) as [H1 _]. destruct (H1 L) as [Li _]. rewrite app_length. lia.
    - rewrite <- (drawn_length _ _ D1), Hn, app_length. cbn. lia. }
  assert (Q : qs = [] \/ (qs = [p] /\ i = length ps)).
  { apply add_node_ok in H. destruct H as [(dd & _ & _ & -> & _)|(dd & j & _ & _ & -> & Hn & _)].
    - left. pose proof (drawn_fun _ _ _ D D1) as E. apply (f_equal (@length _)) in E. rewrite app_length in E. destruct qs; [reflexivity|cbn in E; lia].
    - right. split; [|exact (drawn_length _ _ D)]. assert (D2 : drawn g1 (ps ++ [p])).
      { unfold drawn in *. rewrite Hn, !map_app, D. reflexivity. }
      exact (app_inv_head _ _ _ (drawn_fun _ _ _ D1 D2)). }
  intros x. destruct Q as [->|(-> & ->)].
  - rewrite app_nil_r in *. split; [now left|]. intros [Hx| ->]; [exact Hx|]. now apply nth_In.
  - unfold pt. rewrite app_nth2, Nat.sub_diag by lia. cbn [nth]. rewrite in_app_iff. cbn [In]. split; intros [A|B]; auto; [destruct B as [->|[]]; auto].
Qed.

Lemma asks_loose : forall os l (g g' : graph) ps, asksX g os l g' -> loose dT g os -> drawn g ps -> loosely_drawn ps (edges g) ->
  exists ps', drawn g' ps' /\ loosely_drawn ps' (edges g') /\
    (forall x, covers ps' (edges g') x <-> covers ps (edges g) x \/ on_line_of (lines l) x) /\
    (forall x, In x ps' <-> In x ps \/ dotted l x \/ (on_line_of (lines l) x /\ covers ps (edges g) x) \/ two_lines (lines l) x).
Proof.
  intros os l g g' ps A. revert ps. induction A as [g|g p dat g1 i ces ps0 os l g2 H P A IH|g s d u g1 r ps0 os l g2 NA Ls Ld H P A IH|g s d u g1 r os l g2 N H A IH];
    intros ps N0 D W.
  - exists ps. split; [exact D|]. split; [exact W|]. cbn [lines]. split; intros x.
    + split; [now left|]. intros [?|(a & b & [] & _)]; assumption.
    + split; [now left|]. intros [?|[[]|[((a & b & [] & _) & _)|(c & c' & l' & Q & _)]]]; [assumption|]. apply Permutation_nil in Q. discriminate.
  - destruct N0 as [(ps1 & q & D1 & -> & GP) N1]. rewrite (drawn_fun _ _ _ D1 D) in GP.
    destruct (node_loose_full g g1 ps q dat i ces D W GP H) as (ps2 & D2 & W2 & C2 & I2). rewrite (drawn_fun _ _ _ P D2).
    destruct (IH ps2) as (ps' & D' & W' & C' & I'); [apply N1; cbn [step]; rewrite H; reflexivity|exact D2|exact W2|].
    exists ps'. split; [exact D'|]. split; [exact W'|]. cbn [lines]. split; intros x.
    + rewrite C', C2. reflexivity.
    + rewrite I', I2, C2. unfold dotted. cbn [In]. split.
      * intros [[A1|A1]|[A1|A1]]; auto. subst x. auto.
      * intros [A1|[[A1|A1]|A1]]; auto. injection A1 as <-. auto.
  - destruct N0 as [(Nsd & [B|[B|(ps1 & D1 & UA)]]) N1]; [contradiction|tauto|]. rewrite (drawn_fun _ _ _ D1 D) in UA. rewrite (drawn_fun _ _ _ P D).
    rewrite (drawn_length _ _ D) in Ls, Ld.
    destruct (add_edge_loose dT g g1 ps s d u r D W UA Nsd NA Ls Ld H) as (qs & D2 & W2 & C2 & I2 & _).
    destruct (IH (ps ++ qs)) as (ps' & D' & W' & C' & I'); [apply N1; cbn [step]; rewrite H; reflexivity|exact D2|exact W2|].
    exists ps'. split; [exact D'|]. split; [exact W'|]. cbn [lines]. split; intros x.
    + rewrite C', C2, on_line_cons. tauto.
    + rewrite I', C2, on_line_cons, two_cons, in_app_iff, I2. unfold dotted. cbn [In].
      destruct (Classical_Prop.classic (In x ps)) as [Q|Q].
      * tauto.
      * split.
        -- intros [[A1|(A1 & A2 & _)]|[A1|[(A1 & [A2|A2])|A1]]]; auto 7.
        -- intros [A1|[[A1|A1]|[([A1|A1] & A2)|[(A1 & A2)|A1]]]]; auto 7. discriminate.
  - destruct N0 as [_ N1]. pose proof (add_edge_ok dT _ _ _ _ _ _ H) as Q.
    destruct Q as [(_ & -> & _)|[(_ & _ & -> & _)|(NA & Ls & Ld & _)]].
    + apply IH; auto. apply N1. cbn [step]. rewrite H. reflexivity.
    + apply IH; auto. apply N1. cbn [step]. rewrite H. reflexivity.
    + exfalso. tauto.
Qed.

Lemma neat_loose : forall os l (g g' : graph), asksX g os l g' -> neat dT g os -> loose dT g os.
Proof.
  intros os l g g' A. induction A as [g|g p dat g1 i ces ps0 os l g2 H P A IH|g s d u g1 r ps0 os l g2 NA Ls Ld H P A IH|g s d u g1 r os l g2 N H A IH];
    intros N0; [exact Logic.I|destruct N0 as [N0 N1]..].
  - split; [exact N0|]. intros g' H'. pose proof H' as H2. cbn [step] in H2. rewrite H in H2. injection H2 as <-. apply IH, N1, H'.
  - split; [|intros g' H'; pose proof H' as H2; cbn [step] in H2; rewrite H in H2; injection H2 as <-; apply IH, N1, H'].
    destruct N0 as (Nsd & [?|[?|(ps & D & UA & _)]]); (split; [exact Nsd|]); [now left|right; now left|right; right; exists ps; auto].
  - split; [|intros g' H'; pose proof H' as H2; cbn [step] in H2; rewrite H in H2; injection H2 as <-; apply IH, N1, H'].
    destruct N0 as (Nsd & [?|[?|(ps & D & UA & _)]]); (split; [exact Nsd|]); [now left|right; now left|right; right; exists ps; auto].
Qed.

Lemma same_on : forall c c' x, same_line c c' -> (on_segment (fst c) (snd c) x <-> on_segment (fst c') (snd c') x).
Proof.
  intros c c' x [->| ->]; [reflexivity|]. cbn [fst snd]. split; apply on_sym.
Qed.
Lemma redrawn_on : forall l l', redrawn l l' -> forall x, on_line_of (lines l) x -> on_line_of (lines l') x.
Proof.
  intros l l' (_ & m & P & F) x (a & b & H & S). apply (Permutation_in _ P) in H. clear P.
  induction F as [|c c' m m' E F IH]; [destruct H|]. destruct H as [->|H].
  - destruct c' as [a' b']. exists a', b'. split; [now left|]. exact (proj1 (same_on _ _ x E) S).
  - destruct (IH H) as (a' & b' & H' & S'). exists a', b'. split; [now right|exact S'].
Qed.
Lemma two_lines_perm : forall l l' x, Permutation l l' -> two_lines l x -> two_lines l' x.
Proof. intros l l' x P (c & c' & r & Q & S). exists c, c', r. split; [now rewrite <- P|exact S]. Qed.
Lemma redrawn_two : forall l l', redrawn l l' -> forall x, two_lines (lines l) x -> two_lines (lines l') x.
Proof.
  intros l l' (_ & m & P & F) x H. apply (two_lines_perm _ _ _ P) in H. clear P.
  assert (On : forall r r', Forall2 same_line r r' -> on_line_of r x -> on_line_of r' x).
  { intros r r' F' (a & b & Hi & S). induction F' as [|c c' r r' E F' IH]; [destruct Hi|]. destruct Hi as [->|Hi].
    - destruct c' as [a' b']. exists a', b'. split; [now left|]. exact (proj1 (same_on _ _ x E) S).
    - destruct (IH Hi) as (a' & b' & H' & S'). exists a', b'. split; [now right|exact S']. }
  induction F as [|[a b] [a' b'] m m' E F IH]; [exact H|]. apply two_cons. apply two_cons in H. destruct H as [[S O]|H].
  - left. split; [exact (proj1 (same_on _ _ x E) S)|exact (On _ _ F O)].
  - right. exact (IH H).
Qed.
Lemma redrawn_sym : forall l l', redrawn l l' -> redrawn l' l.
Proof.
  intros l l' (D & m & P & F). split; [intros x; symmetry; apply D|].
  destruct (Permutation_Forall2 (Permutation_sym P) F) as (r & Q & F'). exists r. split; [exact Q|].
  clear - F'. induction F' as [|[a b] [a' b'] m m' E F IH]; constructor; [|exact IH].
  destruct E as [E|E]; inversion E; subst; [now left|now right].
Qed.

Theorem loose_order : forall (g g1 g2 : graph) ps os1 os2 l1 l2, drawn g ps -> loosely_drawn ps (edges g) ->
  loose dT g os1 -> loose dT g os2 -> asksX g os1 l1 g1 -> asksX g os2 l2 g2 -> redrawn l1 l2 ->
  exists ps1 ps2, drawn g1 ps1 /\ drawn g2 ps2 /\ loosely_drawn ps1 (edges g1) /\ loosely_drawn ps2 (edges g2) /\
    (forall x, In x ps1 <-> In x ps2) /\ length ps1 = length ps2 /\
    (forall x, covers ps1 (edges g1) x <-> covers ps2 (edges g2) x) /\
    (forall n1 n2, passings ps1 (edges g1) n1 -> passings ps2 (edges g2) n2 -> (length (edges g1) + n1 = length (edges g2) + n2)%nat) /\
    ((forall k, ~ crossed ps1 (edges g1) k) -> (forall k, ~ crossed ps2 (edges g2) k) -> same_drawing ps1 (edges g1) ps2 (edges g2)).
Proof.
  intros g g1 g2 ps os1 os2 l1 l2 D W N1 N2 A1 A2 R. pose proof (redrawn_sym _ _ R) as R'.
  destruct (asks_loose os1 l1 g g1 ps A1 N1 D W) as (ps1 & D1 & W1 & C1 & I1).
  destruct (asks_loose os2 l2 g g2 ps A2 N2 D W) as (ps2 & D2 & W2 & C2 & I2).
  assert (L : forall x, on_line_of (lines l1) x <-> on_line_of (lines l2) x) by (intros x; split; apply redrawn_on; assumption).
  assert (L2 : forall x, two_lines (lines l1) x <-> two_lines (lines l2) x) by (intros x; split; apply redrawn_two; assumption).
  assert (I : forall x, In x ps1 <-> In x ps2) by (intros x; rewrite I1, I2, L, L2, (proj1 R x); reflexivity).
  assert (C : forall x, covers ps1 (edges g1) x <-> covers ps2 (edges g2) x) by (intros x; rewrite C1, C2, L; reflexivity).
  exists ps1, ps2. do 4 (split; [assumption|]). split; [exact I|]. split; [|split; [exact C|split]].
  - apply Nat.le_antisymm; apply NoDup_incl_length; try (now apply (loose_nodup U _ _ W1)); try (now apply (loose_nodup U _ _ W2)); intros x; apply I.
  - intros n1 n2. exact (loose_count U U ps1 ps2 _ _ n1 n2 W1 W2 I C).
  - intros K1 K2. apply drawing_unique; [apply well_plane, well_loose; auto|apply well_plane, well_loose; auto|exact I|exact C].
Qed.
End Exact.

(** ** f32 on the grids of C90 *)
Section Fam.
Context (lm : Libm) (e : Z) (He : (-22 <= e <= 51)%Z) {T U : Type} (dT : T).
Local Notation G := (grid_le 6 e).
Context (S : point -> point -> Prop).
Hypothesis HonS : forall a b p i, G a -> G b -> G p -> S (toR a) (toR b) ->
  (is_on_line_segment (O := FO lm) a b p i = true <-> inner (toR a) (toR b) (toR p)) /\
  (is_on_line_segment (O := XO) (up a) (up b) (up p) i = true <-> inner (toR a) (toR b) (toR p)).
Hypothesis Hlat : forall a b c d p, G a -> G b -> G c -> G d -> S (toR a) (toR b) -> S (toR c) (toR d) ->
  cross (toR a) (toR b) (toR c) (toR d) <> 0 -> on_segment (toR a) (toR b) p -> on_segment (toR c) (toR d) p ->
  exists m, p = P2 (IZR (fst m) * bpow radix2 e) (IZR (snd m) * bpow radix2 e).
Hypothesis HsplitS : forall a b p, S a b -> on_segment a b p -> S a p /\ S b p.
Local Notation graph := (PlanarGraph (FO lm) T U).
Let S' (a b : Vec2 (FO lm)) : Prop := S (toR a) (toR b).
Local Notation ins := (@GraphSim.inside (FO lm) T U G S').

Theorem fam_loose_order : forall (g g1 g2 : graph) os1 os2 l1 l2, ins g -> loosely_drawn (places g) (edges g) ->
  GridSpec.draws dT G S g os1 -> lays dT g os1 -> GridSpec.draws dT G S g os2 -> lays dT g os2 ->
  asks dT placed_f32 g os1 l1 g1 -> asks dT placed_f32 g os2 l2 g2 -> redrawn l1 l2 ->
  (forall x, In x (places g1) <-> In x (places g2)) /\ node_count g1 = node_count g2 /\
  (forall x, covers (places g1) (edges g1) x <-> covers (places g2) (edges g2) x) /\
  (forall n1 n2, passings (places g1) (edges g1) n1 -> passings (places g2) (edges g2) n2 ->
     (edge_count g1 + n1 = edge_count g2 + n2)%nat) /\
  ((forall k, ~ crossed (places g1) (edges g1) k) -> (forall k, ~ crossed (places g2) (edges g2) k) ->
     same_drawing (places g1) (edges g1) (places g2) (edges g2)).
Proof.
  intros g g1 g2 os1 os2 l1 l2 I W D1 St1 D2 St2 A1 A2 R.
  destruct (loose_order dT (exact_graph g) (exact_graph g1) (exact_graph g2) (places g) (map exact_op os1) (map exact_op os2) l1 l2 (exact_drawn lm g) W)
    as (ps1 & ps2 & Q1 & Q2 & _ & _ & X1 & X2 & X3 & X4 & X5).
  - exact (fam_looses lm e He dT S HonS Hlat HsplitS os1 g I W D1 St1).
  - exact (fam_looses lm e He dT S HonS Hlat HsplitS os2 g I W D2 St2).
  - exact (fam_asks lm e He dT S HonS Hlat HsplitS g g1 os1 l1 A1 I D1).
  - exact (fam_asks lm e He dT S HonS Hlat HsplitS g g2 os2 l2 A2 I D2).
  - exact R.
  - pose proof (drawn_fun _ _ _ Q1 (exact_drawn lm g1)) as E1. pose proof (drawn_fun _ _ _ Q2 (exact_drawn lm g2)) as E2. subst ps1 ps2.
    rewrite !places_length in X2. exact (conj X1 (conj X2 (conj X3 (conj X4 X5)))).
Qed.
End Fam.
