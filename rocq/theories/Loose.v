(** * Drawings in which edges may run through nodes: one call, histories. *)
From Coq Require Import Reals List Arith Bool Lia Lra Permutation Classical.
From Verif Require Import Scalar Utils Graph GraphSpec ListSpec Laws Closest PlaneSpec UtilsReal
  PlanarSpec GraphAdd GraphAddProps GraphRemove GraphHistory GraphPlanar ThroughSpec Through Over LooseSpec.
Import ListNotations.
Local Open Scope R_scope.

Lemma near_crosses : forall U ps k (e : Edge U), edge_near ps e (pt ps k) -> edge_on ps e (pt ps k) -> crosses_node ps k e.
Proof.
  intros U ps k e (_ & H1 & H2) O. split; [|exact O]. pose proof eps32_pos.
  intros [<-|<-]; rewrite dist_self0 in *; lra.
Qed.
Lemma crosses_near : forall U ps (es : list (Edge U)) k e, loosely_drawn ps es -> (k < length ps)%nat -> In e es ->
  crosses_node ps k e -> edge_near ps e (pt ps k).
Proof.
  intros U ps es k e (V & A & _) Lk He [Nt O]. destruct (V e He) as (_ & L1 & L2).
  apply on_near; [exact O| |]; apply A; auto; intros E; apply Nt; unfold touches; auto.
Qed.

(** Loosely drawn graphs and the invariant of the splitting loop. *)
Lemma loose_thru : forall U ps (es : list (Edge U)), loosely_drawn ps es <-> thru (fun _ => False) ps es (crossed ps es) [].
Proof.
  intros U ps es. split.
  - intros L. pose proof L as (V & A & C & M). split; [exact V|]. split; [exact A|]. split; [|split; [|split; [easy|constructor]]].
    + intros k e Lk He Hn. pose proof (C k e Lk He Hn) as O. split; [|exact O]. split; [exact Lk|]. exists e. split; [exact He|].
      now apply near_crosses.
    + apply (pairs_nth _ (meet_thru_sym _ _ _ [])). intros i j e f N Hi Hj x _ H1 H2.
      destruct (M i j e f x N Hi Hj H1 H2) as (k & Lk & ->).
      assert (Cr : forall e, In e es -> edge_on ps e (pt ps k) -> touches k e \/ crossed ps es k).
      { intros h Hh Oh. destruct (classic (touches k h)) as [Th|Th]; [now left|]. right. split; [exact Lk|]. exists h. split; [exact Hh|]. now split. }
      destruct (Cr e (nth_error_In _ _ Hi) H1) as [T1|K]; [|right; right; eauto].
      destruct (Cr f (nth_error_In _ _ Hj) H2) as [T2|K]; [|right; right; eauto].
      left. eauto.
  - intros (V & A & C & M & _). split; [exact V|]. split; [exact A|]. split.
    + intros k e Lk He Hn. exact (proj2 (C k e Lk He Hn)).
    + intros i j e f x N Hi Hj H1 H2.
      destruct (proj1 (pairs_nth _ (meet_thru_sym _ _ _ []) _) M i j e f N Hi Hj x (fun F => F) H1 H2)
        as [(k & T1 & T2 & E)|[[]|(k & Lk & _ & E)]]; [|eauto].
      exists k. split; [|exact E]. destruct (V e (nth_error_In _ _ Hi)) as (_ & L1 & L2). destruct T1 as [<-|<-]; assumption.
Qed.
Lemma thru_loose : forall U ps (es : list (Edge U)) K, thru (fun _ => False) ps es K [] -> loosely_drawn ps es.
Proof.
  intros U ps es K (V & A & C & M & _). split; [exact V|]. split; [exact A|]. split.
  - intros k e Lk He Hn. exact (proj2 (C k e Lk He Hn)).
  - intros i j e f x N Hi Hj H1 H2.
    destruct (proj1 (pairs_nth _ (meet_thru_sym _ _ _ []) _) M i j e f N Hi Hj x (fun F => F) H1 H2)
      as [(k & T1 & T2 & E)|[[]|(k & Lk & _ & E)]]; [|eauto].
    exists k. split; [|exact E]. destruct (V e (nth_error_In _ _ Hi)) as (_ & L1 & L2). destruct T1 as [<-|<-]; assumption.
Qed.

(** Well-drawn graphs are the loosely drawn graphs without crossed nodes. *)
Lemma well_loose : forall U ps (es : list (Edge U)), well_drawn ps es <-> loosely_drawn ps es /\ forall k, ~ crossed ps es k.
Proof.
  intros U ps es. split.
  - intros W. pose proof W as (V & A & C & Pl & M). split.
    + split; [exact V|]. split; [exact A|]. split.
      * intros k e Lk He Hn. destruct (C k e Lk He Hn).
      * intros i j e f x N Hi Hj H1 H2. destruct (M i j e f x N Hi Hj H1 H2) as (k & T1 & T2 & E). exists k. split; [|exact E].
        destruct (V e (nth_error_In _ _ Hi)) as (_ & L1 & L2). destruct T1 as [<-|<-]; assumption.
    + intros k (Lk & e & He & Nt & O). exact (Pl k e Lk He Nt O).
  - intros [(V & A & C & M) N]. split; [exact V|]. split; [exact A|]. split; [|split].
    + intros k e Lk He Hn. apply (N k). split; [exact Lk|]. exists e. split; [exact He|]. apply near_crosses; auto.
    + intros k e Lk He Nt O. apply (N k). split; [exact Lk|]. exists e. split; [exact He|]. now split.
    + intros i j e f x Nij Hi Hj H1 H2. destruct (M i j e f x Nij Hi Hj H1 H2) as (k & Lk & E). exists k. subst x.
      assert (Tc : forall h, In h es -> edge_on ps h (pt ps k) -> touches k h).
      { intros h Hh Oh. apply NNPP. intros Nt. apply (N k). split; [exact Lk|]. exists h. split; [exact Hh|]. now split. }
      split; [exact (Tc e (nth_error_In _ _ Hi) H1)|]. split; [exact (Tc f (nth_error_In _ _ Hj) H2)|reflexivity].
Qed.

Section Main.
Context {T U : Type}.
Variable dT : T.
Local Notation graph := (PlanarGraph XO T U).

Lemma add_edge_loose_pending : forall (g g' : graph) ps s d u r, drawn g ps ->
  loosely_drawn ps (edges g) -> unambiguous ps (edges g) s d -> s <> d ->
  ~ adjacent g s d -> (s < length ps)%nat -> (d < length ps)%nat ->
  add_edge dT g s d u = Ok (g', r) ->
  exists pend ns es, drawn (with_edge g s d u) ps /\
    thru (fun _ => False) ps (edges (with_edge g s d u)) (fun k => crossed ps (edges g) k \/ passes ps s d k) pend /\
    split_at_points dT (with_edge g s d u) (map xp pend) [] [] = Ok (g', (ns, es)) /\
    (forall y, In y pend -> on_segment (pt ps s) (pt ps d) y /\ covers ps (edges g) y) /\
    (forall y, on_segment (pt ps s) (pt ps d) y -> covers ps (edges g) y ->
       (forall k, (k < length ps)%nat -> y <> pt ps k) -> In y pend) /\
    (forall k, (k < length ps)%nat -> (In (pt ps k) pend <-> meets_once ps (edges g) s d k)).
Proof.
  intros g g' ps s d u r D W (G1 & G2 & G3 & G4) Nsd NA Hs Hd H.
  pose proof W as (V & A & C & M).
  unfold add_edge in H. assert (HB : has_edge_between_nodes g s d = false).
  { destruct (has_edge_between_nodes g s d) eqn:E; [|reflexivity]. apply between_adjacent in E. contradiction. }
  rewrite HB in H. cbn [negb] in H. unfold get_vertex in H.
  destruct (nth_error (nodes g) s) eqn:Es.
  2:{ apply nth_error_None in Es. rewrite (drawn_length _ _ D) in Es. lia. }
  destruct (nth_error (nodes g) d) eqn:Ed.
  2:{ apply nth_error_None in Ed. rewrite (drawn_length _ _ D) in Ed. lia. }
  set (sd := MkEdge s d u DEFAULT_LABEL) in *.
  set (g1 := MkGraph (nodes g) (edges g ++ [sd])) in *.
  assert (Id : (edge_count g1 - 1 = length (edges g))%nat).
  { unfold edge_count, g1. simpl. rewrite app_length. simpl. lia. }
  rewrite Id in H.
  apply bind_ok in H. destruct H as ([g2 [cn ce]] & H & H'). inv H'.
  unfold split_edges_along_edge in H. apply bind_ok in H. destruct H as (is & Hi & H).
  assert (D1 : drawn g1 ps) by exact D.
  assert (V1 : ends_ok ps (edges g1)).
  { intros e He. apply in_app_or in He. destruct He as [He|[<-|[]]]; [now apply V|]. simpl. auto. }
  destruct (inters_list g1 ps (length (edges g)) sd (edges g1) 0 is D1) as (ys & ss & -> & ND & _ & F2 & Cp).
  { unfold g1. simpl. rewrite nth_error_app2, Nat.sub_diag by lia. reflexivity. }
  { intros e [<-|He]; apply V1; [apply in_or_app; right; now left|exact He]. }
  { exact Hi. }
  destruct (unique_xp ys) as (pend & Ep & Sub & Pw & Keep). rewrite Ep in H.
  pose proof (fun y => unique_isolated ys pend y Ep) as Iso.
  assert (Y : forall a y, nth_error ys a = Some y -> exists i e, nth_error ss a = Some i /\
     nth_error (edges g) i = Some e /\ askew ps s d e /\ edge_on ps e y /\ on_segment (pt ps s) (pt ps d) y).
  { intros a y Ha. destruct (forall2_nth' _ _ _ _ _ F2 _ _ Ha) as (i & Hi' & e & He & Ni & Za & O1 & O2).
    exists i, e. split; [exact Hi'|]. rewrite Nat.sub_0_r in He. unfold g1 in He. cbn [edges] in He.
    assert (Li : (i < length (edges g ++ [sd]))%nat) by (apply nth_error_Some; congruence).
    rewrite app_length in Li. cbn [length] in Li. rewrite nth_error_app1 in He by lia. auto. }
  assert (Found : forall i e x, nth_error (edges g) i = Some e -> askew ps s d e ->
    edge_on ps e x -> on_segment (pt ps s) (pt ps d) x ->
    exists a, nth_error ss a = Some i /\ nth_error ys a = Some x).
  { intros i e x He Z H1 H2.
    assert (Li : (i < length (edges g))%nat) by (apply nth_error_Some; congruence).
    assert (Is : In (0 + i)%nat ss).
    { apply (Cp i e x); auto; [|cbn [Nat.add]; lia]. unfold g1. cbn [edges]. now rewrite nth_error_app1. }
    cbn [Nat.add] in Is. apply In_nth_error in Is. destruct Is as [a Ha].
    destruct (forall2_nth _ _ _ _ _ F2 _ _ Ha) as (y & Hy & e' & He' & Ni & Z' & O1 & O2).
    rewrite Nat.sub_0_r in He'. unfold g1 in He'. cbn [edges] in He'. rewrite nth_error_app1 in He' by exact Li.
    assert (e' = e) by congruence. subst e'. exists a. split; [exact Ha|].
    assert (x = y); [|congruence]. exact (askew_once U ps s d e x y Z H1 O1 H2 O2). }
  assert (Np : pt ps s <> pt ps d).
  { intros E. pose proof (A s d Hs Hd Nsd) as B. rewrite E, dist_self0 in B. pose proof eps32_pos. lra. }
  assert (Skew : forall e x, In e (edges g) -> edge_on ps e x ->
    on_segment (pt ps s) (pt ps d) x -> (forall k, (k < length ps)%nat -> x <> pt ps k) -> askew ps s d e).
  { intros e x Hin H1 H2 Nx Z. destruct (V e Hin) as (Ne & Le1 & Le2).
    destruct (parallel_overlap _ _ _ _ x Z Np H1 H2 (Nx s Hs) (Nx d Hd)) as [(Q1 & Q2 & Q3)|[(Q1 & Q2 & Q3)|(Q1 & Q2)]].
    - apply (Nx (src e) Le1). apply (G2 e); auto. apply on_left.
    - apply (Nx (dst e) Le2). apply (G2 e); auto. apply on_right.
    - apply (Nx s Hs). apply (G2 e); auto. apply on_left. }
  assert (Kept : forall i e x, nth_error (edges g) i = Some e -> edge_on ps e x ->
    on_segment (pt ps s) (pt ps d) x -> (forall k, (k < length ps)%nat -> x <> pt ps k) -> In x pend).
  { intros i e x He H1 H2 Nx. pose proof (nth_error_In _ _ He) as Hin. destruct (V e Hin) as (Ne & Le1 & Le2).
    pose proof (Skew e x Hin H1 H2 Nx) as Z.
    destruct (G3 i e x He H1 H2) as [(k & Lk & E)|[Far Oth]]; [exfalso; exact (Nx k Lk E)|].
    destruct (Found i e x He Z H1 H2) as (a & Ha & Hy).
    apply (Keep a x Hy). intros b z Nb Hz.
    destruct (Y b z Hz) as (j & f & Hj & Hf & Zf & O1' & O2').
    assert (Nj : j <> i) by (intros ->; apply Nb; eapply nodup_nth_inj; eassumption).
    destruct (G4 e f x z Hin (nth_error_In _ _ Hf) H1 O1' H2 O2') as [<-|Dz]; [|exact Dz].
    exfalso. apply (Oth j f Nj Hf). destruct (V f (nth_error_In _ _ Hf)) as (_ & L1 & L2).
    apply on_near; [exact O1'|rewrite dist_sym|]; now apply Far. }
  exists pend, cn, ce. split; [exact D1|]. split; [|split; [exact H|split; [|split]]].
  - split; [exact V1|]. split; [exact A|]. split; [|split; [|split; [|exact Pw]]].
    + intros k e Hk He Hn. apply in_app_or in He. destruct He as [He|[<-|[]]].
      { pose proof (C k e Hk He Hn) as O. split; [|exact O]. left. split; [exact Hk|]. exists e. split; [exact He|]. now apply near_crosses. }
      unfold edge_near in Hn. cbn [sd src dst] in Hn.
      assert (Ns : k <> s).
      { intros ->. destruct Hn as (_ & Hn & _). rewrite dist_self0 in Hn. pose proof eps32_pos. lra. }
      assert (Nd : k <> d).
      { intros ->. destruct Hn as (_ & _ & Hn). rewrite dist_self0 in Hn. pose proof eps32_pos. lra. }
      pose proof (G1 k Hk Ns Nd Hn) as O. split; [|exact O]. right. repeat split; assumption.
    + assert (Cr : forall k e, (k < length ps)%nat -> In e (edges g) -> edge_on ps e (pt ps k) -> touches k e \/ crossed ps (edges g) k).
      { intros k h Lk Hh Oh. destruct (classic (touches k h)) as [Th|Th]; [now left|]. right. split; [exact Lk|]. exists h. split; [exact Hh|]. now split. }
      unfold g1. cbn [edges]. apply pairs_app.
      * apply (pairs_nth _ (meet_thru_sym _ ps _ pend)). intros i j e f N Hi' Hj x _ H1 H2.
        destruct (M i j e f x N Hi' Hj H1 H2) as (k & Lk & ->).
        destruct (Cr k e Lk (nth_error_In _ _ Hi') H1) as [T1|K]; [|right; right; exists k; auto].
        destruct (Cr k f Lk (nth_error_In _ _ Hj) H2) as [T2|K]; [|right; right; exists k; auto].
        left. eauto.
      * constructor; constructor.
      * intros e f He [<-|[]] x _ H1 H2. unfold edge_on in H2. cbn [sd src dst] in H2.
        destruct (same_or_not x (pt ps s)) as [->|Ns].
        { destruct (Cr s e Hs He H1) as [T1|K]; [|right; right; exists s; auto].
          left. exists s. split; [exact T1|]. split; [now left|reflexivity]. }
        destruct (same_or_not x (pt ps d)) as [->|Nd].
        { destruct (Cr d e Hd He H1) as [T1|K]; [|right; right; exists d; auto].
          left. exists d. split; [exact T1|]. split; [now right|reflexivity]. }
        right. pose proof He as Hin. apply In_nth_error in He. destruct He as [i He].
        destruct (G3 i e x He H1 H2) as [(k & Lk & E)|[Far Oth]].
        { right. exists k. split; [exact Lk|]. split; [|exact E]. subst x. right.
          split; [exact Lk|]. split; [intros ->; now apply Ns|]. split; [intros ->; now apply Nd|exact H2]. }
        left. apply (Kept i e x He); auto.
        intros k Lk E. specialize (Far k Lk). rewrite E, dist_self0 in Far. pose proof eps32_pos. lra.
    + intros y Hy. apply Sub in Hy. apply In_nth_error in Hy. destruct Hy as [a Ha].
      destruct (Y a y Ha) as (i & e & _ & He & Za & O1 & O2).
      destruct (G3 i e y He O1 O2) as [Hk|[Far Oth]]; [now left|]. right. split; [exact Far|].
      intros f Hf Nf. apply in_app_or in Hf. destruct Hf as [Hf|[<-|[]]]; [|exact O2].
      apply In_nth_error in Hf. destruct Hf as [j Hj].
      destruct (Nat.eq_dec j i) as [->|Nj]; [congruence|]. exfalso. exact (Oth j f Nj Hj Nf).
  - intros y Hy. apply Sub, In_nth_error in Hy. destruct Hy as [a Ha].
    destruct (Y a y Ha) as (i & e & _ & He & Za & O1 & O2).
    split; [exact O2|]. exists e. split; [eapply nth_error_In; eassumption|assumption].
  - intros y O (e & He & Oe) Nk. apply In_nth_error in He. destruct He as [i He]. now apply (Kept i e y).
  - intros k Lk. unfold meets_once. split.
    + intros Hp. destruct (Iso _ Hp) as (a & Ha & Far). destruct (Y a _ Ha) as (i & e & Hia & He & Za & O1 & O2).
      split; [exact O2|]. exists i, e. split; [exact He|]. split; [exact O1|]. split; [exact Za|].
      intros j f Hf Of Zf. destruct (Nat.eq_dec j i) as [|Nj]; [assumption|]. exfalso. destruct (Found j f _ Hf Zf Of O2) as (b & Hb & Hyb).
      assert (Nb : b <> a) by (intros ->; congruence). specialize (Far b _ Nb Hyb).
      rewrite dist_self0 in Far. pose proof eps32_pos. lra.
    + intros (Ok & i & e & He & Oe & Za & Oth). destruct (Found i e _ He Za Oe Ok) as (a & Ha & Hy).
      apply (Keep a _ Hy). intros b z Nb Hz. destruct (Y b z Hz) as (j & f & Hj & Hf & Zf & O1 & O2).
      assert (Nj : j <> i) by (intros ->; apply Nb; eapply nodup_nth_inj; eassumption).
      destruct (G4 e f (pt ps k) z (nth_error_In _ _ He) (nth_error_In _ _ Hf) Oe O1 Ok O2) as [E|Dz]; [|exact Dz].
      exfalso. subst z. apply Nj. exact (Oth j f Hf O1 Zf).
Qed.

Theorem add_edge_loose : forall (g g' : graph) ps s d u r, drawn g ps ->
  loosely_drawn ps (edges g) -> unambiguous ps (edges g) s d -> s <> d ->
  ~ adjacent g s d -> (s < length ps)%nat -> (d < length ps)%nat ->
  add_edge dT g s d u = Ok (g', r) ->
  exists qs, drawn g' (ps ++ qs) /\ loosely_drawn (ps ++ qs) (edges g') /\
    (forall x, covers (ps ++ qs) (edges g') x <->
       covers ps (edges g) x \/ on_segment (pt ps s) (pt ps d) x) /\
    (forall x, In x qs <-> on_segment (pt ps s) (pt ps d) x /\ covers ps (edges g) x /\ ~ In x ps) /\
    (forall k, crossed (ps ++ qs) (edges g') k <->
       (crossed ps (edges g) k \/ passes ps s d k) /\ ~ meets_once ps (edges g) s d k) /\
    (forall x a b, heads ps (edges g) x a b -> heads (ps ++ qs) (edges g') x a b).
Proof.
  intros g g' ps s d u r D W GP Nsd NA Hs Hd H.
  destruct (add_edge_loose_pending g g' ps s d u r D W GP Nsd NA Hs Hd H)
    as (pend & ns & es & D1 & I & H1 & Y1 & Y2 & Y3).
  destruct (split_points_thru dT _ pend _ g' ps _ _ _ _ D1 I H1) as (qs & Q1 & Q2 & Q3 & Q4 & Q5 & _ & Q7).
  pose proof Q2 as (V & A & C & M & _ & _).
  assert (Pin : forall x, (forall k, (k < length ps)%nat -> x <> pt ps k) <-> ~ In x ps).
  { intros x. split.
    - intros N Hin. apply (In_nth ps x (P2 0 0)) in Hin. destruct Hin as (k & Lk & E). exact (N k Lk (eq_sym E)).
    - intros N k Lk ->. apply N. now apply nth_In. }
  exists qs. split; [exact Q1|]. split; [exact (thru_loose _ _ _ _ Q2)|]. split; [|split; [|split]].
  4:{ intros x a b (e & He & Oe). apply Q7. exists e. split; [unfold with_edge; cbn [edges]; apply in_or_app; now left|exact Oe]. }
  - intros x. rewrite Q3. unfold with_edge, covers. cbn [edges]. split.
    + intros (e & He & Oe). apply in_app_or in He. destruct He as [He|[<-|[]]]; [left; eauto|right; exact Oe].
    + intros [(e & He & Oe)|O].
      * exists e. split; [apply in_or_app; now left|exact Oe].
      * eexists. split; [apply in_or_app; right; now left|exact O].
  - intros x. rewrite Q4, Pin. split.
    + intros [Hp Nx]. destruct (Y1 x Hp) as [O1 O2]. auto.
    + intros (O1 & O2 & Nx). split; [|exact Nx]. apply Y2; auto. now apply Pin.
  - intros k. split.
    + intros (Lk & e & He & Nt & Oe). destruct (node_on_edge_thru _ _ _ k e V A C Lk He Oe) as [B|B]; [contradiction|].
      destruct (C k e Lk He B) as [[Pk Np] _]. split; [exact Pk|].
      assert (Lk' : (k < length ps)%nat) by (destruct Pk as [[L _]|[L _]]; exact L).
      rewrite <- (Y3 k Lk'). exact (Np Lk').
    + intros [Pk Nm]. assert (Lk : (k < length ps)%nat) by (destruct Pk as [[L _]|[L _]]; exact L).
      split; [rewrite app_length; lia|].
      assert (Np : ~ In (pt ps k) pend) by (now rewrite (Y3 k Lk)).
      destruct Pk as [(_ & e & He & Ce)|(_ & N1 & N2 & Ok)].
      * apply (Q5 k e Lk); auto; [unfold with_edge; cbn [edges]; apply in_or_app; now left|].
        exact (crosses_near U ps (edges g) k e W Lk He Ce).
      * apply (Q5 k (MkEdge s d u DEFAULT_LABEL) Lk); auto.
        -- unfold with_edge. cbn [edges]. apply in_or_app. right. now left.
        -- unfold edge_near. cbn [src dst]. destruct I as (_ & A0 & _). apply on_near; auto.
Qed.

Theorem add_node_loose : forall (g g' : graph) ps p v r, drawn g ps ->
  loosely_drawn ps (edges g) -> good_place ps (edges g) p ->
  add_node g (xp p) v = Ok (g', r) ->
  exists qs, drawn g' (ps ++ qs) /\ loosely_drawn (ps ++ qs) (edges g') /\
    (forall x, covers (ps ++ qs) (edges g') x <-> covers ps (edges g) x) /\
    (forall x, In x qs <-> x = p /\ forall k, (k < length ps)%nat -> eps32 <= dist p (pt ps k)) /\
    (forall k, crossed (ps ++ qs) (edges g') k <-> crossed ps (edges g) k) /\
    (forall x a b, heads ps (edges g) x a b -> heads (ps ++ qs) (edges g') x a b).
Proof.
  intros g g' ps p v r D W G H. pose proof (proj1 (loose_thru U ps (edges g)) W) as I0.
  destruct G as [(k & Hk & Hd)|F].
  - (* at an existing node *)
    exists []. rewrite app_nil_r. destruct r as [i ces].
    assert (E : g' = g).
    { apply add_node_ok in H. destruct H as [(dd & Fc & L & -> & _)|(dd & j & Fc & L & _)]; [reflexivity|].
      exfalso. destruct (drawn_closest _ _ _ _ _ D Fc) as [Hc Hf]. specialize (Hf L k Hk). lra. }
    subst g'. split; [exact D|]. split; [exact W|]. split; [reflexivity|]. split; [|split; [reflexivity|auto]].
    intros x. split; [intros []|]. intros [_ Far]. specialize (Far k Hk). lra.
  - assert (I : thru (fun _ => False) ps (edges g) (crossed ps (edges g)) [p]).
    { destruct I0 as (V & A & C & M & _). split; [exact V|]. split; [exact A|]. split; [exact C|]. split; [|split].
      - apply (pairs_nth _ (meet_thru_sym _ _ _ [p])). intros i j e f N Hi Hj x Nz H1 H2.
        destruct (proj1 (pairs_nth _ (meet_thru_sym _ _ _ []) _) M i j e f N Hi Hj x Nz H1 H2) as [?|[[]|?]]; auto.
      - intros y [<-|[]]. right. exact F.
      - constructor; constructor. }
    destruct r as [i ces].
    assert (S : split_at_points v g (map xp [p]) [] [] = Ok (g', ([i], ces))).
    { cbn [map split_at_points]. destruct (find_closest_to (xp p) (gather_node_positions g)) as [j dd] eqn:Fc.
      destruct (drawn_closest _ _ _ _ _ D Fc) as [Hc Hf].
      destruct (olt dd ceps) eqn:L.
      - exfalso. destruct (Hc eq_refl) as [Hj Hdj]. pose proof (proj1 F j Hj). lra.
      - rewrite H. reflexivity. }
    destruct (split_points_thru v _ [p] _ g' ps _ _ _ _ D I S) as (qs & Q1 & Q2 & Q3 & Q4 & Q5 & _ & Q7).
    pose proof Q2 as (V & A & C & M & _ & _). pose proof eps32_pos as Pe.
    assert (Np : forall k, (k < length ps)%nat -> ~ In (pt ps k) [p]).
    { intros k Lk [E|[]]. pose proof (proj1 F k Lk) as B. rewrite <- E, dist_self0 in B. lra. }
    exists qs. split; [exact Q1|]. split; [exact (thru_loose _ _ _ _ Q2)|]. split; [exact Q3|]. split; [|split; [|exact Q7]].
    + intros x. rewrite Q4. split.
      * intros [[<-|[]] _]. split; [reflexivity|]. intros k Lk. pose proof (proj1 F k Lk). lra.
      * intros [-> _]. split; [now left|]. intros k Lk E. apply (Np k Lk). left. exact E.
    + intros k. split.
      * intros (Lk & e & He & Nt & Oe). destruct (node_on_edge_thru _ _ _ k e V A C Lk He Oe) as [B|B]; [contradiction|].
        exact (proj1 (proj1 (C k e Lk He B))).
      * intros (Lk & e & He & Ce). split; [rewrite app_length; lia|].
        apply (Q5 k e Lk He); auto. exact (crosses_near U ps (edges g) k e W Lk He Ce).
Qed.

(** Parallel directions. *)
Lemma par_trans : forall a b c d p q : point, c <> d -> cross a b c d = 0 -> cross c d p q = 0 -> cross a b p q = 0.
Proof.
  intros a b c d p q N H1 H2. unfold cross in *.
  set (ux := vx b - vx a) in *. set (uy := vy b - vy a) in *. set (wx := vx q - vx p) in *. set (wy := vy q - vy p) in *.
  set (x := vx d - vx c) in *. set (y := vy d - vy c) in *.
  assert (Nz : x <> 0 \/ y <> 0).
  { destruct (Req_dec x 0) as [Ex|]; [|auto]. destruct (Req_dec y 0) as [Ey|]; [|auto]. exfalso. apply N.
    destruct c, d; unfold x, y in *; simpl in *; f_equal; lra. }
  destruct Nz as [Nz|Nz].
  - apply Rmult_eq_reg_l with x; [|exact Nz]. replace (x * (ux * wy - uy * wx)) with (ux * (x * wy - y * wx) + wx * (ux * y - uy * x)) by ring.
    rewrite H1, H2. ring.
  - apply Rmult_eq_reg_l with y; [|exact Nz]. replace (y * (ux * wy - uy * wx)) with (uy * (x * wy - y * wx) + wy * (ux * y - uy * x)) by ring.
    rewrite H1, H2. ring.
Qed.
Lemma cross_swap : forall a b c d : point, cross a b c d = 0 -> cross c d a b = 0.
Proof. intros a b c d H. unfold cross in *. lra. Qed.

(** At a node with edges in three directions no further segment is split. *)
Lemma knot_many : forall ps (es : list (Edge U)) s d k, loosely_drawn ps es -> (s < length ps)%nat -> (d < length ps)%nat -> s <> d ->
  knotted ps es k -> ~ meets_once ps es s d k.
Proof.
  intros ps es s d k (V & A & _) Hs Hd Nsd (_ & a1 & b1 & a2 & b2 & a3 & b3 & N12 & N13 & N23 & H1 & H2 & H3) (_ & i & e & He & Oe & Ae & Un).
  assert (Ptn : forall i j, (i < length ps)%nat -> (j < length ps)%nat -> i <> j -> pt ps i <> pt ps j).
  { intros i0 j0 Li Lj N E. pose proof (A i0 j0 Li Lj N) as B. rewrite E, dist_self0 in B. pose proof eps32_pos. lra. }
  assert (NE : forall f, In f es -> pt ps (src f) <> pt ps (dst f)) by (intros f Hf; destruct (V f Hf) as (N & L1 & L2); now apply Ptn).
  pose proof (Ptn s d Hs Hd Nsd) as NS.
  (* an edge in one of the directions is parallel to the segment or is e *)
  assert (K : forall a b, heads ps es (pt ps k) a b -> cross (pt ps s) (pt ps d) a b = 0 \/ cross (pt ps (src e)) (pt ps (dst e)) a b = 0).
  { intros a b (f & Hf & Of & Zf). destruct (Req_dec (cross (pt ps (src f)) (pt ps (dst f)) (pt ps s) (pt ps d)) 0) as [Z0|Z0].
    - left. apply par_trans with (pt ps (src f)) (pt ps (dst f)); [now apply NE|now apply cross_swap|exact Zf].
    - right. apply In_nth_error in Hf. destruct Hf as [j Hf]. pose proof (Un j f Hf Of Z0) as ->. assert (f = e) by congruence. now subst f. }
  pose proof (NE e (nth_error_In _ _ He)) as Nee.
  assert (PP : forall p q a b a' b', p <> q -> cross a b a' b' <> 0 -> cross p q a b = 0 -> cross p q a' b' = 0 -> False).
  { intros p q a b a' b' Npq N0 E1 E2. apply N0. apply par_trans with p q; [exact Npq|now apply cross_swap|exact E2]. }
  destruct (K _ _ H1) as [E1|E1], (K _ _ H2) as [E2|E2], (K _ _ H3) as [E3|E3];
    first [exact (PP _ _ _ _ _ _ NS N12 E1 E2)|exact (PP _ _ _ _ _ _ NS N13 E1 E3)|exact (PP _ _ _ _ _ _ NS N23 E2 E3)
          |exact (PP _ _ _ _ _ _ Nee N12 E1 E2)|exact (PP _ _ _ _ _ _ Nee N13 E1 E3)|exact (PP _ _ _ _ _ _ Nee N23 E2 E3)].
Qed.

(** All histories of additions; a knotted node stays one. *)
Theorem loose_history : forall os (g g' : graph) ps, drawn g ps -> loosely_drawn ps (edges g) -> loose dT g os ->
  run dT g os = Ok g' -> exists qs, drawn g' (ps ++ qs) /\ loosely_drawn (ps ++ qs) (edges g') /\
    forall k, knotted ps (edges g) k -> knotted (ps ++ qs) (edges g') k.
Proof.
  induction os as [|o os IH]; intros g g' ps D W L H; cbn [run] in H.
  - inv H. exists []. rewrite app_nil_r. auto.
  - apply bind_ok in H. destruct H as (g1 & H1 & H). destruct L as [Lo L]. specialize (L g1 H1).
    assert (S : exists qs, drawn g1 (ps ++ qs) /\ loosely_drawn (ps ++ qs) (edges g1) /\
      forall k, knotted ps (edges g) k -> knotted (ps ++ qs) (edges g1) k).
    { assert (Same : drawn g (ps ++ []) /\ loosely_drawn (ps ++ []) (edges g) /\ forall k, knotted ps (edges g) k -> knotted (ps ++ []) (edges g) k)
        by (rewrite app_nil_r; auto).
      assert (Kn : forall qs (es' : list (Edge U)), (forall x a b, heads ps (edges g) x a b -> heads (ps ++ qs) es' x a b) ->
        (forall k, knotted ps (edges g) k -> crossed (ps ++ qs) es' k) -> forall k, knotted ps (edges g) k -> knotted (ps ++ qs) es' k).
      { intros qs es' Hh Hc k Kk. split; [now apply Hc|]. pose proof Kk as ((Lk & _) & a1 & b1 & a2 & b2 & a3 & b3 & N1 & N2 & N3 & F1 & F2 & F3).
        exists a1, b1, a2, b2, a3, b3. rewrite pt_app by exact Lk. auto 10. }
      destruct o as [pos v|s d u|i|i]; cbn [step loose_op] in *; [| |contradiction|contradiction].
      - apply bind_ok in H1. destruct H1 as ([g2 r] & H1 & E). inv E.
        destruct Lo as (ps' & p & D' & -> & G). rewrite (drawn_fun g _ _ D' D) in *.
        destruct (add_node_loose g g1 ps p v r D W G H1) as (qs & Q1 & Q2 & _ & _ & Q5 & Q6). exists qs. split; [exact Q1|]. split; [exact Q2|].
        apply Kn; [exact Q6|]. intros k Kk. apply Q5. exact (proj1 Kk).
      - apply bind_ok in H1. destruct H1 as ([g2 r] & H1 & E). inv E.
        destruct Lo as [Nsd Lo]. destruct (classic (adjacent g s d)) as [Ad|NA].
        { exists []. unfold add_edge in H1. apply between_adjacent in Ad. rewrite Ad in H1. cbn [negb] in H1. inv H1. exact Same. }
        destruct (classic (s < length (nodes g) /\ d < length (nodes g))%nat) as [[Ls Ld]|Nr].
        + destruct Lo as [Ad|[Nr|(ps' & D' & G)]]; [contradiction|tauto|]. rewrite (drawn_fun g _ _ D' D) in *.
          rewrite (drawn_length _ _ D) in Ls, Ld.
          destruct (add_edge_loose g g1 ps s d u r D W G Nsd NA Ls Ld H1) as (qs & Q1 & Q2 & _ & _ & Q5 & Q6). exists qs. split; [exact Q1|]. split; [exact Q2|].
          apply Kn; [exact Q6|]. intros k Kk. apply Q5. split; [left; exact (proj1 Kk)|]. now apply knot_many.
        + exists []. assert (g1 = g); [|subst; exact Same].
          unfold add_edge in H1. destruct (has_edge_between_nodes g s d); cbn [negb] in H1; [now inv H1|].
          unfold get_vertex in H1. destruct (nth_error (nodes g) s) eqn:Es; [|now inv H1].
          destruct (nth_error (nodes g) d) eqn:Ed; [|now inv H1].
          exfalso. apply Nr. split; apply nth_error_Some; congruence. }
    destruct S as (qs & D1 & W1 & K1). destruct (IH g1 g' (ps ++ qs) D1 W1 L H) as (qs' & D2 & W2 & K2).
    exists (qs ++ qs'). rewrite app_assoc. auto.
Qed.
End Main.
