(** * Removals from drawings in which edges run through nodes. *)
From Coq Require Import ZArith Reals List Arith Bool Lia Lra Permutation Classical.
From Flocq Require Import Core.Core IEEE754.BinarySingleNaN.
From Verif Require Import Scalar Utils Polygon Graph GraphSpec ListSpec F32 Laws Closest PlaneSpec UtilsReal UtilsF32 PolyF32 PolyNewF32
  PlanarSpec GridSpec GridUtils GridSeg GraphAdd GraphAddProps GraphRemove GraphHistory GraphPlanar GraphSim GridPrim GridOn
  GridGraph ThroughSpec Through GridThrough LooseSpec Loose GridLooseSpec GridLoose Meaning LooseRemoveSpec.
Import ListNotations.
Local Open Scope R_scope.

Section Main.
Context {T U : Type} (dT : T).
Local Notation graph := (PlanarGraph XO T U).

Definition meet_node (ps : list point) (e f : Edge U) : Prop :=
  forall x, edge_on ps e x -> edge_on ps f x -> exists k, (k < length ps)%nat /\ x = pt ps k.
Lemma meet_node_sym : forall ps e f, meet_node ps e f -> meet_node ps f e.
Proof. intros ps e f H x H1 H2. exact (H x H2 H1). Qed.
Definition not_both (ps : list point) (k : nat) (e f : Edge U) : Prop := ~ (crosses_node ps k e /\ crosses_node ps k f).
Lemma not_both_sym : forall ps k e f, not_both ps k e f -> not_both ps k f e.
Proof. intros ps k e f H Q. apply H. tauto. Qed.
Definition not_both_if (P : Edge U -> Prop) (ps : list point) (k : nat) (e f : Edge U) : Prop := P e -> P f -> not_both ps k e f.
Lemma not_both_if_sym : forall P ps k e f, not_both_if P ps k e f -> not_both_if P ps k f e.
Proof. intros P ps k e f H H1 H2. apply not_both_sym. auto. Qed.

Lemma two_pairs : forall P ps es k, ~ through_two P ps es k <-> ForallOrdPairs (not_both_if P ps k) es.
Proof.
  intros P ps es k. rewrite (pairs_nth _ (not_both_if_sym P ps k)). split.
  - intros N i j e f Nij Hi Hj Pe Pf [C1 C2]. apply N. exists i, j, e, f. auto 10.
  - intros H (i & j & e & f & N & Hi & Hj & Pe & Pf & C1 & C2). exact (H i j e f N Hi Hj Pe Pf (conj C1 C2)).
Qed.
Lemma pairs_filter : forall (p : Edge U -> bool) (R : Edge U -> Edge U -> Prop) es,
  ForallOrdPairs R (filter p es) <-> ForallOrdPairs (fun e f => p e = true -> p f = true -> R e f) es.
Proof.
  intros p R es. induction es as [|a es IH]; [split; constructor|]. cbn [filter]. destruct (p a) eqn:Pa.
  - split; intros H; inversion H; subst; constructor; try (apply IH; assumption).
    + apply Forall_forall. intros x Hx _ Px. match goal with F : Forall _ (filter _ _) |- _ => rewrite Forall_forall in F; apply F end. now apply filter_In.
    + apply Forall_forall. intros x Hx. apply filter_In in Hx. match goal with F : Forall _ es |- _ => rewrite Forall_forall in F; now apply F end.
  - rewrite IH. split; intros H; [constructor; [|exact H]; apply Forall_forall; intros; congruence|now inversion H].
Qed.

(** Deleting nodes and edges. *)
Lemma restricts_loose : forall keep (g g' : graph) gone sv rest ps, drawn g ps ->
  loosely_drawn ps (edges g) -> Permutation (rest ++ sv) (edges g) -> restricts keep g g' gone sv ->
  exists ps', drawn g' ps' /\
    (forall x, In x ps' <-> exists k, (k < length ps)%nat /\ ~ gone k /\ x = pt ps k) /\
    (forall x, covers ps' (edges g') x <-> covers ps sv x) /\
    (forall x, (exists a, crossed ps' (edges g') a /\ x = pt ps' a) <->
       exists k e, (k < length ps)%nat /\ ~ gone k /\ In e sv /\ crosses_node ps k e /\ x = pt ps k) /\
    (loosely_drawn ps' (edges g') <-> forall k, (k < length ps)%nat -> gone k -> ~ through_two (fun _ => True) ps sv k).
Proof.
  intros keep g g' gone sv rest ps D (V & A & C & M) Pm R. pose proof R as (Inc & K & Fn & Fe).
  set (ps' := map (pt ps) keep). exists ps'.
  assert (Lk : forall i, In i keep <-> (i < length ps)%nat /\ ~ gone i) by (intros i; rewrite K, (drawn_length _ _ D); tauto).
  assert (Ptk : forall a i, nth_error keep a = Some i -> pt ps' a = pt ps i).
  { intros a i H. unfold ps'. unfold pt at 1. apply nth_error_nth. now rewrite nth_error_map, H. }
  assert (Len : length ps' = length keep) by (unfold ps'; apply map_length).
  assert (Kn : forall a, (a < length ps')%nat -> exists i, nth_error keep a = Some i /\ (i < length ps)%nat /\ ~ gone i).
  { intros a Ha. rewrite Len in Ha. destruct (nth_error keep a) as [i|] eqn:E.
    - exists i. split; [reflexivity|]. apply Lk. eapply nth_error_In; eassumption.
    - apply nth_error_None in E. lia. }
  assert (Kb : forall i, (i < length ps)%nat -> ~ gone i -> exists a, nth_error keep a = Some i /\ (a < length ps')%nat).
  { intros i Li Ni. assert (Hi : In i keep) by (apply Lk; auto). apply In_nth_error in Hi. destruct Hi as [a Ha]. exists a. split; [exact Ha|].
    rewrite Len. apply nth_error_Some. congruence. }
  assert (Sv : forall e, In e sv -> In e (edges g)).
  { intros e He. eapply Permutation_in; [exact Pm|]. apply in_or_app. now right. }
  assert (Es : forall a e', nth_error (edges g') a = Some e' -> exists e, nth_error sv a = Some e /\ same_edge_via keep e' e).
  { intros a e' H. exact (forall2_nth' _ _ _ _ _ Fe _ _ H). }
  assert (Es' : forall a e, nth_error sv a = Some e -> exists e', nth_error (edges g') a = Some e' /\ same_edge_via keep e' e).
  { intros a e H. exact (forall2_nth _ _ _ _ _ Fe _ _ H). }
  assert (OnE : forall (e' e : Edge U) x, same_edge_via keep e' e -> (edge_on ps' e' x <-> edge_on ps e x)).
  { intros e' e x (H1 & H2 & _). unfold edge_on. now rewrite (Ptk _ _ H1), (Ptk _ _ H2). }
  assert (Inj : forall a b i, nth_error keep a = Some i -> nth_error keep b = Some i -> a = b).
  { intros a b i Ha Hb. eapply nodup_nth_inj; [apply increasing_nodup, Inc| |]; eassumption. }
  assert (Cr : forall (e' e : Edge U) a k, same_edge_via keep e' e -> nth_error keep a = Some k ->
    (crosses_node ps' a e' <-> crosses_node ps k e)).
  { intros e' e a k Se Ha. unfold crosses_node. rewrite (OnE e' e _ Se), (Ptk _ _ Ha).
    assert (Tt : touches a e' <-> touches k e); [|tauto]. destruct Se as (S1 & S2 & _). unfold touches. split; intros [Q|Q].
    - left. rewrite Q in S1. congruence.
    - right. rewrite Q in S2. congruence.
    - left. rewrite Q in S1. exact (Inj _ _ _ S1 Ha).
    - right. rewrite Q in S2. exact (Inj _ _ _ S2 Ha). }
  assert (Kept : forall e, In e sv -> forall k, touches k e -> ~ gone k).
  { intros e He k Tk. apply In_nth_error in He. destruct He as [a Ha]. destruct (Es' a e Ha) as (e' & _ & S1 & S2 & _).
    apply nth_error_In in S1, S2. apply Lk in S1, S2. destruct Tk as [<-|<-]; tauto. }
  assert (D' : drawn g' ps').
  { unfold drawn, ps'. clear - Fn D. induction Fn as [|n i l l' Hn F IH]; [reflexivity|].
    cbn [map]. rewrite IH. f_equal. now apply (drawn_nth g). }
  split; [exact D'|]. split; [|split; [|split]].
  - exact (restricts_nodes keep g g' gone sv ps ps' D D' R).
  - intros x. split; intros (e & He & O); apply In_nth_error in He; destruct He as [a Ha].
    + destruct (Es a e Ha) as (e0 & He0 & S). exists e0. split; [eapply nth_error_In; eassumption|]. now apply (OnE e e0).
    + destruct (Es' a e Ha) as (e' & He' & S). exists e'. split; [eapply nth_error_In; eassumption|]. now apply (OnE e' e).
  - intros x. split.
    + intros (a & (La & e' & He' & Ce) & ->). destruct (Kn a La) as (k & Ha & Hk & Nk). apply In_nth_error in He'. destruct He' as [b Hb].
      destruct (Es b e' Hb) as (e & He & Se). exists k, e. split; [exact Hk|]. split; [exact Nk|]. split; [eapply nth_error_In; eassumption|].
      split; [now apply (Cr e' e a k Se Ha)|exact (Ptk _ _ Ha)].
    + intros (k & e & Hk & Nk & He & Ce & ->). destruct (Kb k Hk Nk) as (a & Ha & La). apply In_nth_error in He. destruct He as [b Hb].
      destruct (Es' b e Hb) as (e' & He' & Se). exists a. split; [|symmetry; exact (Ptk _ _ Ha)]. split; [exact La|]. exists e'.
      split; [eapply nth_error_In; eassumption|]. now apply (Cr e' e a k Se Ha).
  - split.
    + intros (V' & A' & C' & M') k Lk' Gk (i & j & e & f & N & Hi & Hj & _ & _ & [Nt1 O1] & [Nt2 O2]).
      destruct (Es' i e Hi) as (e' & He' & Se). destruct (Es' j f Hj) as (f' & Hf' & Sf).
      destruct (M' i j e' f' (pt ps k) N He' Hf' (proj2 (OnE _ _ _ Se) O1) (proj2 (OnE _ _ _ Sf) O2)) as (a & La & E).
      destruct (Kn a La) as (k' & Ha & Lk2 & Nk'). rewrite (Ptk _ _ Ha) in E.
      destruct (Nat.eq_dec k k') as [->|Nk]; [contradiction|]. pose proof (A k k' Lk' Lk2 Nk) as B. rewrite E, dist_self0 in B. pose proof eps32_pos. lra.
    + intros N2. split; [|split; [|split]].
      * intros e' H. apply In_nth_error in H. destruct H as [a Ha]. destruct (Es a e' Ha) as (e & He & S1 & S2 & _).
        apply nth_error_In in He. destruct (V e (Sv e He)) as (N & _). rewrite Len.
        split; [|split; apply nth_error_Some; congruence]. intros E. rewrite E in S1. congruence.
      * intros i j Hi Hj N. destruct (Kn i Hi) as (a & Ha & La & _). destruct (Kn j Hj) as (b & Hb & Lb & _).
        rewrite (Ptk _ _ Ha), (Ptk _ _ Hb). apply A; auto. intros ->. apply N. eapply Inj; eassumption.
      * intros k e' Hk H Hn. destruct (Kn k Hk) as (a & Ha & La & _).
        apply In_nth_error in H. destruct H as [b Hb]. destruct (Es b e' Hb) as (e & He & Se).
        apply nth_error_In in He. apply (OnE e' e _ Se). rewrite (Ptk _ _ Ha). apply (C a e La (Sv e He)). unfold edge_near in *. destruct Se as (S1 & S2 & _).
        now rewrite (Ptk _ _ S1), (Ptk _ _ S2), (Ptk _ _ Ha) in Hn.
      * assert (Ms : ForallOrdPairs (meet_node ps) sv).
        { apply (pairs_sub _ _ rest). apply (pairs_perm _ (meet_node_sym ps) (edges g)); [now apply Permutation_sym|].
          apply (pairs_nth _ (meet_node_sym ps)). intros i j e f N Hi Hj x H1 H2. exact (M i j e f x N Hi Hj H1 H2). }
        intros i j e' f' x N Hi Hj H1 H2.
        destruct (Es i e' Hi) as (e & He & Se). destruct (Es j f' Hj) as (f & Hf & Sf).
        apply (OnE e' e) in H1; [|exact Se]. apply (OnE f' f) in H2; [|exact Sf].
        destruct (proj1 (pairs_nth _ (meet_node_sym ps) sv) Ms i j e f N He Hf x H1 H2) as (k & Lk' & ->).
        destruct (classic (gone k)) as [Gk|Nk].
        { exfalso. apply (N2 k Lk' Gk). exists i, j, e, f. split; [exact N|]. split; [exact He|]. split; [exact Hf|]. split; [exact Logic.I|]. split; [exact Logic.I|].
          split; (split; [|assumption]); intros Tk; [exact (Kept e (nth_error_In _ _ He) k Tk Gk)|exact (Kept f (nth_error_In _ _ Hf) k Tk Gk)]. }
        destruct (Kb k Lk' Nk) as (a & Ha & La). exists a. split; [exact La|]. symmetry. exact (Ptk _ _ Ha).
Qed.

Lemma loosely_valid : forall (g : graph) ps, drawn g ps -> loosely_drawn ps (edges g) -> valid g.
Proof. intros g ps D (V & _) e He. rewrite (drawn_length _ _ D). destruct (V e He). tauto. Qed.
Lemma loosely_no_loops : forall (g : graph) ps, loosely_drawn ps (edges g) -> no_loops g.
Proof. intros g ps (V & _) e He. now apply V. Qed.

Theorem remove_node_loose : forall (g g' : graph) ps id r, drawn g ps -> loosely_drawn ps (edges g) -> (id < length ps)%nat ->
  remove_node g id = Ok (g', r) ->
  exists ps', drawn g' ps' /\
    (forall x, In x ps' <-> exists k, (k < length ps)%nat /\ ~ to_delete g id k /\ x = pt ps k) /\
    (forall x, covers ps' (edges g') x <-> exists e, In e (edges g) /\ ~ touches id e /\ edge_on ps e x) /\
    (forall x, (exists a, crossed ps' (edges g') a /\ x = pt ps' a) <->
       exists k e, (k < length ps)%nat /\ ~ to_delete g id k /\ In e (edges g) /\ ~ touches id e /\ crosses_node ps k e /\ x = pt ps k) /\
    (loosely_drawn ps' (edges g') <-> drops_node g ps id).
Proof.
  intros g g' ps id r D W Hi H. pose proof (loosely_valid g ps D W) as Hv.
  assert (Hi' : (id < length (nodes g))%nat) by (rewrite (drawn_length _ _ D); exact Hi).
  assert (NL : ~ lonely_loop g id) by (apply no_loops_not_lonely; eapply loosely_no_loops; eassumption).
  pose proof (remove_node_restricts g g' id r Hv Hi' NL H) as R.
  destruct (restricts_loose _ _ _ _ _ (filter (fun e => negb (negb (touchesb id e))) (edges g)) ps D W (filter_perm _ _ _) R)
    as (ps' & D' & N' & C' & K' & L').
  exists ps'. split; [exact D'|]. split; [exact N'|]. split; [|split].
  - intros x. rewrite C'. unfold covers. split; intros (e & He); exists e; rewrite filter_In, negb_true_iff, touchesb_false in *; tauto.
  - intros x. rewrite K'. split; intros (k & e & He); exists k, e; rewrite filter_In, negb_true_iff, touchesb_false in *; tauto.
  - rewrite L'. unfold drops_node.
    assert (Q : forall k, ~ through_two (fun _ => True) ps (filter (fun e => negb (touchesb id e)) (edges g)) k <->
      ~ through_two (fun e => ~ touches id e) ps (edges g) k).
    { intros k. rewrite !two_pairs, pairs_filter.
      assert (Imp : forall (R1 R2 : Edge U -> Edge U -> Prop) es, (forall e f, R1 e f -> R2 e f) -> ForallOrdPairs R1 es -> ForallOrdPairs R2 es).
      { clear. intros R1 R2 es I F. induction F as [|a l F1 F2 IH]; constructor; [|exact IH]. eapply Forall_impl; [|exact F1]. auto. }
      split; apply Imp; intros e f Q; unfold not_both_if in *; rewrite ?negb_true_iff, ?touchesb_false in *; auto. }
    assert (Lt : forall k, to_delete g id k -> (k < length ps)%nat).
    { intros k [->|((e & He & J) & _)]; [exact Hi|]. destruct W as (V & _). destruct (V e He) as (_ & L1 & L2). destruct J as [[<- <-]|[<- <-]]; assumption. }
    split; intros X k; [intros G|intros _ G]; apply Q; auto.
Qed.

Theorem remove_edge_loose : forall (g g' : graph) ps id e r, drawn g ps -> loosely_drawn ps (edges g) -> nth_error (edges g) id = Some e ->
  remove_edge g id = Ok (g', r) ->
  exists ps', drawn g' ps' /\
    (forall x, In x ps' <-> exists k, (k < length ps)%nat /\ ~ (touches k e /\ degree g k = 1%nat) /\ x = pt ps k) /\
    (forall x, covers ps' (edges g') x <-> exists i f, i <> id /\ nth_error (edges g) i = Some f /\ edge_on ps f x) /\
    (forall x, (exists a, crossed ps' (edges g') a /\ x = pt ps' a) <->
       exists k i f, (k < length ps)%nat /\ ~ (touches k e /\ degree g k = 1%nat) /\ i <> id /\ nth_error (edges g) i = Some f /\
         crosses_node ps k f /\ x = pt ps k) /\
    (loosely_drawn ps' (edges g') <-> drops_edge g ps id).
Proof.
  intros g g' ps id e r D W E H. pose proof (loosely_valid g ps D W) as Hv.
  assert (NL : ~ lonely_loop g (src e)) by (apply no_loops_not_lonely; eapply loosely_no_loops; eassumption).
  destruct (remove_edge_restricts g g' id e r Hv E NL H) as (keep & sv & Pm & R).
  assert (Pm' : Permutation ([e] ++ sv) (edges g)).
  { eapply Permutation_trans; [|apply GraphPlanar.without_perm; exact E]. now apply Permutation_app_head. }
  destruct (restricts_loose _ _ _ _ _ _ ps D W Pm' R) as (ps' & D' & N' & C' & K' & L').
  exists ps'. split; [exact D'|]. split; [exact N'|].
  assert (Wi : forall f, In f (without id (edges g)) <-> exists i, i <> id /\ nth_error (edges g) i = Some f).
  { clear - E. unfold without. intros f. revert id E. generalize (edges g). intros es.
    induction es as [|a es IH]; intros [|id] E; try discriminate; cbn [firstn skipn app].
    - split.
      + intros He. apply In_nth_error in He. destruct He as [j Hj]. exists (S j). auto.
      + intros ([|i] & N & Hi); [congruence|]. simpl in Hi. eapply nth_error_In; eassumption.
    - simpl in E. specialize (IH id E). split.
      + intros [->|He]; [exists 0%nat; auto|]. apply IH in He. destruct He as (i & N & Hi). exists (S i). auto.
      + intros ([|i] & N & Hi); simpl in Hi; [inv Hi; now left|]. right. apply IH. exists i. auto. }
  assert (Wj : forall f, In f sv <-> exists i, i <> id /\ nth_error (edges g) i = Some f).
  { intros f. rewrite <- Wi. split; apply Permutation_in; [exact Pm|now apply Permutation_sym]. }
  split; [|split].
  - intros x. rewrite C'. unfold covers. split.
    + intros (f & Hf & O). apply Wj in Hf. destruct Hf as (i & N & Hi). eauto.
    + intros (i & f & N & Hi & O). exists f. split; [apply Wj; eauto|exact O].
  - intros x. rewrite K'. split.
    + intros (k & f & Lk & Nk & Hf & Ck & Ex). apply Wj in Hf. destruct Hf as (i & N & Hi). exists k, i, f. auto 10.
    + intros (k & i & f & Lk & Nk & N & Hi & Ck & Ex). exists k, f. split; [exact Lk|]. split; [exact Nk|]. split; [apply Wj; eauto|auto].
  - rewrite L'. unfold drops_edge.
    assert (Q : forall k, touches k e -> (~ through_two (fun _ => True) ps sv k <-> ~ through_two (fun _ => True) ps (edges g) k)).
    { intros k Tk. rewrite !two_pairs. split.
      - intros F. apply (pairs_perm _ (not_both_if_sym (fun _ => True) ps k) ([e] ++ sv)); [exact Pm'|]. constructor; [|exact F].
        apply Forall_forall. intros f _ _ _ [[Nt _] _]. contradiction.
      - intros F. apply (pairs_sub _ _ [e]). apply (pairs_perm _ (not_both_if_sym (fun _ => True) ps k) (edges g)); [now apply Permutation_sym|exact F]. }
    destruct W as (V & _). destruct (V e (nth_error_In _ _ E)) as (_ & L1 & L2).
    split.
    + intros X f k Hf Tk Dk. assert (f = e) by congruence. subst f. apply Q; [exact Tk|]. apply X; [|auto]. destruct Tk as [<-|<-]; assumption.
    + intros X k Lk [Tk Dk]. apply Q; [exact Tk|]. exact (X e k E Tk Dk).
Qed.

(** All histories. *)
Theorem slack_history : forall os (g g' : graph) ps, drawn g ps -> loosely_drawn ps (edges g) -> slack dT g os ->
  run dT g os = Ok g' -> exists ps', drawn g' ps' /\ loosely_drawn ps' (edges g').
Proof.
  induction os as [|o os IH]; intros g g' ps D W L H; cbn [run] in H.
  - inv H. eauto.
  - apply bind_ok in H. destruct H as (g1 & H1 & H). destruct L as [Lo L]. specialize (L g1 H1).
    assert (S : exists ps1, drawn g1 ps1 /\ loosely_drawn ps1 (edges g1)).
    { assert (Add : loose dT g [o] -> exists ps1, drawn g1 ps1 /\ loosely_drawn ps1 (edges g1)).
      { intros La. destruct (loose_history dT [o] g g1 ps D W La) as (qs & D1 & W1 & _); [cbn [run]; rewrite H1; reflexivity|eauto]. }
      destruct o as [pos v|s d u|i|i]; cbn [slack_op] in Lo; [apply Add; split; [exact Lo|intros; exact Logic.I]|apply Add; split; [exact Lo|intros; exact Logic.I]| |];
        clear Add; cbn [step] in H1; apply bind_ok in H1; destruct H1 as ([g2 r] & H1 & E); inv E.
      - destruct (lt_dec i (length (nodes g))) as [Li|Li].
        + destruct (Lo Li) as (ps0 & D0 & G). rewrite (drawn_fun g _ _ D0 D) in G. rewrite (drawn_length _ _ D) in Li.
          destruct (remove_node_loose g g1 ps i r D W Li H1) as (ps1 & D1 & _ & _ & _ & W1). exists ps1. split; [exact D1|]. now apply W1.
        + rewrite remove_node_missing in H1 by lia. inv H1. eauto.
      - destruct Lo as (ps0 & D0 & G). rewrite (drawn_fun g _ _ D0 D) in G. destruct (nth_error (edges g) i) as [e|] eqn:Ee.
        + destruct (remove_edge_loose g g1 ps i e r D W Ee H1) as (ps1 & D1 & _ & _ & _ & W1). exists ps1. split; [exact D1|]. now apply W1.
        + unfold remove_edge in H1. rewrite Ee in H1. inv H1. eauto. }
    destruct S as (ps1 & D1 & W1). exact (IH g1 g' ps1 D1 W1 L H).
Qed.
End Main.
