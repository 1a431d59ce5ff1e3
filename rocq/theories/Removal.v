(** * What sequences of removals leave. *)
From Coq Require Import List Arith Bool Permutation Lia.
From Verif Require Import Scalar Utils Polygon Graph ListSpec GraphSpec GraphRemove GraphHistory RemovalSpec.
Import ListNotations.

Section Removal.
Context {O : Ops} {T U : Type}.
Local Notation graph := (PlanarGraph O T U).
Local Notation edge := (Edge U).

(** ** Increasing lists *)
Lemma increasing_nth : forall l, increasing l -> forall i j a b, i < j -> nth_error l i = Some a -> nth_error l j = Some b -> a < b.
Proof.
  induction l as [|x l IH]; intros I i j a b Hij Ha Hb; [destruct i; discriminate|].
  destruct I as [I1 I2]. destruct j as [|j]; [lia|]. cbn [nth_error] in Hb.
  destruct i as [|i].
  - injection Ha as <-. apply I1. eapply nth_error_In. exact Hb.
  - cbn [nth_error] in Ha. eapply (IH I2 i j); eauto. lia.
Qed.
Lemma increasing_inj : forall l, increasing l -> forall i j a, nth_error l i = Some a -> nth_error l j = Some a -> i = j.
Proof.
  intros l I i j a Ha Hb. destruct (Nat.lt_trichotomy i j) as [L|[->|L]]; [|reflexivity|].
  - pose proof (increasing_nth l I i j a a L Ha Hb). lia.
  - pose proof (increasing_nth l I j i a a L Hb Ha). lia.
Qed.
Lemma increasing_unique : forall l l', increasing l -> increasing l' -> (forall x, In x l <-> In x l') -> l = l'.
Proof.
  induction l as [|x l IH]; intros [|y l'] I I' H.
  - reflexivity.
  - exfalso. apply (proj2 (H y)). now left.
  - exfalso. apply (proj1 (H x)). now left.
  - destruct I as [I1 I2]. destruct I' as [J1 J2].
    assert (x = y).
    { destruct (proj1 (H x) (or_introl eq_refl)) as [E|E]; [easy|]. destruct (proj2 (H y) (or_introl eq_refl)) as [F|F]; [easy|].
      pose proof (J1 _ E). pose proof (I1 _ F). lia. }
    subst y. f_equal. apply IH; [assumption..|]. intros z. split; intros Hz.
    + destruct (proj1 (H z) (or_intror Hz)) as [->|K]; [|exact K]. pose proof (I1 _ Hz). lia.
    + destruct (proj2 (H z) (or_intror Hz)) as [->|K]; [|exact K]. pose proof (J1 _ Hz). lia.
Qed.
Lemma increasing_map : forall k1 k2 k, increasing k1 -> increasing k2 ->
  List.Forall2 (fun j i => nth_error k1 j = Some i) k2 k -> increasing k.
Proof.
  intros k1 k2 k I1 I2 F. revert I2. induction F as [|j i k2 k E F IH]; intros I2; [exact I|].
  destruct I2 as [J1 J2]. split; [|apply IH; exact J2].
  intros y Hy. apply In_nth_error in Hy. destruct Hy as [n Hn].
  assert (exists m, nth_error k2 n = Some m /\ nth_error k1 m = Some y) as (m & Hm & Em).
  { clear - F Hn. revert n Hn. induction F; intros [|n] Hn; try discriminate; cbn in *; [injection Hn as <-; eauto|eauto]. }
  eapply increasing_nth; [exact I1| |exact E|exact Em]. apply J1. eapply nth_error_In. exact Hm.
Qed.

(** ** Edges through a renumbering *)
Lemma via_fun : forall keep (x e1 e2 : edge), same_edge_via keep x e1 -> same_edge_via keep x e2 -> e1 = e2.
Proof.
  intros keep x [s1 d1 u1 l1] [s2 d2 u2 l2] (A1 & A2 & A3 & A4) (B1 & B2 & B3 & B4). simpl in *.
  rewrite A1 in B1. rewrite A2 in B2. congruence.
Qed.
Lemma via_inj : forall keep (x y e : edge), increasing keep -> same_edge_via keep x e -> same_edge_via keep y e -> x = y.
Proof.
  intros keep [s1 d1 u1 l1] [s2 d2 u2 l2] e I (A1 & A2 & A3 & A4) (B1 & B2 & B3 & B4). simpl in *.
  assert (s1 = s2) by (eapply increasing_inj; eauto). assert (d1 = d2) by (eapply increasing_inj; eauto). congruence.
Qed.
Lemma via_all_fun : forall keep (l : list edge) l1 l2, List.Forall2 (same_edge_via keep) l l1 -> List.Forall2 (same_edge_via keep) l l2 -> l1 = l2.
Proof.
  intros keep l l1 l2 F. revert l2. induction F as [|x e l l1 E F IH]; intros l2 G; inversion G; subst; [reflexivity|].
  f_equal; [eapply via_fun; eauto|auto].
Qed.
Lemma via_all_inj : forall keep (l1 l2 : list edge) l, increasing keep -> List.Forall2 (same_edge_via keep) l1 l -> List.Forall2 (same_edge_via keep) l2 l -> l1 = l2.
Proof.
  intros keep l1 l2 l I F. revert l2. induction F as [|x e l1 l E F IH]; intros l2 G; inversion G; subst; [reflexivity|].
  f_equal; [eapply via_inj; eauto|auto].
Qed.
Lemma via_touches : forall keep (x e : edge) k i, increasing keep -> same_edge_via keep x e -> nth_error keep k = Some i ->
  touchesb k x = touchesb i e.
Proof.
  intros keep x e k i I (A1 & A2 & _) Hk. unfold touchesb. f_equal; apply eq_true_iff_eq; rewrite !Nat.eqb_eq; split; intros E.
  - subst k. congruence.
  - subst i. eapply increasing_inj; eauto.
  - subst k. congruence.
  - subst i. eapply increasing_inj; eauto.
Qed.
Lemma via_degree : forall keep (l l' : list edge) k i, increasing keep -> List.Forall2 (same_edge_via keep) l l' -> nth_error keep k = Some i ->
  degree_in l k = degree_in l' i.
Proof.
  intros keep l l' k i I F Hk. induction F as [|x e l l' E F IH]; [reflexivity|]. cbn [degree_in].
  rewrite (via_touches keep x e k i I E Hk), IH. reflexivity.
Qed.
Lemma degree_perm : forall (l l' : list edge) i, Permutation l l' -> degree_in l i = degree_in l' i.
Proof. intros l l' i P. induction P; cbn [degree_in]; lia. Qed.

Lemma Forall2_perm_left : forall A B (R : A -> B -> Prop) l1 l1' l2, List.Forall2 R l1 l2 -> Permutation l1 l1' ->
  exists l2', Permutation l2 l2' /\ List.Forall2 R l1' l2'.
Proof.
  intros A B R l1 l1' l2 F P. revert l2 F. induction P as [|x l l' P IH|x y l|l l' l'' P1 IH1 P2 IH2]; intros l2 F.
  - inversion F; subst. exists []. split; constructor.
  - inversion F; subst. destruct (IH _ H3) as (l2' & Q & G). exists (y :: l2'). split; constructor; assumption.
  - inversion F; subst. inversion H3; subst. exists (y1 :: y0 :: l'0). split; [apply perm_swap|repeat constructor; assumption].
  - destruct (IH1 _ F) as (m & Q1 & G1). destruct (IH2 _ G1) as (m' & Q2 & G2). exists m'. split; [eapply perm_trans; eauto|exact G2].
Qed.

(** ** Composition *)
Lemma restricts_ext : forall keep (g g' : graph) P Q sv, (forall i, i < List.length (nodes g) -> (P i <-> Q i)) ->
  restricts keep g g' P sv -> restricts keep g g' Q sv.
Proof.
  intros keep g g' P Q sv H (I1 & I2 & I3 & I4). split; [exact I1|]. split; [|split; assumption].
  intros i. rewrite I2. split; intros [L N]; (split; [exact L|]); intros C; apply N; apply (H i L); exact C.
Qed.
Lemma leaves_refl : forall g : graph, valid g -> leaves g (edges g) g.
Proof.
  intros g V. exists (seq 0 (List.length (nodes g))). split; [|split; [|split]].
  - rewrite <- (filter_true_seq (fun _ => true)) by reflexivity. apply increasing_filter_seq.
  - intros i. rewrite in_seq. unfold degree. lia.
  - apply seq_self_nodes.
  - unfold valid in V. revert V. generalize (edges g). induction l as [|x l IH]; intros V; constructor.
    + destruct (V x) as [V1 V2]; [now left|]. unfold same_edge_via. rewrite !nth_error_seq0 by assumption. easy.
    + apply IH. intros. apply V. now right.
Qed.

Lemma restricts_trans : forall (g g1 g2 : graph) k1 s1 rest1 s2 rest2,
  restricts k1 g g1 (fun i => 0 < degree g i /\ degree_in s1 i = 0) s1 -> Permutation (s1 ++ rest1) (edges g) ->
  leaves g1 s2 g2 -> Permutation (s2 ++ rest2) (edges g1) ->
  exists s rest, leaves g s g2 /\ List.Forall2 (same_edge_via k1) s2 s /\ List.Forall2 (same_edge_via k1) rest2 rest /\
    Permutation (s ++ rest) s1.
Proof.
  intros g g1 g2 k1 s1 rest1 s2 rest2 (I1 & I2 & I3 & I4) P1 (k2 & J1 & J2 & J3 & J4) P2.
  apply Permutation_sym in P2. destruct (Forall2_perm_left _ _ _ _ _ _ I4 P2) as (L & PL & FL).
  apply Forall2_app_inv_l in FL. destruct FL as (s & rest & F1 & F2 & ->).
  exists s, rest. split; [|split; [exact F1|split; [exact F2|apply Permutation_sym; exact PL]]].
  assert (LEN : List.length (nodes g1) = List.length k1) by (eapply Forall2_same_length; exact I3).
  assert (K : exists k, List.Forall2 (fun j i => nth_error k1 j = Some i) k2 k).
  { assert (B : forall j, In j k2 -> j < List.length k1) by (intros j Hj; apply J2 in Hj; lia).
    clear - B. induction k2 as [|j k2 IH]; [exists []; constructor|]. destruct IH as (k & Hk); [intros; apply B; now right|].
    destruct (nth_error k1 j) as [i|] eqn:E; [exists (i :: k); constructor; assumption|].
    apply nth_error_None in E. specialize (B j (or_introl eq_refl)). lia. }
  destruct K as (k & K). exists k. split; [exact (increasing_map _ _ _ I1 J1 K)|].
  assert (INK : forall i, In i k <-> exists j, In j k2 /\ nth_error k1 j = Some i).
  { clear - K. intros i. induction K as [|j i' k2 k E K IH]; [split; [intros []|intros (? & [] & _)]|]. split.
    - intros [->|Hi]; [exists j; split; [now left|exact E]|]. apply IH in Hi. destruct Hi as (j' & Hj & Ej). exists j'. split; [now right|exact Ej].
    - intros (j' & [<-|Hj] & Ej); [left; congruence|right]. apply IH. eauto. }
  assert (NTH : forall m j, nth_error k2 m = Some j -> nth_error k m = nth_error k1 j).
  { clear - K. induction K as [|j i k2 k E K IH]; intros [|m] j' H; try discriminate; cbn in *; [injection H as <-; now rewrite E|auto]. }
  split; [|split].
  - intros i. rewrite INK. split.
    + intros (j & Hj & Ej). assert (Hi : In i k1) by (eapply nth_error_In; exact Ej). apply I2 in Hi. destruct Hi as [Li Ni].
      split; [exact Li|]. intros [D1 D2]. apply J2 in Hj. destruct Hj as [_ Nj]. apply Nj.
      unfold degree. rewrite (via_degree k1 (edges g1) s1 j i I1 I4 Ej), (via_degree k1 s2 s j i I1 F1 Ej). lia.
    + intros [Li Ni].
      assert (SUB : degree_in s i <= degree_in s1 i) by (rewrite (degree_perm _ _ i PL), degree_app; lia).
      assert (In i k1) as Hi by (apply I2; split; [exact Li|lia]).
      apply In_nth_error in Hi. destruct Hi as [j Ej]. exists j. split; [|exact Ej].
      apply J2. split; [rewrite LEN; apply nth_error_Some; congruence|].
      unfold degree. rewrite (via_degree k1 (edges g1) s1 j i I1 I4 Ej), (via_degree k1 s2 s j i I1 F1 Ej).
      assert (degree_in s1 i <= degree g i) by (unfold degree; rewrite <- (degree_perm _ _ i P1), degree_app; lia).
      lia.
  - clear - I3 J3 K. revert k K. induction J3 as [|n j ns k2 E J3 IH]; intros k K; inversion K; subst; constructor.
    + clear - I3 E H1. revert j E H1. induction I3 as [|n' i' ns' k1 E' I3 IH]; intros [|j] E H; try discriminate; cbn in *.
      * injection E as <-. injection H as <-. exact E'.
      * eapply IH; eauto.
    + now apply IH.
  - clear - J4 F1 NTH. revert s F1. induction J4 as [|x y l l' E J4 IH]; intros s F1; inversion F1; subst; constructor.
    + destruct E as (E1 & E2 & E3 & E4). destruct H1 as (A1 & A2 & A3 & A4). split; [|split; [|split; congruence]].
      * rewrite (NTH _ _ E1). exact A1.
      * rewrite (NTH _ _ E2). exact A2.
    + now apply IH.
Qed.

(** ** No parallel edges *)
Definition apart (e f : edge) : Prop := ~ joins (src e) (dst e) f.
Lemma apart_sym : forall e f, apart e f -> apart f e.
Proof. unfold apart, joins. intros e f H [[A B]|[A B]]; apply H; [left|right]; split; congruence. Qed.
Lemma pairs_perm : forall l l', Permutation l l' -> ForallOrdPairs apart l -> ForallOrdPairs apart l'.
Proof.
  intros l l' P. induction P as [|x l l' P IH|x y l|]; intros F; [exact F| | |auto].
  - inversion F; subst. constructor; [|auto]. rewrite <- P. assumption.
  - inversion F; subst. inversion H2; subst. inversion H1; subst. constructor; [constructor; [now apply apart_sym|assumption]|].
    constructor; assumption.
Qed.
Lemma pairs_app : forall l l', ForallOrdPairs apart (l ++ l') -> ForallOrdPairs apart l.
Proof.
  induction l as [|x l IH]; intros l' F; [constructor|]. cbn in F. inversion F; subst. constructor; [|eauto].
  rewrite Forall_app in H1. tauto.
Qed.
Lemma pairs_iff : forall g : graph, no_parallel g <-> ForallOrdPairs apart (edges g).
Proof.
  intros g. unfold no_parallel. generalize (edges g). induction l as [|x l IH]; split.
  - constructor.
  - intros _ i j ei ej _ Hi. destruct i; discriminate.
  - intros H. constructor.
    + rewrite Forall_forall. intros y Hy. apply In_nth_error in Hy. destruct Hy as [n Hn]. exact (H 0 (S n) x y ltac:(lia) eq_refl Hn).
    + apply IH. intros i j ei ej N Hi Hj. exact (H (S i) (S j) ei ej ltac:(lia) Hi Hj).
  - intros F i j ei ej N Hi Hj. inversion F; subst. rewrite Forall_forall in H1. destruct i as [|i], j as [|j]; cbn in Hi, Hj.
    + lia.
    + injection Hi as <-. apply H1. eapply nth_error_In. exact Hj.
    + injection Hj as <-. apply apart_sym. apply H1. eapply nth_error_In. exact Hi.
    + apply (proj2 IH H2 i j); [lia|assumption..].
Qed.
Lemma pairs_via : forall keep l l', List.Forall2 (same_edge_via keep) l l' -> ForallOrdPairs apart l' -> ForallOrdPairs apart l.
Proof.
  intros keep l l' F. induction F as [|x e l l' E F IH]; intros P; [constructor|]. inversion P; subst. constructor; [|auto].
  clear - E F H1. induction F as [|y f l l' E' F IH]; [constructor|]. inversion H1; subst. constructor; [|auto].
  destruct E as (A1 & A2 & _). destruct E' as (B1 & B2 & _). unfold apart, joins in *. intros [[Q1 Q2]|[Q1 Q2]]; apply H2; [left|right]; split; congruence.
Qed.

(** ** Single removals *)
Lemma restricts_keeps : forall keep (g g1 : graph) P s rest, restricts keep g g1 P s -> Permutation (s ++ rest) (edges g) ->
  (no_loops g -> no_loops g1) /\ (no_parallel g -> no_parallel g1).
Proof.
  intros keep g g1 P s rest R Pm. split.
  - apply (restricts_no_loops keep g g1 P s R). intros e He. apply (Permutation_in _ Pm). apply in_or_app. now left.
  - rewrite !pairs_iff. intros F. destruct R as (_ & _ & _ & F2). eapply pairs_via; [exact F2|].
    eapply pairs_app. eapply pairs_perm; [apply Permutation_sym; exact Pm|exact F].
Qed.
Lemma without_perm : forall (es : list edge) i e, nth_error es i = Some e -> Permutation (without i es ++ [e]) es.
Proof.
  intros es i e H. apply nth_error_split in H. destruct H as (l1 & l2 & -> & <-). unfold without.
  rewrite firstn_app, Nat.sub_diag, firstn_all, firstn_O, app_nil_r.
  rewrite skipn_app, skipn_all2 by lia. replace (S (List.length l1) - List.length l1) with 1 by lia. cbn [skipn app].
  rewrite <- app_assoc. apply Permutation_app_head. apply Permutation_sym, Permutation_cons_append.
Qed.
Lemma remove_edge_leaves : forall (g g1 : graph) i e r, valid g -> no_loops g -> nth_error (edges g) i = Some e ->
  remove_edge g i = Ok (g1, r) ->
  exists s, Permutation (s ++ [e]) (edges g) /\ restricts (kept g e) g g1 (fun i => 0 < degree g i /\ degree_in s i = 0) s.
Proof.
  intros g g1 i e r V NL He H.
  destruct (remove_edge_restricts g g1 i e r V He (no_loops_not_lonely g _ NL) H) as (keep & s & P & R).
  assert (PS : Permutation (s ++ [e]) (edges g)).
  { eapply perm_trans; [apply Permutation_app_tail; exact P|]. now apply without_perm. }
  exists s. split; [exact PS|].
  assert (DEG : forall k, degree g k = degree_in s k + (if touchesb k e then 1 else 0)).
  { intros k. unfold degree. rewrite <- (degree_perm _ _ k PS), degree_app. cbn [degree_in]. lia. }
  assert (EQ : forall k, touches k e /\ degree g k = 1 <-> 0 < degree g k /\ degree_in s k = 0).
  { intros k. pose proof (DEG k) as D. rewrite <- touchesb_iff. destruct (touchesb k e); split; intros [A B]; try discriminate; (split; [|lia]); try reflexivity; lia. }
  assert (K : keep = kept g e).
  { apply increasing_unique; [apply R|apply increasing_filter_seq|]. intros k. destruct R as (_ & R2 & _). rewrite R2.
    unfold kept. rewrite filter_In, in_seq, negb_true_iff, andb_false_iff, Nat.eqb_neq, touchesb_false. split.
    - intros [L N]. split; [lia|]. destruct (touchesb k e) eqn:Q; [right; intros D; apply N; split; [now apply touchesb_iff|exact D]|left; now apply touchesb_false].
    - intros [L N]. split; [lia|]. intros [A B]. destruct N as [N|N]; contradiction. }
  rewrite <- K. eapply restricts_ext; [|exact R]. intros k _. apply EQ.
Qed.
Lemma filter_perm : forall (f : edge -> bool) l, Permutation (filter (fun e => negb (f e)) l ++ filter f l) l.
Proof.
  intros f. induction l as [|x l IH]; [constructor|]. cbn [filter]. destruct (f x); cbn [negb app].
  - apply Permutation_sym. apply Permutation_cons_app. now apply Permutation_sym.
  - now constructor.
Qed.
Lemma remove_node_leaves : forall (g g1 : graph) id r, valid g -> no_loops g -> no_parallel g -> id < List.length (nodes g) ->
  remove_node g id = Ok (g1, r) ->
  let s := filter (fun e => negb (touchesb id e)) (edges g) in
  restricts (keep_of g id) g g1 (fun i => 0 < degree g i /\ degree_in s i = 0) s.
Proof.
  intros g g1 id r V NL NP Hid H s. pose proof (no_loops_not_lonely g id NL) as NLo.
  pose proof (remove_node_restricts g g1 id r V Hid NLo H) as R. fold s in R.
  assert (PS : Permutation (s ++ filter (touchesb id) (edges g)) (edges g)) by apply filter_perm.
  assert (DEG : forall k, degree g k = degree_in s k + degree_in (filter (touchesb id) (edges g)) k).
  { intros k. unfold degree. rewrite <- (degree_perm _ _ k PS), degree_app. lia. }
  eapply restricts_ext; [|exact R]. intros i Li. cbv beta. split.
  - intros [->|[(e & He & J) D]].
    + assert (degree_in s id = 0).
      { destruct (degree_in s id) as [|n] eqn:Q; [reflexivity|]. exfalso. assert (0 < degree_in s id) as Q' by lia. apply degree_pos in Q'.
        destruct Q' as (e & He & Te). unfold s in He. apply filter_In in He. destruct He as [_ He]. apply negb_true_iff, touchesb_false in He. contradiction. }
      split; [|assumption]. destruct (degree g id) as [|n] eqn:Q; [exfalso|lia].
      assert (remove_node g id = Panic) as PN by (apply remove_node_panics; [exact V|]; split; [exact Hid|left; exact Q]). congruence.
    + split; [lia|]. pose proof (DEG i) as Q. assert (0 < degree_in (filter (touchesb id) (edges g)) i).
      { apply degree_pos. exists e. destruct J as [[A B]|[A B]]; (split; [apply filter_In; split; [exact He|apply touchesb_iff]|]); unfold touches; auto. }
      lia.
  - intros [D Z]. rewrite <- marked_iff by exact V.
    destruct (in_dec Nat.eq_dec i (id :: strays g id)) as [Y|N]; [exact Y|exfalso]. rewrite marked_iff in N by exact V.
    assert (In i (keep_of g id)) as Hi by (apply R; split; assumption).
    apply In_nth_error in Hi. destruct Hi as [k Hk].
    pose proof (remove_node_no_strays g g1 id r V NP Hid NLo H k i Hk D) as Q.
    unfold degree in Q. destruct R as (R1 & _ & _ & R4). rewrite (via_degree _ _ _ _ _ R1 R4 Hk) in Q. lia.
Qed.

(** ** Sequences *)
Theorem leaves_determined : forall (g g1 g2 : graph) s1 s2, leaves g s1 g1 -> leaves g s2 g2 -> Permutation s1 s2 -> same_but_order g1 g2.
Proof.
  intros g g1 g2 s1 s2 (k1 & A1 & A2 & A3 & A4) (k2 & B1 & B2 & B3 & B4) P.
  assert (k1 = k2).
  { apply increasing_unique; [assumption..|]. intros x. rewrite A2, B2, (degree_perm _ _ x P). tauto. }
  subst k2. split.
  - clear - A3 B3. revert B3. generalize (nodes g2). induction A3 as [|n i ns k E A3 IH]; intros l B3; inversion B3; subst; [reflexivity|].
    f_equal; [congruence|auto].
  - assert (F : List.Forall2 (fun e x => same_edge_via k1 x e) s1 (edges g1)) by (clear - A4; induction A4; constructor; assumption).
    destruct (Forall2_perm_left _ _ _ _ _ _ F P) as (l & Q & G). assert (l = edges g2) as ->; [|exact Q].
    apply (via_all_inj k1 l (edges g2) s2 A1); [|exact B4]. clear - G. induction G; constructor; assumption.
Qed.

Theorem removals_leaves : forall (g g' : graph) l, removals g l g' -> valid g -> no_loops g ->
  exists s, Permutation (s ++ l) (edges g) /\ leaves g s g'.
Proof.
  intros g g' l H. induction H as [g|g i e r g1 es1 es g' He H F H' IH]; intros V NL.
  - exists (edges g). rewrite app_nil_r. split; [apply Permutation_refl|]. now apply leaves_refl.
  - destruct (remove_edge_leaves g g1 i e r V NL He H) as (s1 & P1 & R1).
    destruct IH as (s2 & P2 & L2); [exact (remove_edge_valid _ _ _ _ H V)|exact (proj1 (restricts_keeps _ _ _ _ _ _ R1 P1) NL)|].
    destruct (restricts_trans g g1 g' _ s1 _ s2 es1 R1 P1 L2 P2) as (s & rest & L & F1 & F2 & P).
    rewrite (via_all_fun _ _ _ _ F2 F) in P. exists s. split; [|exact L].
    eapply perm_trans; [|exact P1]. eapply perm_trans; [|apply Permutation_app_tail; exact P].
    rewrite <- app_assoc. apply Permutation_app_head. apply Permutation_cons_append.
Qed.

Theorem removals_order : forall (g g1 g2 : graph) l1 l2, valid g -> no_loops g ->
  removals g l1 g1 -> removals g l2 g2 -> Permutation l1 l2 -> same_but_order g1 g2.
Proof.
  intros g g1 g2 l1 l2 V NL H1 H2 P. destruct (removals_leaves g g1 l1 H1 V NL) as (s1 & P1 & L1).
  destruct (removals_leaves g g2 l2 H2 V NL) as (s2 & P2 & L2). apply (leaves_determined g g1 g2 s1 s2 L1 L2).
  apply (Permutation_app_inv_r l2). eapply perm_trans; [|apply Permutation_sym; exact P2]. eapply perm_trans; [|exact P1].
  apply Permutation_app_head. now apply Permutation_sym.
Qed.
Theorem remove_node_by_edges : forall (g g1 g2 : graph) id r l, valid g -> no_loops g -> no_parallel g -> id < List.length (nodes g) ->
  remove_node g id = Ok (g1, r) -> removals g l g2 -> Permutation l (filter (touchesb id) (edges g)) -> same_but_order g1 g2.
Proof.
  intros g g1 g2 id r l V NL NP Hid H R P. destruct (removals_leaves g g2 l R V NL) as (s2 & P2 & L2).
  apply (leaves_determined g g1 g2 (filter (fun e => negb (touchesb id e)) (edges g)) s2); [|exact L2|].
  - exists (keep_of g id). exact (remove_node_leaves g g1 id r V NL NP Hid H).
  - apply (Permutation_app_inv_r (filter (touchesb id) (edges g))). eapply perm_trans; [apply filter_perm|].
    apply Permutation_sym. eapply perm_trans; [|exact P2]. apply Permutation_app_head. now apply Permutation_sym.
Qed.

Theorem history_leaves : forall (dT : T) os (g g' : graph), Forall removal os -> valid g -> no_loops g -> no_parallel g \/ Forall edge_removal os ->
  run dT g os = Ok g' -> exists s rest, Permutation (s ++ rest) (edges g) /\ leaves g s g'.
Proof.
  intros dT. induction os as [|o os IH]; intros g g' F V NL NP H.
  - injection H as <-. exists (edges g), []. rewrite app_nil_r. split; [apply Permutation_refl|]. now apply leaves_refl.
  - inversion F; subst. cbn [run] in H. destruct (step dT g o) as [g1|] eqn:E; [|discriminate]. cbn [bind] in H.
    assert (ST : g1 = g \/ valid g1 /\ exists k1 s1 rest1, Permutation (s1 ++ rest1) (edges g) /\
      restricts k1 g g1 (fun i => 0 < degree g i /\ degree_in s1 i = 0) s1).
    { destruct o as [p d|s d u|id|id]; try contradiction; cbn [step] in E.
      - destruct (remove_node g id) as [[g2 r]|] eqn:Q; [|discriminate]. injection E as <-.
        destruct (lt_dec id (List.length (nodes g))) as [Hid|Hid]; [right|left].
        + split; [exact (remove_node_valid _ _ _ _ Q V)|]. destruct NP as [NP|NP]; [|inversion NP; contradiction].
          exists (keep_of g id), (filter (fun e => negb (touchesb id e)) (edges g)), (filter (touchesb id) (edges g)).
          split; [apply filter_perm|]. exact (remove_node_leaves g g2 id r V NL NP Hid Q).
        + rewrite remove_node_missing in Q by lia. congruence.
      - destruct (remove_edge g id) as [[g2 r]|] eqn:Q; [|discriminate]. injection E as <-.
        destruct (nth_error (edges g) id) as [e|] eqn:He; [right|left].
        + split; [exact (remove_edge_valid _ _ _ _ Q V)|]. destruct (remove_edge_leaves g g2 id e r V NL He Q) as (s1 & P1 & R1).
          exists (kept g e), s1, [e]. split; assumption.
        + apply nth_error_None in He. rewrite remove_edge_missing in Q by exact He. congruence. }
    destruct ST as [->|(V1 & k1 & s1 & rest1 & P1 & R1)].
    + apply (IH g g' H3 V NL); [|exact H]. destruct NP as [NP|NP]; [now left|right; now inversion NP].
    + destruct (restricts_keeps _ _ _ _ _ _ R1 P1) as [K1 K2].
      destruct (IH g1 g' H3 V1 (K1 NL)) as (s2 & rest2 & P2 & L2); [|exact H|].
      { destruct NP as [NP|NP]; [left; auto|right; now inversion NP]. }
      destruct (restricts_trans g g1 g' k1 s1 rest1 s2 rest2 R1 P1 L2 P2) as (s & rest & L & _ & _ & P).
      exists s, (rest ++ rest1). split; [|exact L]. rewrite app_assoc. eapply perm_trans; [apply Permutation_app_tail; exact P|exact P1].
Qed.

Theorem clear_all : forall (dT : T) (g : graph), valid g -> no_loops g ->
  exists g', run dT g (repeat (ORemoveEdge 0) (List.length (edges g))) = Ok g' /\ leaves g [] g'.
Proof.
  intros dT g. remember (List.length (edges g)) as n eqn:En. revert g En. induction n as [|n IH]; intros g En V NL.
  - exists g. split; [reflexivity|]. destruct (edges g) eqn:Q; [|discriminate]. rewrite <- Q. now apply leaves_refl.
  - destruct (nth_error (edges g) 0) as [e|] eqn:He; [|apply nth_error_None in He; lia].
    destruct (remove_edge g 0) as [[g1 r]|] eqn:H.
    2:{ exfalso. apply remove_edge_panics in H; [|exact V]. destruct H as (e' & He' & [(D1 & D2 & L)|(S0 & D0 & _)]).
        - unfold degree in D1. destruct (edges g) as [|x [|y l]]; cbn in *; try discriminate. destruct (touchesb (src e') x); lia.
        - apply (NL e'); [eapply nth_error_In; exact He'|congruence]. }
    destruct (remove_edge_leaves g g1 0 e r V NL He H) as (s1 & P1 & R1).
    assert (L1 : List.length (edges g1) = n).
    { pose proof (Permutation_length P1) as Q. rewrite app_length in Q. cbn in Q.
      destruct R1 as (_ & _ & _ & F). apply Forall2_same_length in F. lia. }
    destruct (IH g1 (eq_sym L1) (remove_edge_valid _ _ _ _ H V) (proj1 (restricts_keeps _ _ _ _ _ _ R1 P1) NL)) as (g' & Hr & L2).
    exists g'. cbn [repeat run step]. rewrite H. cbn [bind]. split; [exact Hr|].
    destruct (restricts_trans g g1 g' _ s1 _ [] (edges g1) R1 P1 L2 (Permutation_refl _)) as (s & rest & L & F1 & _).
    inversion F1; subst. exact L.
Qed.
End Removal.
