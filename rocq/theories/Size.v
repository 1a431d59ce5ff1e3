(** * How many nodes and edges a drawing has: proofs. *)
From Coq Require Import Reals List Arith Bool Lia Lra Permutation.
From Verif Require Import Scalar Utils Graph GraphSpec Laws PlaneSpec UtilsReal PlanarSpec GraphAdd GraphPlanar DrawSpec Draw.
Import ListNotations.
Local Open Scope R_scope.

(** ** Counting the members of a list with a property *)
Section Count.
Context {A : Type}.
Inductive count (P : A -> Prop) : list A -> nat -> Prop :=
| count_nil : count P [] 0
| count_yes : forall a l n, P a -> count P l n -> count P (a :: l) (S n)
| count_no : forall a l n, ~ P a -> count P l n -> count P (a :: l) n.

Lemma count_app : forall P l l' n n', count P l n -> count P l' n' -> count P (l ++ l') (n + n').
Proof. intros P l l' n n' H H'. induction H; cbn [app plus]; [exact H'|now constructor|now constructor]. Qed.
Lemma count_app_inv : forall P l l' n, count P (l ++ l') n -> exists a b, count P l a /\ count P l' b /\ n = (a + b)%nat.
Proof.
  intros P l. induction l as [|x l IH]; intros l' n H; cbn [app] in H.
  - exists 0%nat, n. split; [constructor|auto].
  - inversion H as [|a m k Px C|a m k Px C]; subst; destruct (IH _ _ C) as (u & v & Cu & Cv & ->).
    + exists (S u), v. split; [now constructor|auto].
    + exists u, v. split; [now constructor|auto].
Qed.
Lemma count_filter : forall P (f : A -> bool) l n, count P l n -> (forall a, In a l -> (f a = true <-> P a)) -> length (filter f l) = n.
Proof.
  intros P f l n H. induction H as [|a l n Pa C IH|a l n Pa C IH]; intros E; [reflexivity| |]; cbn [filter].
  - rewrite (proj2 (E a (or_introl eq_refl)) Pa). cbn [length]. f_equal. apply IH. intros; apply E; now right.
  - destruct (f a) eqn:F; [exfalso; apply Pa, (E a); [now left|exact F]|]. apply IH. intros; apply E; now right.
Qed.
Lemma count_one : forall (P : A -> Prop) l i a, nth_error l i = Some a -> P a -> (forall j b, nth_error l j = Some b -> P b -> j = i) -> count P l 1.
Proof.
  intros P. assert (None0 : forall l, (forall j b, nth_error l j = Some b -> ~ P b) -> count P l 0).
  { induction l as [|a l IH]; intros H; [constructor|]. apply count_no; [exact (H 0%nat a eq_refl)|]. apply IH. intros j b Hb. exact (H (S j) b Hb). }
  induction l as [|c l IH]; intros i a Hi Pa U; [destruct i; discriminate|]. destruct i as [|i]; cbn in Hi.
  - injection Hi as ->. apply count_yes; [exact Pa|]. apply None0. intros j b Hb Pb. specialize (U (S j) b Hb Pb). discriminate.
  - apply count_no; [intros Pc; specialize (U 0%nat c eq_refl Pc); discriminate|]. apply (IH i a Hi Pa). intros j b Hb Pb.
    specialize (U (S j) b Hb Pb). now injection U.
Qed.
Lemma count_ext : forall (P Q : A -> Prop) l n, (forall a, In a l -> (P a <-> Q a)) -> count P l n -> count Q l n.
Proof.
  intros P Q l n E H. induction H as [|a l n Pa C IH|a l n Pa C IH]; [constructor|apply count_yes|apply count_no].
  - now apply E; [left|].
  - apply IH. intros; apply E; now right.
  - intros Qa. apply Pa. now apply E; [left|].
  - apply IH. intros; apply E; now right.
Qed.
End Count.

(** ** Cutting a segment *)
Lemma cut_once : forall a b x y, on_segment a b x -> on_segment a x y -> on_segment b x y -> y = x.
Proof.
  intros a b x y Hx Ha Hb. pose proof (on_segment_dist _ _ _ Hx) as D1. pose proof (on_segment_dist _ _ _ Ha) as D2.
  pose proof (on_segment_dist _ _ _ Hb) as D3. pose proof (triangle a y b) as D4. rewrite (dist_sym b x) in D3. rewrite (dist_sym y b) in D4.
  apply dist_zero. pose proof (dist_nonneg y x). lra.
Qed.

Section Split.
Context {U : Type}.
Local Notation edge := (Edge U).

(** The number of edges through a point does not change when edges are split elsewhere. *)
Lemma split_count : forall ps x (on : edge -> bool) es y n, (forall e, In e es -> (src e < length ps)%nat /\ (dst e < length ps)%nat) ->
  (forall e, In e es -> on e = true -> edge_on ps e x) -> y <> x ->
  count (fun e => edge_on ps e y) es n -> count (fun e => edge_on (ps ++ [x]) e y) (split_edges on (length ps) es) n.
Proof.
  intros ps x on es y n V Hon Nyx C. unfold split_edges.
  enough (exists a b, count (fun e => edge_on (ps ++ [x]) e y) (map (fun e => if on e then half1 (length ps) e else e) es) a /\
    count (fun e => edge_on (ps ++ [x]) e y) (map (half2 (length ps)) (filter on es)) b /\ (a + b = n)%nat) as (a & b & Ca & Cb & <-) by now apply count_app.
  induction C as [|e es n He C IH|e es n He C IH]; [exists 0%nat, 0%nat; split; [constructor|split; [constructor|reflexivity]]| |].
  - destruct IH as (a & b & Ca & Cb & <-); [intros; apply V; now right|intros; apply Hon; [now right|assumption]|].
    destruct (V e) as [V1 V2]; [now left|]. cbn [map filter]. destruct (on e) eqn:E.
    + pose proof (Hon e (or_introl eq_refl) E) as Ox. cbn [map]. destruct (two_on _ _ _ _ Ox He) as [A|A].
      * exists (S a), b. split; [apply count_yes; [unfold edge_on; cbn [half1 src dst]; rewrite pt_new, pt_app by assumption; exact A|exact Ca]|].
        split; [|lia]. apply count_no; [|exact Cb]. unfold edge_on; cbn [half2 src dst]; rewrite pt_new, pt_app by assumption. intros B.
        apply Nyx. now apply (cut_once _ _ _ _ Ox).
      * exists a, (S b). split; [apply count_no; [|exact Ca]|split; [|lia]].
        -- unfold edge_on; cbn [half1 src dst]; rewrite pt_new, pt_app by assumption. intros B. apply Nyx. now apply (cut_once _ _ _ _ Ox).
        -- apply count_yes; [|exact Cb]. unfold edge_on; cbn [half2 src dst]; rewrite pt_new, pt_app by assumption. exact A.
    + exists (S a), b. split; [|split; [exact Cb|reflexivity]]. apply count_yes; [|exact Ca]. unfold edge_on. now rewrite !pt_app.
  - destruct IH as (a & b & Ca & Cb & <-); [intros; apply V; now right|intros; apply Hon; [now right|assumption]|].
    destruct (V e) as [V1 V2]; [now left|]. cbn [map filter]. exists a, b. split; [|split; [|reflexivity]]; destruct (on e) eqn:E; cbn [map]; auto.
    + pose proof (Hon e (or_introl eq_refl) E) as Ox. apply count_no; [|exact Ca]. unfold edge_on; cbn [half1 src dst]; rewrite pt_new, pt_app by assumption.
      intros B. apply He. exact (on_half _ _ _ _ Ox B).
    + apply count_no; [|exact Ca]. unfold edge_on. now rewrite !pt_app.
    + pose proof (Hon e (or_introl eq_refl) E) as Ox. apply count_no; [|exact Cb]. unfold edge_on; cbn [half2 src dst]; rewrite pt_new, pt_app by assumption.
      intros B. apply He. apply on_sym. exact (on_half _ _ _ _ (on_sym _ _ _ Ox) B).
Qed.
Lemma split_length : forall (on : edge -> bool) k es, length (split_edges on k es) = (length es + length (filter on es))%nat.
Proof. intros. unfold split_edges. now rewrite app_length, !map_length. Qed.
End Split.

Section Size.
Context {T U : Type} (dT : T).
Local Notation graph := (PlanarGraph XO T U).

Lemma split_points_size : forall pend (g g' : graph) ps cn ce r, drawn g ps -> inv_drawn ps (edges g) pend ->
  (forall y, In y pend -> ~ In y ps -> count (fun e => edge_on ps e y) (edges g) 2) ->
  split_at_points dT g (map xp pend) cn ce = Ok (g', r) ->
  exists qs, drawn g' (ps ++ qs) /\ (length (edges g') = length (edges g) + 2 * length qs)%nat.
Proof.
  induction pend as [|p pend IH]; intros g g' ps cn ce r D I Cn H; cbn [map split_at_points] in H.
  - inversion H; subst. exists []. rewrite app_nil_r. split; [exact D|]. cbn; lia.
  - destruct (find_closest_to (xp p) (gather_node_positions g)) as [j dd] eqn:Fc.
    destruct (drawn_closest _ _ _ _ _ D Fc) as [Hc Hf].
    pose proof (proj1 (proj2 (proj2 (proj2 (proj2 I)))) p (or_introl eq_refl)) as Lp.
    destruct (olt dd ceps) eqn:L.
    + destruct (Hc eq_refl) as [Hj Hd].
      destruct Lp as [(k & Hk & Ek)|F]; [|pose proof (proj1 F j Hj); lra].
      assert (k = j).
      { destruct (Nat.eq_dec k j) as [|N]; [assumption|]. exfalso.
        pose proof (proj1 (proj2 I) k j Hk Hj N) as A. rewrite <- Ek in A. lra. }
      subst k. apply bind_ok in H. destruct H as ([g1 ces] & H1 & H).
      apply split_at_node_ok in H1. destruct H1 as (Hn & H1).
      assert (E1 : edges g1 = edges g).
      { destruct H1 as [(_ & -> & _)|(_ & E & _)]; [reflexivity|]. rewrite E. apply split_noop.
        intros e Hin. destruct (on_edge (nodes g) j e) eqn:O; [|reflexivity]. exfalso.
        destruct (proj1 I e Hin) as (_ & Hs' & Hd').
        apply (drawn_on _ ps) in O; auto. exact (proj1 (proj2 (proj2 I)) j e Hj Hin O). }
      assert (D1 : drawn g1 ps) by (unfold drawn; now rewrite Hn).
      subst p. assert (I1 : inv_drawn ps (edges g1) pend) by (rewrite E1; eapply drop_node; eassumption).
      destruct (fun C => IH g1 g' ps _ _ _ D1 I1 C H) as (qs & Q1 & Q2); [rewrite E1; intros y Hy; apply Cn; now right|].
      exists qs. rewrite E1 in Q2. auto.
    + apply bind_ok in H. destruct H as ([g1 [ni ces]] & H1 & H).
      assert (F : fresh ps (edges g) p).
      { destruct Lp as [(k & Hk & Ek)|F]; [|exact F]. exfalso. specialize (Hf eq_refl k Hk).
        rewrite <- Ek, dist_self0 in Hf. pose proof eps32_pos. lra. }
      destruct (add_fresh _ _ _ _ _ _ _ _ D I F H1) as (D1 & I1 & C1).
      assert (Np : ~ In p ps).
      { intros Hp. apply in_pt in Hp. destruct Hp as (k & Hk & Ek). pose proof (proj1 F k Hk) as A. rewrite <- Ek, dist_self0 in A. pose proof eps32_pos. lra. }
      apply add_node_ok in H1.
      destruct H1 as [(d2 & Fc2 & L2 & _)|(d2 & j2 & Fc2 & L2 & Ei & Hn & He & _)].
      { exfalso. destruct (drawn_closest _ _ _ _ _ D Fc2) as [B _]. destruct (B L2) as [B1 B2]. pose proof (proj1 F _ B1). lra. }
      rewrite (drawn_length _ _ D) in Ei.
      assert (On : forall e, In e (edges g) -> (on_edge (nodes g1) ni e = true <-> edge_on ps e p)).
      { intros e Hin. destruct (proj1 I e Hin) as (_ & Hs & Hd). rewrite Ei.
        assert (X : on_edge (nodes g1) (length ps) e = true <-> edge_near ps e p).
        { rewrite (drawn_on _ (ps ++ [p])); try (rewrite app_length; cbn [length]; lia).
          - rewrite pt_new. unfold edge_near. now rewrite !pt_app.
          - exact D1. }
        rewrite X. split; [now apply (proj2 F)|]. intros O. apply on_near; [exact O| |].
        - rewrite dist_sym. now apply (proj1 F).
        - now apply (proj1 F). }
      assert (V : forall e, In e (edges g) -> (src e < length ps)%nat /\ (dst e < length ps)%nat).
      { intros e Hin. destruct (proj1 I e Hin). tauto. }
      destruct (fun C => IH g1 g' (ps ++ [p]) _ _ _ D1 I1 C H) as (qs & Q1 & Q2).
      * intros y Hy Ny. rewrite He. subst ni. apply split_count.
        -- exact V.
        -- intros e Hin. apply On, Hin.
        -- intros ->. apply Ny. apply in_or_app. right. now left.
        -- apply Cn; [now right|]. intros Hin. apply Ny. apply in_or_app. now left.
      * exists (p :: qs). rewrite <- app_assoc in Q1. split; [exact Q1|]. rewrite Q2, He, split_length.
        rewrite (count_filter _ _ _ _ (Cn p (or_introl eq_refl) Np) On). cbn [length]. lia.
Qed.

(** One call. *)
Theorem add_edge_size : forall (g g' : graph) ps s d u r, drawn g ps ->
  well_drawn ps (edges g) -> general_position ps (edges g) s d -> s <> d ->
  ~ adjacent g s d -> (s < length ps)%nat -> (d < length ps)%nat ->
  add_edge dT g s d u = Ok (g', r) ->
  exists qs, drawn g' (ps ++ qs) /\ NoDup qs /\
    (forall x, In x qs <-> ~ In x ps /\ on_segment (pt ps s) (pt ps d) x /\ covers ps (edges g) x) /\
    (length (edges g') = length (edges g) + 1 + 2 * length qs)%nat.
Proof.
  intros g g' ps s d u r D W GP Nsd NA Hs Hd H.
  destruct (add_edge_full dT g g' ps s d u r D W GP Nsd NA Hs Hd H) as (qs & Q1 & Q2 & Q3 & Q4 & Q5).
  destruct (add_edge_pending dT g g' ps s d u r D W GP Nsd NA Hs Hd H) as (pend & ns & es & D1 & I & H1 & _ & Y).
  assert (ND : NoDup (ps ++ qs)) by apply (well_plane _ _ _ Q2).
  destruct (fun C => split_points_size pend _ g' ps _ _ _ D1 I C H1) as (qs' & R1 & R2).
  - intros y Hy Ny. destruct (Y y Hy) as [On (e & He & Oe)]. unfold with_edge. cbn [edges]. change 2%nat with (1 + 1)%nat. apply count_app.
    + apply In_nth_error in He. destruct He as (i & Hi). apply (count_one _ _ i e Hi Oe).
      intros j f Hf Of. destruct (Nat.eq_dec j i) as [E|N]; [exact E|]. exfalso. apply Ny.
      destruct W as (_ & _ & _ & _ & M). destruct (M i j e f y) as (k & Tk & _ & ->); auto.
      apply in_pt. exists k. split; [|reflexivity]. destruct I as (V & _). destruct (V e) as (_ & V1 & V2).
      * unfold with_edge; cbn [edges]. apply in_or_app. left. eapply nth_error_In; eassumption.
      * destruct Tk as [<-|<-]; assumption.
    + apply count_yes; [exact On|constructor].
  - assert (E : qs' = qs) by (apply (app_inv_head ps); exact (drawn_fun _ _ _ R1 Q1)). subst qs'.
    exists qs. split; [exact Q1|]. split; [|split].
    + clear - ND. induction ps as [|a ps IH]; [exact ND|]. apply IH. now inversion ND.
    + intros x. specialize (Q4 x). assert (Nx : In x ps -> In x qs -> False).
      { clear - ND. intros Hp Hq. induction ps as [|a ps IH]; [exact Hp|]. inversion ND as [|b l Na Nl]; subst. destruct Hp as [->|Hp]; [|now apply IH].
        apply Na. apply in_or_app. now right. }
      rewrite in_app_iff in Q4. tauto.
    + rewrite R2. unfold with_edge. cbn [edges]. rewrite app_length. cbn [length]. lia.
Qed.

(** Two segments that meet in two points meet in infinitely many. *)
Lemma on_convex : forall a b x y t, on_segment a b x -> on_segment a b y -> 0 <= t <= 1 -> on_segment a b (along x y t).
Proof.
  intros a b x y t (s1 & H1 & ->) (s2 & H2 & ->) Ht. exists (s1 + t * (s2 - s1)). split; [split; nra|]. unfold along; cbn. f_equal; ring.
Qed.
Lemma along_inj : forall x y t u, x <> y -> along x y t = along x y u -> t = u.
Proof.
  intros [x1 x2] [y1 y2] t u N E. unfold along in E. cbn in E. injection E as E1 E2.
  destruct (Req_dec t u) as [|Ntu]; [assumption|]. exfalso. apply N. f_equal; [apply (Rmult_eq_reg_l (t - u))|apply (Rmult_eq_reg_l (t - u))]; lra.
Qed.
Lemma seg_infinite : forall x y (L : list point), x <> y -> (forall t, 0 <= t <= 1 -> In (along x y t) L) -> False.
Proof.
  intros x y L N H. assert (Pos : forall k, 0 < / (INR k + 1) <= 1).
  { intros k. pose proof (pos_INR k). split; [apply Rinv_0_lt_compat; lra|]. rewrite <- Rinv_1. apply Rinv_le_contravar; lra. }
  assert (ND : NoDup (map (fun k => along x y (/ (INR k + 1))) (seq 0 (S (length L))))).
  { apply FinFun.Injective_map_NoDup; [|apply seq_NoDup]. intros k m E. apply (along_inj x y _ _ N) in E.
    apply INR_eq. apply (f_equal Rinv) in E. rewrite !Rinv_inv in E. lra. }
  assert (Inc : incl (map (fun k => along x y (/ (INR k + 1))) (seq 0 (S (length L)))) L).
  { intros z Hz. apply in_map_iff in Hz. destruct Hz as (k & <- & _). apply H. pose proof (Pos k). lra. }
  pose proof (NoDup_incl_length ND Inc) as B. rewrite map_length, seq_length in B. lia.
Qed.

(** At most one member of [l] for each member of [done]. *)
Lemma one_each : forall (A B : Type) (R : A -> B -> Prop) (l : list B) (done : list A), NoDup l ->
  (forall x, In x l -> exists a, In a done /\ R a x) -> (forall a x y, In a done -> In x l -> In y l -> R a x -> R a y -> x = y) ->
  (length l <= length done)%nat.
Proof.
  intros A B R l. induction l as [|x l IH]; intros done ND Ex Un; [cbn; lia|]. inversion ND as [|x' l' Nx NDl]; subst.
  destruct (Ex x (or_introl eq_refl)) as (a & Ha & Ra). apply in_split in Ha. destruct Ha as (d1 & d2 & ->).
  specialize (IH (d1 ++ d2) NDl). rewrite app_length in IH |- *. cbn [length]. enough (length l <= length d1 + length d2)%nat by lia. apply IH.
  - intros y Hy. destruct (Ex y (or_intror Hy)) as (b & Hb & Rb). exists b. split; [|exact Rb]. apply in_app_or in Hb. apply in_or_app.
    destruct Hb as [Hb|[->|Hb]]; auto. exfalso. apply Nx. rewrite (Un b x y); auto; [apply in_or_app; right; now left|now left|now right].
  - intros b y z Hb Hy Hz. apply Un; [|now right|now right]. apply in_app_or in Hb. apply in_or_app. cbn [In]. tauto.
Qed.

Lemma triangle_sum : forall n m, (2 * (m + n * S m) + n * (n - 1) = 2 * (S n * m) + S n * (S n - 1))%nat.
Proof. intros n m. destruct n as [|n]; [lia|]. replace (S n - 1)%nat with n by lia. replace (S (S n) - 1)%nat with (S n) by lia. nia. Qed.

Theorem draws_size_gen : forall l (g g' : graph) ps done, draws dT g l g' -> drawn g ps -> well_drawn ps (edges g) -> inside ps (map fst l) ->
  inside ps done -> (forall x, covers ps (edges g) x <-> exists a, In a done /\ seg ps a x) ->
  exists qs, drawn g' (ps ++ qs) /\ (length (edges g') = length (edges g) + length l + 2 * length qs)%nat /\
    (2 * length qs <= 2 * (length l * length done) + length l * (length l - 1))%nat.
Proof.
  induction l as [|[[s d] u] l IH]; intros g g' ps done H D W I Id Cd.
  - inversion H; subst. exists []. rewrite app_nil_r. split; [exact D|]. cbn; lia.
  - inversion H as [|g0 ps0 s0 d0 u0 l0 g1 r g2 D0 Nsd NA GP Ha Hl]; subst. rewrite (drawn_fun _ _ _ D0 D) in GP.
    destruct (I (s, d)) as [Ls Ld]; [now left|]. cbn [fst snd] in Ls, Ld.
    destruct (add_edge_full dT g g1 ps s d u r D W GP Nsd NA Ls Ld Ha) as (q1 & D1 & W1 & C1 & N1 & _).
    destruct (add_edge_size g g1 ps s d u r D W GP Nsd NA Ls Ld Ha) as (q1' & D1' & ND & Q1 & E1).
    assert (q1' = q1) by (apply (app_inv_head ps); exact (drawn_fun _ _ _ D1' D1)). subst q1'.
    assert (B1 : (length q1 <= length done)%nat).
    { apply (one_each (nat * nat) point (seg ps)); [exact ND| |].
      - intros x Hx. apply Q1 in Hx. apply Cd. tauto.
      - intros a x y Hin Hx Hy Sx Sy. apply Q1 in Hx, Hy. destruct Hx as (_ & Ox & _), Hy as (_ & Oy & _).
        destruct (Req_EM_T (dist x y) 0) as [Z|Z]; [now apply dist_zero|]. exfalso.
        apply (seg_infinite x y (ps ++ q1)); [intros ->; apply Z, dist_self0|]. intros t Ht. apply N1. right. split.
        + now apply on_convex.
        + apply Cd. exists a. split; [exact Hin|]. now apply on_convex. }
    assert (I0 : inside ps (map fst l)) by (intros c Hc; apply I; now right).
    assert (I1 : inside (ps ++ q1) (map fst l)) by (intros c Hc; destruct (I0 c Hc); rewrite app_length; lia).
    assert (Id1 : inside ps ((s, d) :: done)) by (intros c [<-|Hc]; [cbn; auto|now apply Id]).
    destruct (IH g1 g' (ps ++ q1) ((s, d) :: done) Hl D1 W1 I1) as (q2 & D2 & E2 & B2).
    + intros c Hc. destruct (Id1 c Hc). rewrite app_length; lia.
    + intros x. rewrite C1, Cd. split.
      * intros [(a & Ha' & Sa)|Sx]; [exists a; split; [now right|]|exists (s, d); split; [now left|]]; rewrite (seg_app ps q1 _ _ x Id1); auto; [now right|now left].
      * intros (a & Hin & Sa). rewrite (seg_app ps q1 _ _ x Id1 Hin) in Sa. destruct Hin as [<-|Hin]; [right; exact Sa|left; eauto].
    + exists (q1 ++ q2). rewrite app_assoc, app_length. split; [exact D2|]. cbn [length] in *. split; [lia|].
      pose proof (triangle_sum (length l) (length done)). lia.
Qed.

Theorem draws_size : forall l (g g' : graph) ps, draws dT g l g' -> drawn g ps -> well_drawn ps (edges g) -> inside ps (map fst l) ->
  exists k, (length (nodes g') = length (nodes g) + k)%nat /\ (length (edges g') = length (edges g) + length l + 2 * k)%nat /\
    (2 * k <= 2 * (length l * length (edges g)) + length l * (length l - 1))%nat.
Proof.
  intros l g g' ps H D W I. destruct (draws_size_gen l g g' ps (map (fun e => (src e, dst e)) (edges g)) H D W I) as (qs & D' & E & B).
  - intros c Hc. apply in_map_iff in Hc. destruct Hc as (e & <- & He). destruct (proj1 W e He). cbn. tauto.
  - intros x. unfold covers, edge_on, seg. split.
    + intros (e & He & O). exists (src e, dst e). split; [apply in_map_iff; eauto|exact O].
    + intros (a & Ha & O). apply in_map_iff in Ha. destruct Ha as (e & <- & He). eauto.
  - exists (length qs). rewrite (drawn_length _ _ D'), (drawn_length _ _ D), app_length. rewrite map_length in B. auto.
Qed.

(** A node added away from the nodes splits the edge it lies on, if there is one. *)
Theorem add_node_size : forall (g g' : graph) ps p d i ces, drawn g ps -> well_drawn ps (edges g) -> good_place ps (edges g) p ->
  (forall k, (k < length ps)%nat -> eps32 < dist p (pt ps k)) -> add_node g (xp p) d = Ok (g', (i, ces)) ->
  length (nodes g') = S (length (nodes g)) /\
  (covers ps (edges g) p -> length (edges g') = S (length (edges g))) /\ (~ covers ps (edges g) p -> edges g' = edges g).
Proof.
  intros g g' ps p d i ces D W Gp Far H. pose proof (proj1 W) as V. apply add_node_ok in H.
  destruct H as [(dd & Fc & L & _)|(dd & j & Fc & L & Ei & Hn & He & _)].
  { exfalso. destruct (drawn_closest _ _ _ _ _ D Fc) as [B _]. destruct (B L) as [B1 B2]. pose proof (Far _ B1). lra. }
  assert (D' : drawn g' (ps ++ [p])) by (unfold drawn; rewrite Hn, !map_app; now rewrite D).
  destruct Gp as [(k & Hk & Hd)|F]; [exfalso; pose proof (Far k Hk); lra|]. rewrite (drawn_length _ _ D) in Ei.
  assert (On : forall e, In e (edges g) -> (on_edge (nodes g') i e = true <-> edge_on ps e p)).
  { intros e Hin. destruct (V e Hin) as (_ & Hs & Hd). rewrite Ei.
    assert (X : on_edge (nodes g') (length ps) e = true <-> edge_near ps e p).
    { rewrite (drawn_on _ (ps ++ [p])); try (rewrite app_length; cbn [length]; lia).
      - rewrite pt_new. unfold edge_near. now rewrite !pt_app.
      - exact D'. }
    rewrite X. split; [now apply (proj2 F)|]. intros Oe. apply on_near; [exact Oe|rewrite dist_sym|]; now apply Far. }
  split; [rewrite Hn, app_length; cbn [length]; lia|]. rewrite He. split.
  - intros (e & Hin & Oe). rewrite split_length. apply In_nth_error in Hin. destruct Hin as (a & Ha).
    assert (C1 : count (fun e => edge_on ps e p) (edges g) 1).
    { apply (count_one _ _ a e Ha Oe). intros b f Hb Of. destruct (Nat.eq_dec b a) as [E|N]; [exact E|]. exfalso.
      destruct W as (_ & _ & _ & _ & M). destruct (M a b e f p) as (k & Tk & _ & Ek); auto.
      assert (Lk : (k < length ps)%nat) by (destruct (V e (nth_error_In _ _ Ha)) as (_ & V1 & V2); destruct Tk as [<-|<-]; assumption).
      pose proof (Far k Lk) as Q. rewrite <- Ek, dist_self0 in Q. pose proof eps32_pos. lra. }
    rewrite (count_filter _ _ _ _ C1 On). lia.
  - intros NC. apply split_noop. intros e Hin. destruct (on_edge (nodes g') i e) eqn:E; [|reflexivity]. exfalso. apply NC. exists e. split; [exact Hin|]. now apply On.
Qed.
End Size.
