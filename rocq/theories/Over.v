(** * Drawing an edge along existing edges, in exact arithmetic. *)
From Coq Require Import Reals List Arith Bool Lia Lra Permutation Classical.
From Verif Require Import Scalar Utils Graph GraphSpec ListSpec Laws Closest PlaneSpec UtilsReal
  PlanarSpec GraphAdd GraphAddProps GraphRemove GraphHistory GraphPlanar ThroughSpec Through.
Import ListNotations.
Local Open Scope R_scope.

Lemma askew_once : forall U ps s d (e : Edge U) x y, askew ps s d e -> edge_on ps e x -> edge_on ps e y ->
  on_segment (pt ps s) (pt ps d) x -> on_segment (pt ps s) (pt ps d) y -> x = y.
Proof.
  intros U ps s d e x y A H1 H2 H3 H4. eapply segment_intersection_unique; [exact A| | | |]; apply on_segment_line; eassumption.
Qed.
Lemma askew_not_over : forall U ps s d (e : Edge U), askew ps s d e -> ~ overlaps ps s d e.
Proof. intros U ps s d e A (x & y & N & H1 & H2 & H3 & H4). apply N. exact (askew_once U ps s d e x y A H1 H2 H3 H4). Qed.
Lemma once : forall U ps s d (e : Edge U) x y, ~ overlaps ps s d e -> edge_on ps e x -> edge_on ps e y ->
  on_segment (pt ps s) (pt ps d) x -> on_segment (pt ps s) (pt ps d) y -> x = y.
Proof. intros U ps s d e x y N H1 H2 H3 H4. destruct (same_or_not x y) as [E|E]; [exact E|]. exfalso. apply N. exists x, y. auto. Qed.

(** Two segments on one line with two common points: an end of the first is on the second,
    or an end of the second is inside the first. *)
Lemma over_end : forall a b s d x y : point, x <> y -> on_segment a b x -> on_segment a b y ->
  on_segment s d x -> on_segment s d y ->
  on_segment s d a \/ (on_segment a b s /\ s <> a /\ s <> b) \/ (on_segment a b d /\ d <> a /\ d <> b).
Proof.
  intros a b s d x y N (u & Hu & Ux) (v & Hv & Vy) (t & Ht & Tx) (w & Hw & Wy).
  assert (Nuv : u <> v) by (intros ->; congruence).
  assert (Ntw : t <> w) by (intros ->; congruence).
  (* the ends a and b in the coordinate of s d *)
  set (m := (w - t) / (v - u)). set (al := t - u * m). set (be := al + m).
  assert (Dv : v - u <> 0) by lra.
  assert (Em : m * (v - u) = w - t) by (unfold m; field; exact Dv).
  assert (Nm : m <> 0) by (intros Z; rewrite Z in Em; lra).
  assert (E1x : vx a + u * (vx b - vx a) = vx s + t * (vx d - vx s)) by (rewrite Tx in Ux; exact (eq_sym (f_equal vx Ux))).
  assert (E1y : vy a + u * (vy b - vy a) = vy s + t * (vy d - vy s)) by (rewrite Tx in Ux; exact (eq_sym (f_equal vy Ux))).
  assert (E2x : vx a + v * (vx b - vx a) = vx s + w * (vx d - vx s)) by (rewrite Wy in Vy; exact (eq_sym (f_equal vx Vy))).
  assert (E2y : vy a + v * (vy b - vy a) = vy s + w * (vy d - vy s)) by (rewrite Wy in Vy; exact (eq_sym (f_equal vy Vy))).
  assert (Bx : vx b - vx a = m * (vx d - vx s)).
  { apply Rmult_eq_reg_l with (v - u); [|exact Dv]. replace ((v - u) * (m * (vx d - vx s))) with ((m * (v - u)) * (vx d - vx s)) by ring. rewrite Em. lra. }
  assert (By : vy b - vy a = m * (vy d - vy s)).
  { apply Rmult_eq_reg_l with (v - u); [|exact Dv]. replace ((v - u) * (m * (vy d - vy s))) with ((m * (v - u)) * (vy d - vy s)) by ring. rewrite Em. lra. }
  assert (Ax : vx a = vx s + al * (vx d - vx s)).
  { unfold al. rewrite Bx in E1x. lra. }
  assert (Ay : vy a = vy s + al * (vy d - vy s)).
  { unfold al. rewrite By in E1y. lra. }
  assert (Et : t = al + u * m) by (unfold al; ring).
  assert (Ew : w = al + v * m) by (unfold al; lra).
  assert (Nsd : s <> d).
  { intros ->. apply N. rewrite Tx, Wy. unfold along. f_equal; ring. }
  assert (PE : forall q q' : point, vx q = vx q' -> vy q = vy q' -> q = q') by (intros [] []; simpl; congruence).
  assert (Inj : forall k, vx d - vx s = 0 /\ vy d - vy s = 0 \/ k <> 0 -> k * (vx d - vx s) = 0 -> k * (vy d - vy s) = 0 -> False).
  { intros k [[Z1 Z2]|Nk] H1 H2; [apply Nsd; apply PE; lra|].
    apply Nsd. apply PE; [apply Rmult_integral in H1|apply Rmult_integral in H2]; lra. }
  destruct (Rle_or_lt 0 al) as [L0|L0]; [destruct (Rle_or_lt al 1) as [L1|L1]|].
  - left. exists al. split; [lra|]. apply PE; unfold along; simpl; assumption.
  - (* a beyond d *)
    right. right. assert (Hm : m < 0) by nra.
    split; [|split].
    + exists ((1 - al) / m). split.
      * assert (K : m * ((1 - al) / m) = 1 - al) by (field; exact Nm). split; [nra|].
        destruct (Rle_or_lt w t) as [Q|Q]; nra.
      * apply PE; unfold along; simpl; [rewrite Bx, Ax|rewrite By, Ay]; field; exact Nm.
    + intros E. apply (Inj (al - 1)); [right; lra| |]; [pose proof (f_equal vx E)|pose proof (f_equal vy E)]; simpl in *; lra.
    + intros E. assert (be <> 1).
      { unfold be. intros Z. destruct (Rle_or_lt w t) as [Q|Q]; nra. }
      apply (Inj (be - 1)); [right; lra| |]; unfold be; [pose proof (f_equal vx E)|pose proof (f_equal vy E)]; simpl in *; lra.
  - right. left. assert (Hm : 0 < m) by nra.
    split; [|split].
    + exists (- al / m). split.
      * assert (K : m * (- al / m) = - al) by (field; exact Nm). split; [nra|].
        destruct (Rle_or_lt w t) as [Q|Q]; nra.
      * apply PE; unfold along; simpl; [rewrite Bx, Ax|rewrite By, Ay]; field; exact Nm.
    + intros E. apply (Inj al); [right; lra| |]; [pose proof (f_equal vx E)|pose proof (f_equal vy E)]; simpl in *; lra.
    + intros E. assert (be <> 0).
      { unfold be. intros Z. destruct (Rle_or_lt w t) as [Q|Q]; nra. }
      apply (Inj be); [right; lra| |]; unfold be; [pose proof (f_equal vx E)|pose proof (f_equal vy E)]; simpl in *; lra.
Qed.

(** An edge of a well-drawn graph that overlaps the segment lies within it. *)
Lemma over_within : forall U ps (es : list (Edge U)) s d e, well_drawn ps es -> (s < length ps)%nat -> (d < length ps)%nat ->
  In e es -> overlaps ps s d e -> on_segment (pt ps s) (pt ps d) (pt ps (src e)) /\ on_segment (pt ps s) (pt ps d) (pt ps (dst e)).
Proof.
  intros U ps es s d e W Hs Hd He (x & y & N & H1 & H2 & H3 & H4).
  destruct (planar_inv _ _ W) as (V & A & C & _).
  assert (NI : forall k, (k < length ps)%nat -> edge_on ps e (pt ps k) -> pt ps k <> pt ps (src e) -> pt ps k <> pt ps (dst e) -> False).
  { intros k Lk O N1 N2. destruct (node_on_edge ps es k e V A C Lk He O) as [E|E]; rewrite E in *; contradiction. }
  split.
  - destruct (over_end _ _ _ _ x y N H1 H2 H3 H4) as [O|[(O & N1 & N2)|(O & N1 & N2)]]; [exact O| |]; exfalso.
    + exact (NI s Hs O N1 N2).
    + exact (NI d Hd O N1 N2).
  - destruct (over_end _ _ _ _ x y N (on_sym _ _ _ H1) (on_sym _ _ _ H2) H3 H4) as [O|[(O & N1 & N2)|(O & N1 & N2)]]; [exact O| |]; exfalso.
    + exact (NI s Hs (on_sym _ _ _ O) N2 N1).
    + exact (NI d Hd (on_sym _ _ _ O) N2 N1).
Qed.

Lemma seg_within : forall s d a b x : point, on_segment s d a -> on_segment s d b -> on_segment a b x -> on_segment s d x.
Proof.
  intros s d a b x (t & Ht & Ea) (w & Hw & Eb) (u & Hu & Ex). exists (t + u * (w - t)). split; [nra|].
  rewrite Ex, Ea, Eb. unfold along; simpl. f_equal; ring.
Qed.

Section Main.
Context {T U : Type}.
Variable dT : T.
Local Notation graph := (PlanarGraph XO T U).

Lemma add_edge_over_pending : forall (g g' : graph) ps s d u r, drawn g ps ->
  well_drawn ps (edges g) -> no_near_miss ps (edges g) s d -> s <> d ->
  ~ adjacent g s d -> (s < length ps)%nat -> (d < length ps)%nat ->
  add_edge dT g s d u = Ok (g', r) ->
  exists pend ns es, drawn (with_edge g s d u) ps /\
    thru (doubled ps (edges g) s d) ps (edges (with_edge g s d u)) (passes ps s d) pend /\
    split_at_points dT (with_edge g s d u) (map xp pend) [] [] = Ok (g', (ns, es)) /\
    (forall y, In y pend -> on_segment (pt ps s) (pt ps d) y /\ exists e, In e (edges g) /\ askew ps s d e /\ edge_on ps e y) /\
    (forall y e, on_segment (pt ps s) (pt ps d) y -> In e (edges g) -> askew ps s d e -> edge_on ps e y ->
       (forall k, (k < length ps)%nat -> y <> pt ps k) -> In y pend) /\
    (forall k, passes ps s d k -> (In (pt ps k) pend <-> one_askew ps (edges g) s d k)).
Proof.
  intros g g' ps s d u r D W (G1 & G3 & G4) Nsd NA Hs Hd H.
  destruct (planar_inv _ _ W) as (V & A & C & M & _ & _).
  unfold add_edge in H. assert (HB : has_edge_between_nodes g s d = false).
  { destruct (has_edge_between_nodes g s d) eqn:E; [|reflexivity]. apply between_adjacent in E. contradiction. }
  rewrite HB in H. cbn [negb] in H. unfold get_vertex in H.
  destruct (nth_error (nodes g) s) eqn:Es.
  2:{ apply nth_error_None in Es. rewrite (drawn_length _ _ D) in Es. lia. }
  destruct (nth_error (nodes g) d) eqn:Ed.
  2:{ apply nth_error_None in Ed. rewrite (drawn_length _ _ D) in Ed. lia. }
  set (sd := MkEdge s d u DEFAULT_LABEL) in *.
  set (g1 := MkGraph (nodes g) (edges g ++ [sd])) in *.
  assert (Id : (edge_count g1 - 1 = length (edges g))%nat).
  { unfold edge_count, g1. simpl. rewrite app_length. simpl. lia. }
  rewrite Id in H.
  apply bind_ok in H. destruct H as ([g2 [cn ce]] & H & H'). inv H'.
  unfold split_edges_along_edge in H. apply bind_ok in H. destruct H as (is & Hi & H).
  assert (D1 : drawn g1 ps) by exact D.
  assert (V1 : ends_ok ps (edges g1)).
  { intros e He. apply in_app_or in He. destruct He as [He|[<-|[]]]; [now apply V|]. simpl. auto. }
  destruct (inters_list g1 ps (length (edges g)) sd (edges g1) 0 is D1) as (ys & ss & -> & ND & _ & F2 & Cp).
  { unfold g1. simpl. rewrite nth_error_app2, Nat.sub_diag by lia. reflexivity. }
  { intros e [<-|He]; apply V1; [apply in_or_app; right; now left|exact He]. }
  { exact Hi. }
  destruct (unique_xp ys) as (pend & Ep & Sub & Pw & Keep). rewrite Ep in H.
  pose proof (fun y => unique_isolated ys pend y Ep) as Iso.
  assert (Y : forall a y, nth_error ys a = Some y -> exists i e, nth_error ss a = Some i /\
     nth_error (edges g) i = Some e /\ askew ps s d e /\ edge_on ps e y /\ on_segment (pt ps s) (pt ps d) y).
  { intros a y Ha. destruct (forall2_nth' _ _ _ _ _ F2 _ _ Ha) as (i & Hi' & e & He & Ni & Za & O1 & O2).
    exists i, e. split; [exact Hi'|]. rewrite Nat.sub_0_r in He. unfold g1 in He. cbn [edges] in He.
    assert (Li : (i < length (edges g ++ [sd]))%nat) by (apply nth_error_Some; congruence).
    rewrite app_length in Li. cbn [length] in Li. rewrite nth_error_app1 in He by lia. auto. }
  (* a meeting point with an edge that is not parallel is found *)
  assert (Found : forall i e x, nth_error (edges g) i = Some e -> askew ps s d e ->
    edge_on ps e x -> on_segment (pt ps s) (pt ps d) x ->
    exists a, nth_error ss a = Some i /\ nth_error ys a = Some x).
  { intros i e x He Z H1 H2.
    assert (Li : (i < length (edges g))%nat) by (apply nth_error_Some; congruence).
    assert (Is : In (0 + i)%nat ss).
    { apply (Cp i e x); auto; [|cbn [Nat.add]; lia]. unfold g1. cbn [edges]. now rewrite nth_error_app1. }
    cbn [Nat.add] in Is. apply In_nth_error in Is. destruct Is as [a Ha].
    destruct (forall2_nth _ _ _ _ _ F2 _ _ Ha) as (y & Hy & e' & He' & Ni & Z' & O1 & O2).
    rewrite Nat.sub_0_r in He'. unfold g1 in He'. cbn [edges] in He'. rewrite nth_error_app1 in He' by exact Li.
    assert (e' = e) by congruence. subst e'. exists a. split; [exact Ha|].
    assert (x = y); [|congruence]. exact (askew_once U ps s d e x y Z H1 O1 H2 O2). }
  (* a meeting point outside the nodes is of an edge that overlaps or is not parallel *)
  assert (Skew : forall e x, In e (edges g) -> ~ overlaps ps s d e -> edge_on ps e x ->
    on_segment (pt ps s) (pt ps d) x -> (forall k, (k < length ps)%nat -> x <> pt ps k) -> askew ps s d e).
  { intros e x Hin NO H1 H2 Nx Z. destruct (V e Hin) as (Ne & Le1 & Le2).
    assert (Np : pt ps s <> pt ps d).
    { intros E. pose proof (A s d Hs Hd Nsd) as B. rewrite E, dist_self0 in B. pose proof eps32_pos. lra. }
    destruct (parallel_overlap _ _ _ _ x Z Np H1 H2 (Nx s Hs) (Nx d Hd)) as [(Q1 & Q2 & Q3)|[(Q1 & Q2 & Q3)|(Q1 & Q2)]].
    - apply (Nx (src e) Le1). apply (once U ps s d e); auto. apply on_left.
    - apply (Nx (dst e) Le2). apply (once U ps s d e); auto. apply on_right.
    - apply (Nx s Hs). apply (once U ps s d e); auto. apply on_left. }
  (* ... and kept, if it is not at a node *)
  assert (Kept : forall i e x, nth_error (edges g) i = Some e -> askew ps s d e -> edge_on ps e x ->
    on_segment (pt ps s) (pt ps d) x -> (forall k, (k < length ps)%nat -> x <> pt ps k) -> In x pend).
  { intros i e x He Z H1 H2 Nx. pose proof (nth_error_In _ _ He) as Hin. destruct (V e Hin) as (Ne & Le1 & Le2).
    destruct (G3 i e x He H1 H2) as [Ov|[(k & Lk & E)|[Far Oth]]]; [exfalso; exact (askew_not_over U ps s d e Z Ov)|exfalso; exact (Nx k Lk E)|].
    destruct (Found i e x He Z H1 H2) as (a & Ha & Hy).
    apply (Keep a x Hy). intros b z Nb Hz.
    destruct (Y b z Hz) as (j & f & Hj & Hf & Zf & O1' & O2').
    assert (Nj : j <> i) by (intros ->; apply Nb; eapply nodup_nth_inj; eassumption).
    destruct (G4 e f x z Hin (nth_error_In _ _ Hf) (askew_not_over U ps s d e Z) (askew_not_over U ps s d f Zf) H1 O1' H2 O2') as [<-|Dz]; [|exact Dz].
    exfalso. apply (Oth j f Nj Hf). destruct (V f (nth_error_In _ _ Hf)) as (_ & L1 & L2).
    apply on_near; [exact O1'|rewrite dist_sym|]; now apply Far. }
  exists pend, cn, ce. split; [exact D1|]. split; [|split; [exact H|split; [|split]]].
  - split; [exact V1|]. split; [exact A|]. split; [|split; [|split; [|exact Pw]]].
    + intros k e Hk He Hn. apply in_app_or in He. destruct He as [He|[<-|[]]].
      { exfalso. exact (C k e Hk He Hn). }
      unfold edge_near in Hn. cbn [sd src dst] in Hn.
      assert (Ns : k <> s).
      { intros ->. destruct Hn as (_ & Hn & _). rewrite dist_self0 in Hn. pose proof eps32_pos. lra. }
      assert (Nd : k <> d).
      { intros ->. destruct Hn as (_ & _ & Hn). rewrite dist_self0 in Hn. pose proof eps32_pos. lra. }
      pose proof (G1 k Hk Ns Nd Hn) as O. split; [|exact O]. repeat split; assumption.
    + unfold g1. cbn [edges]. apply pairs_app.
      * apply (pairs_nth _ (meet_thru_sym _ ps _ pend)). intros i j e f N Hi' Hj x _ H1 H2.
        destruct (proj1 (pairs_nth _ (meet_sym ps []) (edges g)) M i j e f N Hi' Hj x H1 H2) as [?|[]]. now left.
      * constructor; constructor.
      * intros e f He [<-|[]] x Nz H1 H2. unfold edge_on in H2. cbn [sd src dst] in H2.
        assert (NO : ~ overlaps ps s d e) by (intros Ov; apply Nz; exists e; auto).
        destruct (same_or_not x (pt ps s)) as [->|Ns].
        { left. exists s. split; [exact (node_on_edge ps (edges g) s e V A C Hs He H1)|]. split; [now left|reflexivity]. }
        destruct (same_or_not x (pt ps d)) as [->|Nd].
        { left. exists d. split; [exact (node_on_edge ps (edges g) d e V A C Hd He H1)|]. split; [now right|reflexivity]. }
        right. pose proof He as Hin. apply In_nth_error in He. destruct He as [i He].
        destruct (G3 i e x He H1 H2) as [Ov|[(k & Lk & E)|[Far Oth]]]; [contradiction| |].
        { right. exists k. split; [exact Lk|]. split; [|exact E]. subst x.
          split; [exact Lk|]. split; [intros ->; now apply Ns|]. split; [intros ->; now apply Nd|exact H2]. }
        assert (Nx : forall k, (k < length ps)%nat -> x <> pt ps k).
        { intros k Lk E. specialize (Far k Lk). rewrite E, dist_self0 in Far. pose proof eps32_pos. lra. }
        left. apply (Kept i e x He); auto. exact (Skew e x Hin NO H1 H2 Nx).
    + intros y Hy. apply Sub in Hy. apply In_nth_error in Hy. destruct Hy as [a Ha].
      destruct (Y a y Ha) as (i & e & _ & He & Za & O1 & O2).
      destruct (G3 i e y He O1 O2) as [Ov|[Hk|[Far Oth]]]; [destruct (askew_not_over U ps s d e Za Ov)|now left|]. right. split; [exact Far|].
      intros f Hf Nf. apply in_app_or in Hf. destruct Hf as [Hf|[<-|[]]]; [|exact O2].
      apply In_nth_error in Hf. destruct Hf as [j Hj].
      destruct (Nat.eq_dec j i) as [->|Nj]; [congruence|]. exfalso. exact (Oth j f Nj Hj Nf).
  - intros y Hy. apply Sub, In_nth_error in Hy. destruct Hy as [a Ha].
    destruct (Y a y Ha) as (i & e & _ & He & Za & O1 & O2).
    split; [exact O2|]. exists e. split; [eapply nth_error_In; eassumption|]. split; assumption.
  - intros y e O He Za Oe Nk. apply In_nth_error in He. destruct He as [i He]. now apply (Kept i e y).
  - intros k Pk. pose proof Pk as (Lk & Ns & Nd & Ok). unfold one_askew.
    assert (Fk : forall i e, nth_error (edges g) i = Some e -> touches k e -> askew ps s d e ->
      exists a, nth_error ss a = Some i /\ nth_error ys a = Some (pt ps k)).
    { intros i e He Tk Za. apply (Found i e _ He); auto. destruct Tk as [<-|<-]; [apply on_left|apply on_right]. }
    split.
    + intros Hp. destruct (Iso _ Hp) as (a & Ha & Far). destruct (Y a _ Ha) as (i & e & Hia & He & Za & O1 & O2).
      exists i, e. split; [exact He|].
      split; [exact (node_on_edge ps (edges g) k e V A C Lk (nth_error_In _ _ He) O1)|]. split; [exact Za|].
      intros j f Hf Tf Zf. destruct (Nat.eq_dec j i) as [|Nj]; [assumption|]. exfalso. destruct (Fk j f Hf Tf Zf) as (b & Hb & Hyb).
      assert (Nb : b <> a) by (intros ->; congruence). specialize (Far b _ Nb Hyb).
      rewrite dist_self0 in Far. pose proof eps32_pos. lra.
    + intros (i & e & He & Tk & Za & Oth). destruct (Fk i e He Tk Za) as (a & Ha & Hy).
      apply (Keep a _ Hy). intros b z Nb Hz. destruct (Y b z Hz) as (j & f & Hj & Hf & Zf & O1 & O2).
      assert (Nj : j <> i) by (intros ->; apply Nb; eapply nodup_nth_inj; eassumption).
      destruct (G4 e f (pt ps k) z (nth_error_In _ _ He) (nth_error_In _ _ Hf)) as [E|Dz]; auto using askew_not_over.
      { destruct Tk as [<-|<-]; [apply on_left|apply on_right]. }
      exfalso. subst z. apply Nj, (Oth j f Hf); [|exact Zf].
      exact (node_on_edge ps (edges g) k f V A C Lk (nth_error_In _ _ Hf) O1).
Qed.

Theorem add_edge_over : forall (g g' : graph) ps s d u r, drawn g ps ->
  well_drawn ps (edges g) -> no_near_miss ps (edges g) s d -> s <> d ->
  ~ adjacent g s d -> (s < length ps)%nat -> (d < length ps)%nat ->
  add_edge dT g s d u = Ok (g', r) ->
  exists qs, drawn g' (ps ++ qs) /\ NoDup (ps ++ qs) /\
    (forall x, covers (ps ++ qs) (edges g') x <->
       covers ps (edges g) x \/ on_segment (pt ps s) (pt ps d) x) /\
    (forall x, In x qs <-> on_segment (pt ps s) (pt ps d) x /\ ~ In x ps /\
       exists e, In e (edges g) /\ askew ps s d e /\ edge_on ps e x) /\
    (forall k, passes ps s d k ->
       (one_askew ps (edges g) s d k <-> forall e, In e (edges g') -> ~ crosses_node (ps ++ qs) k e)) /\
    (forall k e, (k < length (ps ++ qs))%nat -> In e (edges g') -> crosses_node (ps ++ qs) k e -> passes ps s d k) /\
    (forall i j e f x, i <> j -> nth_error (edges g') i = Some e -> nth_error (edges g') j = Some f ->
       edge_on (ps ++ qs) e x -> edge_on (ps ++ qs) f x ->
       (exists k, touches k e /\ touches k f /\ x = pt (ps ++ qs) k) \/
       (exists k, passes ps s d k /\ ~ one_askew ps (edges g) s d k /\ x = pt ps k) \/
       doubled ps (edges g) s d x) /\
    (forall x, doubled ps (edges g) s d x -> twice (ps ++ qs) (edges g') x) /\
    (well_drawn (ps ++ qs) (edges g') <->
       (forall e, In e (edges g) -> ~ overlaps ps s d e) /\ forall k, passes ps s d k -> degree g k = 1%nat).
Proof.
  intros g g' ps s d u r D W GP Nsd NA Hs Hd H.
  destruct (add_edge_over_pending g g' ps s d u r D W GP Nsd NA Hs Hd H)
    as (pend & ns & es & D1 & I & H1 & Y1 & Y2 & Y3).
  destruct (split_points_thru dT _ pend _ g' ps _ _ _ _ D1 I H1) as (qs & Q1 & Q2 & Q3 & Q4 & Q5 & Q6 & _).
  pose proof Q2 as (V & A & C & M & _ & _).
  assert (ND : NoDup (ps ++ qs)).
  { apply NoDup_nth with (d := P2 0 0). intros i j Li Lj E. destruct (Nat.eq_dec i j) as [|N]; [assumption|].
    exfalso. pose proof (A i j Li Lj N) as B. unfold pt in B. rewrite E, dist_self0 in B. pose proof eps32_pos. lra. }
  assert (Pin : forall x, (forall k, (k < length ps)%nat -> x <> pt ps k) <-> ~ In x ps).
  { intros x. split.
    - intros N Hin. apply (In_nth ps x (P2 0 0)) in Hin. destruct Hin as (k & Lk & E). exact (N k Lk (eq_sym E)).
    - intros N k Lk ->. apply N. now apply nth_In. }
  assert (Cr : forall k e, (k < length (ps ++ qs))%nat -> In e (edges g') -> crosses_node (ps ++ qs) k e ->
     passes ps s d k /\ ~ one_askew ps (edges g) s d k).
  { intros k e Lk He [Nt Oe]. destruct (node_on_edge_thru _ _ _ k e V A C Lk He Oe) as [B|B]; [contradiction|].
    destruct (C k e Lk He B) as [[Pk Np] _]. split; [exact Pk|]. rewrite <- (Y3 k Pk). apply Np. exact (proj1 Pk). }
  assert (Ms : forall k, passes ps s d k -> ~ one_askew ps (edges g) s d k ->
     exists e, In e (edges g') /\ crosses_node (ps ++ qs) k e).
  { intros k Pk Nd. pose proof Pk as (Lk & N1 & N2 & Ok).
    apply (Q5 k (MkEdge s d u DEFAULT_LABEL) Lk).
    - unfold with_edge. cbn [edges]. apply in_or_app. right. now left.
    - unfold edge_near. cbn [src dst]. destruct I as (_ & A0 & _). apply on_near; auto.
    - now rewrite (Y3 k Pk). }
  assert (Nw : forall x, In x qs <-> on_segment (pt ps s) (pt ps d) x /\ ~ In x ps /\
       exists e, In e (edges g) /\ askew ps s d e /\ edge_on ps e x).
  { intros x. rewrite Q4, Pin. split.
    - intros [Hp Nx]. destruct (Y1 x Hp) as [O1 O2]. auto.
    - intros (O1 & Nx & e & He & Ae & Oe). split; [|exact Nx]. apply (Y2 x e); auto. now apply Pin. }
  assert (Tw : forall x, doubled ps (edges g) s d x -> twice (ps ++ qs) (edges g') x).
  { intros x (e & He & Ov & Oe). apply Q6. destruct (over_within U ps (edges g) s d e W Hs Hd He Ov) as [O1 O2].
    destruct (in_split _ _ He) as (l1 & l2 & El).
    exists e, (MkEdge s d u DEFAULT_LABEL), (l1 ++ l2). split; [|split; [exact Oe|]].
    - unfold with_edge. cbn [edges]. rewrite El.
      eapply perm_trans; [apply Permutation_sym, Permutation_cons_append|].
      apply perm_trans with (MkEdge s d u DEFAULT_LABEL :: e :: l1 ++ l2); [|apply perm_swap].
      apply perm_skip, Permutation_sym, Permutation_middle.
    - unfold edge_on. cbn [src dst]. exact (seg_within _ _ _ _ _ O1 O2 Oe). }
  exists qs. split; [exact Q1|]. split; [exact ND|]. split; [|split; [exact Nw|split; [|split; [|split; [|split; [exact Tw|]]]]]].
  - intros x. rewrite Q3. unfold with_edge, covers. cbn [edges]. split.
    + intros (e & He & Oe). apply in_app_or in He. destruct He as [He|[<-|[]]]; [left; eauto|right; exact Oe].
    + intros [(e & He & Oe)|O].
      * exists e. split; [apply in_or_app; now left|exact Oe].
      * eexists. split; [apply in_or_app; right; now left|exact O].
  - intros k Pk. split.
    + intros One e He Ce. destruct (Cr k e) as [_ B]; auto. pose proof (proj1 Pk). rewrite app_length. lia.
    + intros All. apply NNPP. intros B. destruct (Ms k Pk B) as (e & He & Ce). exact (All e He Ce).
  - intros k e Lk He Ce. exact (proj1 (Cr k e Lk He Ce)).
  - intros i j e f x N Hi Hj He Hf.
    destruct (classic (doubled ps (edges g) s d x)) as [Dx|Dx]; [auto|].
    destruct (proj1 (pairs_nth _ (meet_thru_sym _ _ _ []) _) M i j e f N Hi Hj x Dx He Hf)
      as [(k & T1 & T2 & E)|[[]|(k & Lk & [Pk Np] & E)]].
    + left. exists k. auto.
    + right. left. exists k. split; [exact Pk|]. pose proof (proj1 Pk) as Lk'. split.
      * rewrite <- (Y3 k Pk). apply Np. exact Lk'.
      * rewrite E. unfold pt. now rewrite app_nth1.
  - assert (Left : well_drawn (ps ++ qs) (edges g') -> forall e, In e (edges g) -> ~ overlaps ps s d e).
    { intros W' e He Ov. destruct (planar_inv _ _ W) as (V0 & A0 & C0 & M0 & _ & _). destruct (V0 e He) as (Ne & L1 & L2).
      set (m := along (pt ps (src e)) (pt ps (dst e)) (1/2)).
      assert (Om : edge_on ps e m) by (exists (1/2); split; [lra|reflexivity]).
      assert (Ptn : pt ps (src e) <> pt ps (dst e)).
      { intros E. pose proof (A0 _ _ L1 L2 Ne) as B. rewrite E, dist_self0 in B. pose proof eps32_pos. lra. }
      assert (Nm : ~ In m ps).
      { apply Pin. intros k Lk E. rewrite E in Om. destruct (node_on_edge ps (edges g) k e V0 A0 C0 Lk He Om) as [Tk|Tk];
          apply Ptn; rewrite <- Tk in E; unfold m in E; pose proof (f_equal vx E) as E1; pose proof (f_equal vy E) as E2;
          unfold along in E1, E2; destruct (pt ps (src e)) as [x1 y1], (pt ps (dst e)) as [x2 y2]; cbn in E1, E2;
          f_equal; lra. }
      assert (Om' := Om). destruct (Tw m) as (e1 & f1 & l & Pm & O1 & O2); [exists e; auto|].
      destruct (planar_inv _ _ W') as (V' & A' & C' & M' & _ & _).
      pose proof (pairs_perm _ (meet_sym _ []) _ _ Pm M') as Mp. inversion Mp as [|? ? F1 F2]; subst.
      rewrite Forall_forall in F1. destruct (F1 f1 (or_introl eq_refl) m O1 O2) as [(k & T1 & T2 & E)|[]].
      assert (Lk : (k < length (ps ++ qs))%nat).
      { destruct (V' e1) as (_ & K1 & K2); [apply (Permutation_in _ (Permutation_sym Pm)); now left|]. destruct T1 as [<-|<-]; assumption. }
      assert (Im : In m (ps ++ qs)) by (rewrite E; now apply nth_In).
      apply in_app_or in Im. destruct Im as [Im|Im]; [contradiction|].
      apply Nw in Im. destruct Im as (Os & _ & f & Hf & Af & Of).
      apply In_nth_error in He. apply In_nth_error in Hf. destruct He as [i He], Hf as [j Hf].
      assert (Nij : i <> j).
      { intros ->. assert (f = e) by congruence. subst f. exact (askew_not_over U ps s d e Af Ov). }
      destruct (proj1 (pairs_nth _ (meet_sym ps []) (edges g)) M0 i j e f Nij He Hf m Om Of) as [(k' & T1' & _ & E')|[]].
      apply Nm. rewrite E'. apply nth_In. destruct T1' as [<-|<-]; assumption. }
    assert (NO : (forall e, In e (edges g) -> ~ overlaps ps s d e) -> unambiguous ps (edges g) s d).
    { intros NO. destruct GP as (G1 & G3 & G4). split; [exact G1|]. split; [|split].
      - intros e x y He O1 O2 O3 O4. exact (once U ps s d e x y (NO e He) O1 O2 O3 O4).
      - intros i e x He O1 O2. destruct (G3 i e x He O1 O2) as [Ov|K]; [destruct (NO e (nth_error_In _ _ He) Ov)|exact K].
      - intros e f x y He Hf O1 O2 O3 O4. apply (G4 e f); auto. }
    assert (Eq : (forall e, In e (edges g) -> ~ overlaps ps s d e) ->
      (well_drawn (ps ++ qs) (edges g') <-> forall k, passes ps s d k -> degree g k = 1%nat)).
    { intros No. destruct (add_edge_thru dT g g' ps s d u r D W (NO No) Nsd NA Hs Hd H) as (qs' & D' & _ & _ & _ & _ & _ & Wd).
      rewrite (drawn_fun g' _ _ Q1 D'). exact Wd. }
    split.
    + intros W'. pose proof (Left W') as No. split; [exact No|]. now apply (Eq No).
    + intros [No Dg]. now apply (Eq No).
Qed.
End Main.

(** Unambiguous segments are those without near misses that overlap no edge. *)
Lemma unambiguous_over : forall U ps (es : list (Edge U)) s d, unambiguous ps es s d <->
  no_near_miss ps es s d /\ forall e, In e es -> ~ overlaps ps s d e.
Proof.
  intros U ps es s d. split.
  - intros (G1 & G2 & G3 & G4). split; [split; [exact G1|split]|].
    + intros i e x He O1 O2. right. exact (G3 i e x He O1 O2).
    + intros e f x y He Hf _ _ O1 O2 O3 O4. exact (G4 e f x y He Hf O1 O2 O3 O4).
    + intros e He (x & y & N & O1 & O2 & O3 & O4). exact (N (G2 e x y He O1 O2 O3 O4)).
  - intros [(G1 & G3 & G4) NO]. split; [exact G1|split; [|split]].
    + intros e x y He O1 O2 O3 O4. exact (once U ps s d e x y (NO e He) O1 O2 O3 O4).
    + intros i e x He O1 O2. destruct (G3 i e x He O1 O2) as [Ov|K]; [destruct (NO e (nth_error_In _ _ He) Ov)|exact K].
    + intros e f x y He Hf O1 O2 O3 O4. apply (G4 e f); auto.
Qed.
