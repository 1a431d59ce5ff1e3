(** * Edges drawn along existing edges on f32 grids; when histories stay planar. *)
From Coq Require Import ZArith Reals List Bool Lia Lra Arith Classical Permutation.
From Flocq Require Import Core.Core IEEE754.BinarySingleNaN.
From Verif Require Import Scalar Utils Polygon Graph GraphSpec PlaneSpec F32 Laws UtilsReal UtilsF32 PolyF32 PolyNewF32
  PlanarSpec GridSpec GridUtils GridSeg GraphAdd GraphAddProps GraphRemove GraphHistory GraphPlanar Draw GraphReport GraphSim GridPrim GridOn
  GridGraph ThroughSpec Through Over GridThroughSpec GridThrough GridOverSpec.
Import ListNotations.
Local Open Scope R_scope.

(** A segment has points other than finitely many given ones. *)
Lemma free_point : forall (ps : list point) a b, a <> b -> exists x, on_segment a b x /\ ~ In x ps.
Proof.
  intros ps a b N. destruct (avoid (map (fun p t => along a b t = p) ps) 0 1 ltac:(lra)) as (u & v & H1 & H2 & H3 & H4).
  - intros P HP s t _ _ Es Et. apply in_map_iff in HP. destruct HP as (p & <- & _). apply (along_inj a b); congruence.
  - exists (along a b ((u + v) / 2)). split; [exists ((u + v) / 2); split; [lra|reflexivity]|].
    intros Hin. apply (H4 (fun t => along a b t = along a b ((u + v) / 2)) ((u + v) / 2)); [|lra|reflexivity].
    apply in_map_iff. exists (along a b ((u + v) / 2)). auto.
Qed.

Lemma perm_two : forall A (l r : list A) a b, Permutation l (a :: b :: r) ->
  exists i j, i <> j /\ nth_error l i = Some a /\ nth_error l j = Some b.
Proof.
  intros A l r a b P. assert (Ha : In a l) by (apply (Permutation_in _ (Permutation_sym P)); now left).
  apply in_split in Ha. destruct Ha as (l1 & l2 & ->).
  assert (P' : Permutation (l1 ++ l2) (b :: r)).
  { apply (Permutation_cons_inv (a := a)). rewrite <- P. apply Permutation_middle. }
  assert (Hb : In b (l1 ++ l2)) by (apply (Permutation_in _ (Permutation_sym P')); now left).
  exists (length l1). apply in_app_or in Hb. destruct Hb as [Hb|Hb]; apply In_nth_error in Hb; destruct Hb as (j & Hj).
  - assert (Lj : (j < length l1)%nat) by (apply nth_error_Some; congruence). exists j. split; [lia|]. split.
    + rewrite nth_error_app2, Nat.sub_diag by lia. reflexivity.
    + now rewrite nth_error_app1.
  - exists (S (length l1 + j)). split; [lia|]. split.
    + rewrite nth_error_app2, Nat.sub_diag by lia. reflexivity.
    + rewrite nth_error_app2 by lia. replace (S (length l1 + j) - length l1)%nat with (S j) by lia. exact Hj.
Qed.

Section Fam.
Context (lm : Libm) (e : Z) (He : (-22 <= e <= 51)%Z) {T U : Type} (dT : T).
Local Notation G := (grid_le 6 e).
Context (S : point -> point -> Prop).
Hypothesis HonS : forall a b p i, G a -> G b -> G p -> S (toR a) (toR b) ->
  (is_on_line_segment (O := FO lm) a b p i = true <-> inner (toR a) (toR b) (toR p)) /\
  (is_on_line_segment (O := XO) (up a) (up b) (up p) i = true <-> inner (toR a) (toR b) (toR p)).
Hypothesis Hlat : forall a b c d p, G a -> G b -> G c -> G d -> S (toR a) (toR b) -> S (toR c) (toR d) ->
  cross (toR a) (toR b) (toR c) (toR d) <> 0 -> on_segment (toR a) (toR b) p -> on_segment (toR c) (toR d) p ->
  exists m, p = P2 (IZR (fst m) * bpow radix2 e) (IZR (snd m) * bpow radix2 e).
Hypothesis HsplitS : forall a b p, S a b -> on_segment a b p -> S a p /\ S b p.
Local Notation graph := (PlanarGraph (FO lm) T U).
Let S' (a b : Vec2 (FO lm)) : Prop := S (toR a) (toR b).
Local Notation ins := (@inside (FO lm) T U G S').

Lemma well_other : forall U (ps : list point) (es : list (Edge U)) i f x, well_drawn ps es -> nth_error es i = Some f -> edge_on ps f x ->
  (exists k, (k < length ps)%nat /\ x = pt ps k) \/ forall j h, j <> i -> nth_error es j = Some h -> ~ edge_on ps h x.
Proof.
  intros V ps es i f x (Va & _ & _ & _ & M) Hf On.
  destruct (classic (exists k, (k < length ps)%nat /\ x = pt ps k)) as [K|NK]; [now left|right].
  intros j h Nj Hh Oh. apply NK. destruct (M j i h f x Nj Hh Hf Oh On) as (k & T1 & _ & E). exists k. split; [|exact E].
  destruct (Va h (nth_error_In _ _ Hh)) as (_ & L1 & L2). destruct T1 as [<-|<-]; assumption.
Qed.

(** In a planar drawing the straight paths are those that run along no edge. *)
Lemma straight_overlaps : forall (g : graph) s d, well_drawn (places g) (edges g) ->
  (straight_path g s d <-> forall f, In f (edges g) -> ~ overlaps (places g) s d f).
Proof.
  intros g s d W. split.
  - intros (C & _) f Hf (x & y & N & H1 & H2 & H3 & H4). exact (N (C f x y Hf H1 H2 H3 H4)).
  - intros NO. split.
    + intros f x y Hf H1 H2 H3 H4. exact (once _ _ s d f x y (NO f Hf) H1 H2 H3 H4).
    + intros i f x Hf On _. exact (well_other _ _ _ i f x W Hf On).
Qed.

(** On the grids there are no near misses. *)
Lemma grid_no_miss : forall (g : graph) s d, ins g -> well_drawn (places g) (edges g) ->
  (s < length (places g))%nat -> (d < length (places g))%nat -> s <> d ->
  S (pt (places g) s) (pt (places g) d) -> no_near_miss (places g) (edges g) s d.
Proof.
  intros g s d I W Hs Hd Nsd Ssd.
  destruct (place_grid lm e He S g s I Hs) as (ps & Gs & Es & _). destruct (place_grid lm e He S g d I Hd) as (pd & Gd & Ed & _).
  set (P := places g) in *.
  assert (NE : pt P s <> pt P d).
  { intros Q. pose proof (proj1 (proj2 W) s d Hs Hd Nsd) as F. rewrite Q, dist_self0 in F. pose proof eps32_pos. lra. }
  assert (L : forall f x, In f (edges g) -> ~ overlaps P s d f -> edge_on P f x -> on_segment (pt P s) (pt P d) x -> exists q, G q /\ toR q = x).
  { intros f x Hf NO On Ox. destruct (classic (exists k, (k < length P)%nat /\ x = pt P k)) as [(k & Hk & Ek)|NK].
    { destruct (place_grid lm e He S g k I Hk) as (q & Gq & Eq & _). exists q. split; [exact Gq|]. now rewrite Ek. }
    assert (NK' : forall k, (k < length P)%nat -> x <> pt P k) by (intros k Hk Q; apply NK; now exists k).
    assert (C1 : forall y, edge_on P f y -> on_segment (pt P s) (pt P d) y -> x = y).
    { intros y H1 H2. exact (once _ _ s d f x y NO On H1 Ox H2). }
    destruct (edge_grid lm e He S g f I Hf) as (a & b & Ga & Gb & Ea & Eb & Sab & Ls & Ld). fold P in Ea, Eb, Ls, Ld.
    pose proof On as On'. unfold edge_on in On. rewrite Ea, Eb in On.
    destruct (Req_dec (cross (toR a) (toR b) (toR ps) (toR pd)) 0) as [Z|NZ].
    - exfalso. rewrite <- Ea, <- Eb, <- Es, <- Ed in Z. rewrite <- Ea, <- Eb in On.
      destruct (parallel_overlap _ _ _ _ x Z NE On Ox (NK' s Hs) (NK' d Hd)) as [(Q1 & _)|[(Q1 & _)|(Q1 & Q2)]].
      + apply (NK' (src f) Ls). apply C1; auto. apply on_left.
      + apply (NK' (dst f) Ld). apply C1; auto. apply on_right.
      + apply (NK' s Hs). apply C1; auto. apply on_left.
    - rewrite Es, Ed in Ox, Ssd. destruct (Hlat a b ps pd x Ga Gb Gs Gd Sab Ssd NZ On Ox) as (m & Em).
      apply (lattice_f32 6 e a b x m ltac:(lia) ltac:(lia) Ga Gb On Em). }
  split; [|split].
  - intros k Hk N1 N2 Nr. destruct (place_grid lm e He S g k I Hk) as (q & Gq & Eq & _). fold P in Eq.
    rewrite Es, Ed, Eq in *. apply (near_inner lm e S HonS ps pd q Gs Gd Gq Ssd Nr).
  - intros i f x Hf On Ox. assert (Hin : In f (edges g)) by (eapply nth_error_In; exact Hf).
    destruct (classic (overlaps P s d f)) as [Ov|NO]; [now left|right].
    destruct (well_other _ _ _ i f x W Hf On) as [K|K2]; [now left|].
    destruct (classic (exists k, (k < length P)%nat /\ x = pt P k)) as [K|NK]; [now left|right].
    destruct (L f x Hin NO On Ox) as (q & Gq & Eq). split.
    + intros k Hk. destruct (place_grid lm e He S g k I Hk) as (r & Gr & Er & _). fold P in Er. rewrite Er, <- Eq.
      apply (grid_far e He); [assumption..|]. intros Q. apply NK. exists k. split; [exact Hk|]. rewrite Er. congruence.
    + intros j h Nj Hh NEr. apply (K2 j h Nj Hh). assert (Hhin : In h (edges g)) by (eapply nth_error_In; exact Hh).
      destruct (edge_grid lm e He S g h I Hhin) as (a & b & Ga & Gb & Ea & Eb & Sab & _). fold P in Ea, Eb.
      unfold edge_near, edge_on in *. rewrite Ea, Eb, <- Eq in *. apply (near_inner lm e S HonS a b q Ga Gb Gq Sab NEr).
  - intros f h x y Hf Hh NO1 NO2 O1 O2 O3 O4. destruct (L f x Hf NO1 O1 O3) as (q & Gq & <-). destruct (L h y Hh NO2 O2 O4) as (r & Gr & <-).
    destruct (classic (toR q = toR r)) as [Q|Q]; [now left|right]. apply (grid_far e He); assumption.
Qed.

(** Any further edge. *)
Lemma fam_over : forall (g g' : graph) s d u r, ins g -> well_drawn (places g) (edges g) ->
  draws_op G S g (OAddEdge s d u) -> ~ adjacent g s d -> (s < node_count g)%nat -> (d < node_count g)%nat ->
  add_edge dT g s d u = Ok (g', r) ->
  let P := places g in let P' := places g' in
  (forall x, covers P' (edges g') x <-> covers P (edges g) x \/ on_segment (pt P s) (pt P d) x) /\
  (forall x, In x P' <-> In x P \/ (on_segment (pt P s) (pt P d) x /\ exists f, In f (edges g) /\ askew P s d f /\ edge_on P f x)) /\
  (forall k, passes P s d k ->
     (one_askew P (edges g) s d k <-> forall f, In f (edges g') -> ~ crosses_node P' k f)) /\
  (forall k f, (k < node_count g')%nat -> In f (edges g') -> crosses_node P' k f -> passes P s d k) /\
  (forall x, doubled P (edges g) s d x -> twice P' (edges g') x) /\
  (planar_f32 g' <-> (forall f, In f (edges g) -> ~ overlaps P s d f) /\ forall k, passes P s d k -> degree g k = 1%nat).
Proof.
  intros g g' s d u r I W D NA Hs Hd H P P'.
  pose proof D as [Nsd D2]. destruct (fam_add_edge lm e He dT S HonS Hlat HsplitS g s d u I D) as [E I']. specialize (I' _ _ H).
  rewrite H in E. cbn [rmap fst snd] in E.
  assert (Ls : (s < length (places g))%nat) by (rewrite places_length; exact Hs).
  assert (Ld : (d < length (places g))%nat) by (rewrite places_length; exact Hd).
  assert (NM : no_near_miss (places g) (edges g) s d).
  { apply grid_no_miss; try assumption.
    destruct (place_at lm g s Ls) as (a & Ha & Ea). destruct (place_at lm g d Ld) as (b & Hb & Eb). rewrite Ea, Eb. exact (D2 a b Ha Hb). }
  destruct (add_edge_over dT _ _ _ _ _ _ _ (exact_drawn lm g) W NM Nsd NA Ls Ld E) as (qs & D' & _ & X1 & X2 & X3 & X4 & _ & X6 & X7).
  pose proof (drawn_fun _ _ _ D' (exact_drawn lm g')) as EP. rewrite EP in X1, X3, X4, X6, X7.
  split; [exact X1|]. split; [|split; [exact X3|split; [|split; [exact X6|]]]].
  - intros x. unfold P', P. rewrite <- EP, in_app_iff, X2. split; [tauto|].
    intros [?|[? ?]]; [tauto|]. destruct (classic (In x (places g))); tauto.
  - intros k f Lk. apply X4. rewrite places_length. exact Lk.
  - split.
    + intros PF. assert (NO : forall f, In f (edges g) -> ~ overlaps P s d f).
      { intros f Hf Ov. pose proof W as (Va & Ap & _). destruct (Va f Hf) as (Nf & L1 & L2).
        destruct (free_point P' (pt P (src f)) (pt P (dst f))) as (x & Ox & Nx).
        { intros Q. pose proof (Ap _ _ L1 L2 Nf) as F. fold P in F. rewrite Q, dist_self0 in F. pose proof eps32_pos. lra. }
        destruct (X6 x) as (a & b & l & Pm & O1 & O2); [exists f; split; [exact Hf|]; split; [exact Ov|exact Ox]|].
        destruct (perm_two _ _ _ _ _ Pm) as (i & j & Nij & Hi & Hj).
        destruct PF as (_ & PF). pose proof (fam_pos lm g') as Epos.
        destruct (PF i j a b x Nij Hi Hj) as (k & T1 & _ & Ek); [rewrite !Epos; exact O1|rewrite !Epos; exact O2|].
        apply Nx. rewrite Epos in Ek. rewrite Ek. apply nth_In. unfold P'. rewrite (places_length lm).
        destruct I' as (Va' & _). destruct (Va' a (nth_error_In _ _ Hi)) as [M1 M2].
        unfold node_count. destruct T1 as [<-|<-]; assumption. }
      split; [exact NO|]. apply (straight_overlaps g s d W) in NO.
      destruct (fam_through lm e He dT S HonS Hlat HsplitS g g' s d u r I W D NO NA Hs Hd H) as (_ & _ & Q). exact (proj1 Q PF).
    + intros C. apply X7 in C. exact (proj1 (fam_planar_f32 lm e S g' I' C)).
Qed.

Lemma clear_straight : forall (g : graph) o, well_drawn (places g) (edges g) -> (clear_op g o <-> straight_op g o).
Proof.
  intros g o W. destruct o as [p v|s d u|i|i]; cbn [clear_op straight_op]; try tauto. rewrite (straight_overlaps g s d W). reflexivity.
Qed.

Lemma fam_clears : forall os (g : graph), ins g -> well_drawn (places g) (edges g) -> draws dT G S g os ->
  straights dT g os -> clears dT g os.
Proof.
  induction os as [|o os IH]; intros g I W D C; [exact Logic.I|]. destruct D as [D1 D2]. destruct C as [C1 C2]. split; [now apply clear_straight|].
  intros g' H. destruct (fam_straight_step lm e He dT S HonS Hlat HsplitS g g' o I W D1 C1 H) as [I' W']. apply IH; auto.
Qed.

Lemma fam_clears_well : forall os (g g' : graph), ins g -> well_drawn (places g) (edges g) -> draws dT G S g os -> clears dT g os ->
  run dT g os = Ok g' -> ins g' /\ well_drawn (places g') (edges g').
Proof.
  induction os as [|o os IH]; intros g g' I W D C H.
  - inv H. split; assumption.
  - cbn [run] in H. apply bind_ok in H. destruct H as (g1 & H1 & H). destruct D as [D1 D2]. destruct C as [C1 C2].
    destruct (fam_straight_step lm e He dT S HonS Hlat HsplitS g g1 o I W D1 (proj1 (clear_straight g o W) C1) H1) as [I1 W1]. eapply IH; eauto.
Qed.

Theorem fam_stays : forall os (g : graph), ins g -> well_drawn (places g) (edges g) -> draws dT G S g os ->
  (stays_planar dT g os <-> clears dT g os).
Proof.
  induction os as [|o os IH]; intros g I W D.
  - cbn [stays_planar clears]. split; [easy|]. intros _. split; [exact (proj1 (fam_planar_f32 lm e S g I W))|exact Logic.I].
  - destruct D as [D1 D2]. cbn [stays_planar clears].
    assert (Key : (forall g', step dT g o = Ok g' -> planar_f32 g') -> clear_op g o).
    { intros PF. destruct o as [p v|s d u|i|i]; try exact Logic.I. cbn [clear_op].
      destruct (classic (adjacent g s d)) as [A|NA]; [now left|right].
      destruct (classic (s < node_count g /\ d < node_count g)%nat) as [[Ls Ld]|N]; [right|now left].
      destruct (add_edge_total dT g s d u) as [[g' r] Hr].
      { intros f Hf. destruct W as (V & _). destruct (V f Hf) as (_ & L1 & L2). rewrite places_length in L1, L2. split; assumption. }
      destruct (fam_over g g' s d u r I W D1 NA Ls Ld Hr) as (_ & _ & _ & _ & _ & Q). apply Q. apply PF. cbn [step]. rewrite Hr. reflexivity. }
    split.
    + intros [_ N]. assert (C : clear_op g o).
      { apply Key. intros g' H. specialize (N g' H). destruct os; apply N. }
      split; [exact C|]. intros g' H.
      destruct (fam_straight_step lm e He dT S HonS Hlat HsplitS g g' o I W D1 (proj1 (clear_straight g o W) C) H) as [I' W'].
      apply IH; auto.
    + intros [C N]. split; [exact (proj1 (fam_planar_f32 lm e S g I W))|]. intros g' H.
      destruct (fam_straight_step lm e He dT S HonS Hlat HsplitS g g' o I W D1 (proj1 (clear_straight g o W) C) H) as [I' W'].
      apply IH; auto.
Qed.
End Fam.
