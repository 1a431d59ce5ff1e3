(** * Every simple polygon with four or more vertices has an internal chord *)
From Coq Require Import Reals List Bool Lra Lia Psatz ZArith Permutation Classical.
From Verif Require Import Scalar Utils PlaneSpec PolySpec Laws UtilsReal PolyArea PolyTri Winding SimplePoly SimpleWinding SimpleSplit SimpleGlue SimpleMain.
Import ListNotations.
Local Open Scope R_scope.

(** The chord a b meets P at its ends only and leaves both ends into the interior angle. *)
Definition internal (P : list point) (a b : point) : Prop :=
  clear P a b /\
  (forall a0 a1, In (a0, a) (edges_of P) -> In (a, a1) (edges_of P) -> ccw a a1 b a0) /\
  (forall b0 b1, In (b0, b) (edges_of P) -> In (b, b1) (edges_of P) -> ccw b b1 a b0).

Lemma internal_sym : forall P a b, internal P a b -> internal P b a.
Proof. intros P a b (C & A & B). split; [now apply clear_sym|]. now split. Qed.

Lemma edges_rot_in : forall l m e, In e (edges_of (l ++ m)) <-> In e (edges_of (m ++ l)).
Proof. intros l m e. split; intros H; eapply Permutation_in; [apply edges_rot|exact H|apply edges_rot|exact H]. Qed.

Lemma internal_rot : forall l m a b, internal (l ++ m) a b -> internal (m ++ l) a b.
Proof.
  intros l m a b (C & A & B). split; [now apply clear_rot|].
  split; intros p q H1 H2; [apply A|apply B]; apply edges_rot_in; assumption.
Qed.

Lemma internal_split : forall a b X Y, simple (a :: X ++ b :: Y) -> internal (a :: X ++ b :: Y) a b -> X <> [] /\ Y <> [].
Proof.
  intros a b X Y S (C & A & B).
  destruct (prev_exists (a :: X ++ b :: Y) a) as (a0 & H0); [now left|].
  destruct (next_exists (a :: X ++ b :: Y) a) as (a1 & H1); [now left|].
  pose proof (A a0 a1 H0 H1) as K. destruct (ccw_not_same _ _ _ _ K) as (N1 & N2 & _).
  assert (SD : forall z, samedir a z z).
  { intros z. exists 1. split; [lra|]. apply pt_eq; unfold along; simpl; ring. }
  split; intros ->.
  - apply N1. replace a1 with b; [apply SD|]. apply (next_unique _ a b a1 (proj1 (proj2 S))); [|exact H1]. now left.
  - apply N2. replace a0 with b; [apply SD|]. apply (prev_unique (a :: X ++ [b]) b a0 a); [apply S| |exact H0].
    rewrite edges_split. apply in_or_app. right. now left.
Qed.

Lemma glue' : forall a b X Y, simple (a :: X ++ b :: Y) -> internal (a :: X ++ b :: Y) a b ->
  pos (a :: X ++ [b]) -> pos (b :: Y ++ [a]) -> pos (a :: X ++ b :: Y).
Proof.
  intros a b X Y S I Q1 Q2. destruct (internal_split a b X Y S I) as [NX NY]. destruct I as (C & A & B).
  destruct (prev_exists (a :: X ++ b :: Y) a) as (a0 & H0); [now left|].
  destruct (next_exists (a :: X ++ b :: Y) a) as (a1 & H1); [now left|].
  assert (Hb : In b (a :: X ++ b :: Y)) by (right; apply in_or_app; right; now left).
  destruct (prev_exists _ b Hb) as (b0 & G0). destruct (next_exists _ b Hb) as (b1 & G1).
  apply (glue a b X Y a0 a1 b0 b1); auto.
Qed.

Lemma seg_end : forall c d x, on_segment c d x -> on_segment x c d -> x = d.
Proof.
  intros c d x (t & T & E) (s & Hs & F).
  assert (Gx : (1 - t) * (vx d - vx c) = - s * t * (vx d - vx c)).
  { assert (Fx := f_equal vx F). rewrite E in Fx. unfold along in Fx; simpl in Fx. nra. }
  assert (Gy : (1 - t) * (vy d - vy c) = - s * t * (vy d - vy c)).
  { assert (Fy := f_equal vy F). rewrite E in Fy. unfold along in Fy; simpl in Fy. nra. }
  assert (Z : (1 - t + s * t) * (vx d - vx c) = 0 /\ (1 - t + s * t) * (vy d - vy c) = 0) by lra.
  destruct Z as [Zx Zy]. apply Rmult_integral in Zx, Zy.
  assert (0 <= s * t) by nra.
  destruct (Req_dec (1 - t + s * t) 0) as [V|V].
  - assert (t = 1) by lra. subst t. rewrite E. apply along1.
  - destruct Zx as [?|Zx]; [contradiction|]. destruct Zy as [?|Zy]; [contradiction|].
    rewrite E. apply pt_eq; unfold along; simpl; [rewrite Zx; lra|rewrite Zy; lra].
Qed.

Lemma on_seg_mid : forall c d x e y, on_segment c d x -> (e = c \/ e = d) -> on_segment x e y -> on_segment c d y.
Proof.
  intros c d x e y (t & T & ->) [->| ->] (s & Hs & ->).
  - exists (t - s * t). split; [nra|]. apply pt_eq; unfold along; simpl; ring.
  - exists (t + s * (1 - t)). split; [nra|]. apply pt_eq; unfold along; simpl; ring.
Qed.

Lemma ar_aa : forall a b, ar a b a = 0 /\ ar a b b = 0 /\ ar a a b = 0.
Proof. intros. unfold ar, cross. repeat split; ring. Qed.

(** ** No vertex in the triangle u v w: the chord w u is internal *)
Section CaseA.
Variables (u v w : point) (R : list point).
Let P := w :: R ++ u :: [v].
Hypothesis S : simple P.
Hypothesis NR : R <> [].
Hypothesis D : 0 < ar u v w.
Hypothesis Empty : forall p, In p R -> ~ inT u v w p.

Let Euv : In (u, v) (edges_of P).
Proof. unfold P. apply sp_edge. right. now left. Qed.
Let Evw : In (v, w) (edges_of P).
Proof. unfold P. apply sp_edge. right. right. now left. Qed.

Lemma ca_nodup : NoDup P.
Proof. apply S. Qed.

Lemma ca_ne : ~ In w R /\ ~ In u R /\ ~ In v R /\ w <> u /\ w <> v /\ u <> v.
Proof.
  pose proof ca_nodup as N. unfold P in N. inversion N as [|? ? N1 N2]; subst.
  pose proof (NoDup_remove_2 _ _ _ N2) as N3.
  assert (N4 : NoDup (R ++ [v])) by (apply NoDup_remove_1 in N2; exact N2).
  pose proof (NoDup_remove_2 _ _ _ N4) as N5. rewrite app_nil_r in N5.
  repeat split.
  - intros H. apply N1. apply in_or_app. now left.
  - intros H. apply N3. apply in_or_app. now left.
  - exact N5.
  - intros ->. apply N1. apply in_or_app. right. now left.
  - intros ->. apply N1. apply in_or_app. right. right. now left.
  - intros ->. apply N3. apply in_or_app. right. now left.
Qed.

Lemma ca_noedge : ~ In (w, u) (edges_of P).
Proof.
  intros H. destruct ca_ne as (N1 & N2 & _).
  assert (E : exists r, In r R /\ In (w, r) (edges_of P)).
  { unfold P. clear - NR. destruct R as [|r R']; [congruence|]. exists r. split; now left. }
  destruct E as (r & Hr & E). rewrite (next_unique P w u r ca_nodup H E) in N2. contradiction.
Qed.

Lemma ca_ends : forall c d, In (c, d) (path (w :: R ++ [u])) -> (c = w \/ In c R) /\ (d = u \/ In d R).
Proof. intros c d H. now apply (sp_ends1 w u R). Qed.

Lemma ca_clear : clear P w u.
Proof.
  destruct ca_ne as (N1 & N2 & N3 & N4 & N5 & N6).
  intros c d x He Xe Xw.
  destruct (classic (x = w)) as [|Nw]; [now left|]. destruct (classic (x = u)) as [|Nu]; [now right|]. exfalso.
  destruct Xw as (t & T & Ex).
  assert (F : ar u v x = (1 - t) * ar u v w) by (rewrite Ex, ar_along; rewrite (proj1 (ar_aa u v)); ring).
  assert (G : ar v w x = t * ar u v w).
  { rewrite Ex, ar_along. rewrite (proj1 (proj2 (ar_aa v w))). rewrite ar_rot. ring. }
  assert (H : ar w u x = 0).
  { rewrite Ex, ar_along. rewrite (proj1 (ar_aa w u)), (proj1 (proj2 (ar_aa w u))). ring. }
  assert (T0 : 0 < t). { destruct (Req_dec t 0) as [->|]; [|lra]. exfalso. apply Nw. rewrite Ex. apply along0. }
  assert (T1 : t < 1). { destruct (Req_dec t 1) as [->|]; [|lra]. exfalso. apply Nu. rewrite Ex. apply along1. }
  assert (IX : inT u v w x) by (unfold inT; rewrite F, G, H; repeat split; nra).
  assert (OnL : forall p q y, on_segment p q y -> ar p q y = 0).
  { intros p q y (r & _ & ->). rewrite ar_along. destruct (ar_aa p q) as (A & B & _). rewrite A, B. ring. }
  pose proof He as He'. apply sp_edge in He'. destruct He' as [He'|He'].
  2:{ destruct He' as [E|[E|[]]]; inversion E; subst c d; apply OnL in Xe; nra. }
  destruct (ca_ends c d He') as [Hc Hd].
  assert (CH : exists e, (e = c \/ e = d) /\ In e R /\ 0 <= ar w u e).
  { destruct Xe as (s & Hs & Ex'). pose proof H as H'. rewrite Ex', ar_along in H'.
    destruct Hc as [->|Hc].
    - rewrite (proj1 (ar_aa w u)) in H'. destruct Hd as [->|Hd]; [exfalso; now apply ca_noedge|].
      exists d. split; [now right|]. split; [exact Hd|].
      destruct (Req_dec s 0) as [->|]; [exfalso; apply Nw; rewrite Ex'; apply along0|].
      assert (ar w u d = 0) by nra. lra.
    - destruct Hd as [->|Hd].
      + rewrite (proj1 (proj2 (ar_aa w u))) in H'. exists c. split; [now left|]. split; [exact Hc|].
        destruct (Req_dec s 1) as [->|]; [exfalso; apply Nu; rewrite Ex'; apply along1|].
        assert (ar w u c = 0) by nra. lra.
      + destruct (Rlt_le_dec (ar w u c) 0) as [L|L].
        * exists d. split; [now right|]. split; [exact Hd|]. destruct (Rlt_le_dec (ar w u d) 0) as [L'|L']; [|exact L']. nra.
        * exists c. split; [now left|]. now split. }
  destruct CH as (e & Ee & Re & He0).
  destruct (tri_exit u v w x e D IX (Empty e Re) He0) as (y & Y1 & Y2).
  pose proof (on_seg_mid c d x e y Xe Ee Y1) as Ye.
  pose proof S as (_ & _ & I).
  destruct Y2 as [Y2|Y2].
  - destruct (I c d u v y He Euv Ye Y2) as [E|[[E E']|[E E']]].
    + subst c. destruct Hc as [Hc|Hc]; [congruence|contradiction].
    + subst y. subst d. destruct Ee as [->| ->]; [|contradiction].
      apply Nu. now apply (seg_end c u x).
    + subst c. destruct Hc as [Hc|Hc]; [congruence|contradiction].
  - destruct (I c d v w y He Evw Ye Y2) as [E|[[E E']|[E E']]].
    + subst c. destruct Hc as [Hc|Hc]; [congruence|contradiction].
    + rewrite E' in Hd. destruct Hd as [Hd|Hd]; [congruence|contradiction].
    + subst y. subst c. destruct Ee as [->| ->]; [contradiction|].
      apply Nw. apply (seg_end d w x); [now apply on_segment_rev|exact Y1].
Qed.

Lemma ca_internal : internal P w u.
Proof.
  destruct ca_ne as (N1 & N2 & N3 & N4 & N5 & N6).
  pose proof ca_clear as C. pose proof ca_nodup as ND. pose proof S as (_ & _ & I).
  split; [exact C|]. split.
  - intros a0 a1 H0 H1. rewrite (prev_unique P a0 v w ND H0 Evw).
    pose proof (sp_next_a w u R [v] S C a1 H1) as H1'. destruct (ca_ends _ _ H1') as [_ Ha].
    destruct Ha as [->|Ha]; [exfalso; now apply ca_noedge|].
    destruct (ccw_total w a1 u v) as [K|K]; auto.
    + intros ->. contradiction.
    + intros K. destruct (samedir_meet w a1 u K) as (x & X1 & X2 & X3); [intros ->; contradiction|].
      destruct (C w a1 x H1 X2 X3) as [->| ->]; [congruence|].
      assert (Iu : In u P) by (right; apply in_or_app; right; now left).
      destruct (vertex_on P u w a1 S Iu H1 X2) as [E|E]; [congruence|subst; contradiction].
    + intros (k & _ & E). assert (Z : ar w u v = 0) by (rewrite E, ar_along_r; unfold ar, cross; ring).
      rewrite <- ar_rot, <- ar_rot in D. assert (ar w u v = ar u v w) by (unfold ar, cross; ring). 
      assert (ar v w u = ar u v w) by (unfold ar, cross; ring). assert (ar w u v = ar v w u) by (unfold ar, cross; ring). lra.
    + intros K. apply (no_spike P v w a1 S Evw H1). now apply samedir_sym.
    + exfalso. apply (cone_block w u v a1).
      * now rewrite <- ar_rot.
      * intros T. apply (Empty a1 Ha). now apply inT_rot.
      * intros x X1 X2. destruct (I w a1 u v x H1 Euv X1 X2) as [E|[[E E']|[E E']]]; [congruence| |congruence].
        rewrite E' in Ha. contradiction.
      * now apply ccw_rot.
  - intros b0 b1 H0 H1. rewrite (next_unique P u b1 v ND H1 Euv).
    pose proof (sp_prev_b w u R [v] S C b0 H0) as H0'. destruct (ca_ends _ _ H0') as [Hb _].
    destruct Hb as [->|Hb]; [exfalso; now apply ca_noedge|].
    destruct (ccw_total u v w b0) as [K|K]; auto.
    + intros ->. contradiction.
    + intros (k & _ & E). assert (Z : ar u v w = 0) by (rewrite E, ar_along_r; unfold ar, cross; ring). lra.
    + intros K. destruct (samedir_meet u w b0 K) as (x & X1 & X2 & X3); [congruence|].
      destruct (C b0 u x H0 (on_segment_rev _ _ _ X3) (on_segment_rev _ _ _ X2)) as [->| ->]; [|congruence].
      assert (Iw : In w P) by (now left).
      destruct (vertex_on P w b0 u S Iw H0 (on_segment_rev _ _ _ X3)) as [E|E]; [subst; contradiction|congruence].
    + intros K. apply (no_spike P b0 u v S H0 Euv). now apply samedir_sym.
    + exfalso. apply (cone_block u v w b0).
      * exact D.
      * apply Empty. exact Hb.
      * intros x X1 X2. destruct (I b0 u v w x H0 Evw (on_segment_rev _ _ _ X1) X2) as [E|[[E E']|[E E']]];
          [subst; contradiction|congruence|subst; contradiction].
      * now apply ccw_rot, ccw_rot.
Qed.
End CaseA.

(** ** The vertex of the triangle farthest from w u sees v *)
Section CaseB.
Variables (u v w z : point) (X Y : list point).
Let P := v :: X ++ z :: Y.
Hypothesis S : simple P.
Hypothesis Euv : In (u, v) (edges_of P).
Hypothesis Evw : In (v, w) (edges_of P).
Hypothesis D : 0 < ar u v w.
Hypothesis Zu : z <> u.
Hypothesis Zw : z <> w.
Hypothesis IZ : inT u v w z.
Hypothesis Max : forall p, In p P -> p <> u -> p <> v -> p <> w -> inT u v w p -> ar w u p <= ar w u z.

Lemma cb_nodup : NoDup P.
Proof. apply S. Qed.

Lemma cb_zin : In z P.
Proof. right. apply in_or_app. right. now left. Qed.

Lemma cb_zv : z <> v.
Proof.
  intros E. pose proof cb_nodup as N. unfold P in N. inversion N as [|? ? N1 N2]; subst. apply N1.
  apply in_or_app. right. now left.
Qed.

Lemma cb_strict : 0 < ar u v z /\ 0 < ar v w z.
Proof.
  destruct IZ as (A & B & C). pose proof cb_zv as Zv. split.
  - destruct (Rle_lt_or_eq_dec _ _ A) as [L|E]; [exact L|exfalso].
    destruct (vertex_on P z u v S cb_zin Euv) as [F|F]; try congruence.
    apply (on_side u v w); auto.
  - destruct (Rle_lt_or_eq_dec _ _ B) as [L|E]; [exact L|exfalso].
    destruct (vertex_on P z v w S cb_zin Evw) as [F|F]; try congruence.
    apply (on_side v w u); auto. now rewrite ar_rot.
Qed.

Lemma cb_clear : clear P v z.
Proof.
  intros c d x He Xe Xv.
  destruct (classic (x = v)) as [|Nv]; [now left|]. destruct (classic (x = z)) as [|Nz]; [now right|]. exfalso.
  destruct cb_strict as [S1 S2]. destruct IZ as (_ & _ & S3).
  destruct Xv as (t & T & Ex).
  assert (T0 : 0 < t). { destruct (Req_dec t 0) as [->|]; [|lra]. exfalso. apply Nv. rewrite Ex. apply along0. }
  assert (T1 : t < 1). { destruct (Req_dec t 1) as [->|]; [|lra]. exfalso. apply Nz. rewrite Ex. apply along1. }
  assert (F : ar u v x = t * ar u v z) by (rewrite Ex, ar_along; rewrite (proj1 (proj2 (ar_aa u v))); ring).
  assert (G : ar v w x = t * ar v w z) by (rewrite Ex, ar_along; rewrite (proj1 (ar_aa v w)); ring).
  assert (Hv : ar w u v = ar u v w) by (unfold ar, cross; ring).
  assert (H : ar w u x = (1 - t) * ar u v w + t * ar w u z) by (now rewrite Ex, ar_along, Hv).
  pose proof (bary_sum u v w z) as B.
  assert (Hz : ar w u z < ar w u x) by (rewrite H; nra).
  assert (IX : inT u v w x) by (unfold inT; rewrite F, G; repeat split; nra).
  assert (OnL : forall p q y, on_segment p q y -> ar p q y = 0).
  { intros p q y (r & _ & ->). rewrite ar_along. destruct (ar_aa p q) as (A1 & B1 & _). rewrite A1, B1. ring. }
  assert (Nc : c <> v).
  { intros ->. assert (d = w) by (apply (next_unique P v d w cb_nodup He Evw)). subst d. apply OnL in Xe. nra. }
  assert (Nd : d <> v).
  { intros ->. assert (c = u) by (apply (prev_unique P c u v cb_nodup He Euv)). subst c. apply OnL in Xe. nra. }
  destruct (edge_ends _ _ _ He) as [Ic Id].
  assert (CH : exists e, (e = c \/ e = d) /\ ar w u x <= ar w u e).
  { destruct Xe as (s & Hs & Ex'). destruct (Rle_lt_dec (ar w u x) (ar w u c)) as [L|L]; [exists c; auto|].
    exists d. split; [now right|]. rewrite Ex', ar_along in L. rewrite Ex', ar_along.
    destruct (Rlt_le_dec (ar w u c) (ar w u d)) as [M|M].
    - assert (0 <= (1 - s) * (ar w u d - ar w u c)) by (apply Rmult_le_pos; lra). lra.
    - assert (0 <= s * (ar w u c - ar w u d)) by (apply Rmult_le_pos; lra). lra. }
  destruct CH as (e & Ee & He0).
  assert (Ie : In e P) by (destruct Ee as [->| ->]; assumption).
  assert (Nev : e <> v) by (destruct Ee as [->| ->]; assumption).
  assert (Neu : e <> u). { intros ->. rewrite (proj1 (proj2 (ar_aa w u))) in He0. lra. }
  assert (New : e <> w). { intros ->. rewrite (proj1 (ar_aa w u)) in He0. lra. }
  assert (NT : ~ inT u v w e). { intros K. pose proof (Max e Ie Neu Nev New K). lra. }
  destruct (tri_exit u v w x e D IX NT) as (y & Y1 & Y2); [lra|].
  pose proof (on_seg_mid c d x e y Xe Ee Y1) as Ye.
  assert (Hy : 0 < ar w u y). { destruct Y1 as (r & Hr & ->). rewrite ar_along.
    assert (0 <= r * (ar w u e - ar w u x)) by (apply Rmult_le_pos; lra). lra. }
  pose proof S as (_ & _ & I).
  destruct Y2 as [Y2|Y2].
  - destruct (I c d u v y He Euv Ye Y2) as [E|[[E E']|[E E']]]; [|subst|congruence].
    + subst c. apply Nd. apply (next_unique P u d v cb_nodup He Euv).
    + rewrite (proj1 (proj2 (ar_aa w u))) in Hy. lra.
  - destruct (I c d v w y He Evw Ye Y2) as [E|[[E E']|[E E']]]; [congruence|congruence|subst].
    rewrite (proj1 (ar_aa w c)) in Hy || rewrite (proj1 (ar_aa w u)) in Hy || rewrite (proj1 (ar_aa _ _)) in Hy. lra.
Qed.

Lemma cb_ne : X <> [] /\ Y <> [].
Proof.
  split; intros E.
  - apply Zw. apply (next_unique P v z w cb_nodup); [|exact Evw]. unfold P. rewrite E. now left.
  - apply Zu. apply (prev_unique P z u v cb_nodup); [|exact Euv]. unfold P. rewrite E. apply sp_edge. right. now left.
Qed.

(** Edges at v of the two pieces: both keep a left turn there. *)
Lemma cb_turn1 : In (z, v) (edges_of (v :: X ++ [z])) /\ In (v, w) (edges_of (v :: X ++ [z])) /\ 0 < ar z v w.
Proof.
  split; [apply sp_edge1; now right|]. split.
  - apply sp_edge1. left. apply (sp_next_a v z X Y S cb_clear). exact Evw.
  - destruct cb_strict as [_ L]. now rewrite ar_rot in L.
Qed.
Lemma cb_turn2 : In (u, v) (edges_of (z :: Y ++ [v])) /\ In (v, z) (edges_of (z :: Y ++ [v])) /\ 0 < ar u v z.
Proof.
  split.
  - apply sp_edge1. left. apply (sp_prev_a v z X Y S cb_clear). exact Euv.
  - split; [apply sp_edge1; now right|]. apply cb_strict.
Qed.

Lemma cb_internal : pos (v :: X ++ [z]) -> internal P v z.
Proof.
  intros Q. pose proof cb_clear as C. destruct cb_ne as [NX NY]. destruct cb_strict as [S1 S2].
  assert (Kv : ccw v w z u). { left. split; [exact S2|]. assert (ar v z u = ar u v z) by (unfold ar, cross; ring). lra. }
  split; [exact C|]. split.
  - intros a0 a1 H0 H1. now rewrite (next_unique P v a1 w cb_nodup H1 Evw), (prev_unique P a0 u v cb_nodup H0 Euv).
  - intros z0 z1 H0 H1. destruct (classic (ccw z z1 v z0)) as [|K]; [assumption|exfalso].
    pose proof (sp_next_b v z X Y S C z1 H1) as H1'. pose proof (sp_prev_b v z X Y S C z0 H0) as H0'.
    destruct (sp_disj v z X Y S C) as (D1 & D2 & D3 & D4 & D5 & D6).
    assert (Yz : In z1 Y).
    { destruct (sp_head v z Y NY) as (y & Hy & Hz). 
      assert (y = z1); [|now subst]. apply (next_unique P z y z1 cb_nodup); [|exact H1]. apply sp_edge. now right. }
    assert (Nz0 : z0 <> v).
    { intros ->. apply Zw. apply (next_unique P v z w cb_nodup H0 Evw). }
    assert (Nz1 : z1 <> v) by (intros ->; contradiction).
    assert (Dir : forall p, (In (z, p) (edges_of P) \/ In (p, z) (edges_of P)) -> p <> v -> ~ samedir z p v).
    { intros p Hp Np K'. assert (Npz : p <> z).
      { destruct Hp as [Hp|Hp]; intros ->; now apply (edge_neq P z z S Hp). }
      destruct (samedir_meet z p v K' Npz) as (x & X1 & X2 & X3).
      assert (E : x = v).
      { destruct Hp as [Hp|Hp].
        - destruct (C z p x Hp X2 (on_segment_rev _ _ _ X3)) as [?|?]; congruence.
        - destruct (C p z x Hp (on_segment_rev _ _ _ X2) (on_segment_rev _ _ _ X3)) as [?|?]; congruence. }
      subst x. destruct Hp as [Hp|Hp].
      - destruct (vertex_on P v z p S (or_introl eq_refl) Hp X2) as [E|E]; congruence.
      - destruct (vertex_on P v p z S (or_introl eq_refl) Hp (on_segment_rev _ _ _ X2)) as [E|E]; congruence. }
    destruct (ccw_total z z1 v z0) as [L|L]; auto.
    + intros ->. contradiction.
    + intros ->. now apply (edge_neq P z z S H0).
    + intros L. apply (Dir z0); auto. now apply samedir_sym.
    + intros L. apply (no_spike P z0 z z1 S H0 H1). now apply samedir_sym.
    + (* z1 lies in the first piece, hence so does the whole second chain, but u does not *)
      assert (W1 : winding (v :: X ++ [z]) z1 = 1%Z).
      { apply (Q z0 z v z1).
        - apply sp_edge1. now left.
        - apply sp_edge1. now right.
        - intros ->. contradiction.
        - now apply (sp_only_b v z X Y S C NY).
        - now apply ccw_rot. }
      pose proof (sp_prev_a v z X Y S C u Euv) as Hu.
      assert (Yu : In u Y).
      { destruct (sp_ends2 v z Y _ _ Hu) as [[E|E] _]; [congruence|exact E]. }
      rewrite (sp_chain v z X Y S C z1 u Yz Yu) in W1.
      assert (W0 : winding (v :: X ++ [z]) u = 0%Z).
      { apply (Q z v w u).
        - apply cb_turn1.
        - apply cb_turn1.
        - intros E. now apply (edge_neq P u v S Euv).
        - now apply (sp_only_a v z X Y S C NY).
        - intros L'. apply (ccw_asym _ _ _ _ Kv). now apply ccw_rot. }
      rewrite W0 in W1. discriminate.
Qed.
End CaseB.
