(** * Orientation of simple polygons and of their pieces *)
From Coq Require Import Reals List Bool Lra Lia Psatz ZArith Permutation Classical.
From Verif Require Import Scalar Utils PlaneSpec PolySpec Laws UtilsReal PolyArea PolyTri Winding SimplePoly SimpleWinding SimpleSplit SimpleGlue SimpleMain SimpleChord.
Import ListNotations.
Local Open Scope R_scope.

(** ** Rotations *)
Definition rot (P Q : list point) : Prop := exists l m, P = l ++ m /\ Q = m ++ l.

Lemma rot_refl : forall P, rot P P.
Proof. intros P. exists [], P. split; [reflexivity|now rewrite app_nil_r]. Qed.
Lemma rot_sym : forall P Q, rot P Q -> rot Q P.
Proof. intros P Q (l & m & -> & ->). exists m, l. now split. Qed.
Lemma rot_trans : forall P Q R, rot P Q -> rot Q R -> rot P R.
Proof.
  intros P Q R (l & m & -> & ->) (l' & m' & E & ->).
  apply app_eq_app in E. destruct E as (k & [[E1 E2]|[E1 E2]]); subst.
  - exists (l ++ l'), k. split; now rewrite !app_assoc.
  - exists k, (m' ++ m). split; now rewrite <- !app_assoc.
Qed.
Lemma rot_simple : forall P Q, rot P Q -> simple P -> simple Q.
Proof. intros P Q (l & m & -> & ->). apply simple_rot. Qed.
Lemma rot_pos : forall P Q, rot P Q -> pos P -> pos Q.
Proof. intros P Q (l & m & -> & ->). apply pos_rot. Qed.
Lemma rot_internal : forall P Q a b, rot P Q -> internal P a b -> internal Q a b.
Proof. intros P Q a b (l & m & -> & ->). apply internal_rot. Qed.
Lemma rot_edges : forall P Q e, rot P Q -> In e (edges_of P) -> In e (edges_of Q).
Proof. intros P Q e (l & m & -> & ->). apply edges_rot_in. Qed.
Lemma rot_length : forall P Q, rot P Q -> length Q = length P.
Proof. intros P Q (l & m & -> & ->). rewrite !app_length. lia. Qed.
Lemma rot_in : forall P Q p, rot P Q -> In p P -> In p Q.
Proof. intros P Q p (l & m & -> & ->) H. apply in_or_app. apply in_app_or in H. tauto. Qed.
Lemma rot_winding : forall P Q c, rot P Q -> winding P c = winding Q c.
Proof. intros P Q c (l & m & -> & ->). apply winding_rot. Qed.
Lemma rot_to : forall P v, In v P -> exists T, rot P (v :: T).
Proof.
  intros P v H. apply in_split in H. destruct H as (l & m & ->). exists (m ++ l). exists l, (v :: m). now split.
Qed.
Lemma rot_only : forall P Q z c, rot P Q -> only_at P z c -> only_at Q z c.
Proof. intros P Q z c (l & m & -> & ->). apply only_at_rot. Qed.
Lemma rot_clear : forall P Q a b, rot P Q -> clear P a b -> clear Q a b.
Proof. intros P Q a b (l & m & -> & ->). apply clear_rot. Qed.

Lemma only_at_rev : forall P z c, only_at P z c -> only_at (rev P) z c.
Proof.
  intros P z c O a b x H X1 X2. rewrite in_edges_rev in H. apply (O b a x H); [now apply on_segment_rev|exact X2].
Qed.

(** A largest element among those with a property. *)
Lemma list_max : forall (f : point -> R) (Q : point -> Prop) l, (exists p, In p l /\ Q p) ->
  exists z, In z l /\ Q z /\ forall p, In p l -> Q p -> f p <= f z.
Proof.
  intros f Q. induction l as [|a l IH]; intros (p & Hp & Qp); [destruct Hp|].
  destruct (classic (exists p, In p l /\ Q p)) as [E|E].
  - destruct (IH E) as (z & Hz & Qz & M). destruct (classic (Q a /\ f z < f a)) as [[Qa La]|N].
    + exists a. split; [now left|]. split; [exact Qa|]. intros q [<-|Hq] Qq; [lra|]. pose proof (M q Hq Qq). lra.
    + exists z. split; [now right|]. split; [exact Qz|]. intros q [<-|Hq] Qq; [|now apply M].
      destruct (Rle_lt_dec (f a) (f z)) as [?|?]; [assumption|]. exfalso. apply N. now split.
  - exists a. split; [now left|].
    assert (p = a) by (destruct Hp as [->|Hp]; [reflexivity|exfalso; apply E; now exists p]). subst p.
    split; [exact Qp|]. intros q [<-|Hq] Qq; [lra|]. exfalso. apply E. now exists q.
Qed.

(** A split of P along an internal chord into two counterclockwise pieces. *)
Definition good_split (P : list point) : Prop :=
  exists a b X Y, rot P (a :: X ++ b :: Y) /\ internal P a b /\ pos (a :: X ++ [b]) /\ pos (b :: Y ++ [a]).

Lemma good_pos : forall P, simple P -> good_split P -> pos P.
Proof.
  intros P S (a & b & X & Y & R & I & Q1 & Q2).
  apply (rot_pos (a :: X ++ b :: Y) P); [now apply rot_sym|].
  apply glue'; [now apply (rot_simple P)|now apply (rot_internal P)|exact Q1|exact Q2].
Qed.

Lemma top_step : forall P u v w, simple P -> (4 <= length P)%nat ->
  (forall Q, (length Q < length P)%nat -> simple Q -> pos Q \/ pos (rev Q)) ->
  In (u, v) (edges_of P) -> In (v, w) (edges_of P) -> (forall p, In p P -> p = v \/ under p v) -> 0 < ar u v w ->
  good_split P.
Proof.
  intros P u v w S L IH E1 E2 T D.
  destruct (edge_ends _ _ _ E1) as [_ Hv].
  destruct (rot_to P v Hv) as (T0 & R0).
  pose proof (rot_simple _ _ R0 S) as S0. pose proof (rot_length _ _ R0) as L0. cbn [length] in L0.
  pose proof (rot_edges _ _ _ R0 E1) as F1. pose proof (rot_edges _ _ _ R0 E2) as F2.
  destruct T0 as [|w' T1]; [simpl in L0; lia|].
  assert (w' = w).
  { apply (next_unique (v :: w' :: T1) v); [apply S0| |exact F2]. now left. }
  subst w'. destruct (exists_last (l := T1)) as (R & u' & ET). { intros ->. simpl in L0. lia. } subst T1.
  assert (u' = u).
  { apply (prev_unique (v :: w :: R ++ [u']) u' u v); [apply S0| |exact F1].
    change (v :: w :: R ++ [u']) with (v :: (w :: R) ++ u' :: []). apply sp_edge. right. now left. }
  subst u'.
  assert (NR : R <> []). { intros ->. simpl in L0. lia. }
  destruct (classic (exists p, In p R /\ inT u v w p)) as [EX|EX].
  - destruct (list_max (ar w u) (inT u v w) R EX) as (z & Hz & Iz & M).
    apply in_split in Hz. destruct Hz as (X0 & Y0 & ER).
    set (X := w :: X0). set (Y := Y0 ++ [u]).
    assert (EP : v :: w :: R ++ [u] = v :: X ++ z :: Y) by (subst R X Y; cbn [app]; now rewrite <- app_assoc).
    assert (ND : NoDup (v :: w :: R ++ [u])) by apply S0.
    assert (Zu : z <> u).
    { intros ->. change (v :: w :: R ++ [u]) with ((v :: w :: R) ++ [u]) in ND. apply NoDup_remove_2 in ND.
      apply ND. rewrite app_nil_r. right. right. rewrite ER. apply in_or_app. right. now left. }
    assert (Zw : z <> w).
    { intros ->. inversion ND as [|? ? _ ND']; subst. inversion ND' as [|? ? ND'' _]; subst. apply ND''.
      apply in_or_app. left. apply in_or_app. right. now left. }
    assert (Max : forall p, In p (v :: X ++ z :: Y) -> p <> u -> p <> v -> p <> w -> inT u v w p -> ar w u p <= ar w u z).
    { intros p Hp N1 N2 N3 Ip. rewrite <- EP in Hp. destruct Hp as [Hp|[Hp|Hp]]; try congruence.
      apply in_app_or in Hp. destruct Hp as [Hp|[Hp|[]]]; [|congruence]. now apply M. }
    rewrite EP in *. clear EP.
    destruct (cb_ne u v w z X Y S0 F1 F2 Zu Zw) as [NX NY].
    pose proof (cb_clear u v w z X Y S0 F1 F2 D Zu Zw Iz Max) as C.
    destruct (cb_turn1 u v w z X Y S0 F1 F2 D Zu Zw Iz Max) as (A1 & A2 & A3).
    destruct (cb_turn2 u v w z X Y S0 F1 F2 D Zu Zw Iz Max) as (B1 & B2 & B3).
    pose proof (split_simple v X z Y S0 NX C) as SP1. pose proof (split_simple2 v X z Y S0 NY C) as SP2.
    assert (L1 : (length (v :: X ++ [z]) < length P)%nat).
    { rewrite <- (rot_length _ _ R0). cbn [length]. rewrite !app_length. cbn [length]. destruct Y; [congruence|cbn [length]; lia]. }
    assert (L2 : (length (z :: Y ++ [v]) < length P)%nat).
    { rewrite <- (rot_length _ _ R0). cbn [length]. rewrite !app_length. cbn [length]. destruct X; [congruence|cbn [length]; lia]. }
    assert (T1 : forall p, In p (v :: X ++ z :: Y) -> p = v \/ under p v).
    { intros p Hp. apply T. apply (rot_in _ _ p (rot_sym _ _ R0) Hp). }
    assert (Q1 : pos (v :: X ++ [z])).
    { apply (top_pos _ z v w); auto. intros p Hp. apply T1. destruct Hp as [Hp|Hp]; [now left|right].
      apply in_app_or in Hp. apply in_or_app. destruct Hp as [Hp|[Hp|[]]]; [now left|right; now left]. }
    assert (Q2 : pos (z :: Y ++ [v])).
    { apply (top_pos _ u v z); auto. intros p Hp. apply T1. destruct Hp as [Hp|Hp].
      - right. apply in_or_app. right. now left.
      - apply in_app_or in Hp. destruct Hp as [Hp|[Hp|[]]]; [|now left]. right. apply in_or_app. right. now right. }
    exists v, z, X, Y. split; [exact R0|]. split; [|now split].
    apply (rot_internal (v :: X ++ z :: Y)); [now apply rot_sym|].
    now apply (cb_internal u v w z X Y).
  - (* the triangle is empty *)
    assert (R1 : rot P (w :: R ++ u :: [v])).
    { apply (rot_trans _ _ _ R0). exists [v], (w :: R ++ [u]). split; [reflexivity|]. cbn [app]. now rewrite <- app_assoc. }
    pose proof (rot_simple _ _ R1 S) as S1.
    assert (Em : forall p, In p R -> ~ inT u v w p). { intros p Hp Ip. apply EX. now exists p. }
    pose proof (ca_internal u v w R S1 NR D Em) as I.
    pose proof (proj1 I) as C.
    pose proof (split_simple w R u [v] S1 NR C) as SP1.
    assert (L1 : (length (w :: R ++ [u]) < length P)%nat).
    { rewrite <- L0. cbn [length]. rewrite !app_length. cbn [length]. lia. }
    pose proof (rot_edges _ _ _ R1 E1) as G1. pose proof (rot_edges _ _ _ R1 E2) as G2.
    assert (Q1 : pos (w :: R ++ [u])).
    { destruct (IH _ L1 SP1) as [Q|Q]; [exact Q|exfalso].
      assert (Hu : In u (w :: R ++ u :: [v])) by (right; apply in_or_app; right; now left).
      destruct (prev_exists _ u Hu) as (b0 & Hb0).
      destruct I as (_ & _ & IU). pose proof (IU b0 v Hb0 G1) as K.
      assert (W : winding (rev (w :: R ++ [u])) v = 1%Z).
      { apply (Q w u b0 v).
        - apply in_edges_rev. apply sp_edge1. now right.
        - apply in_edges_rev. apply sp_edge1. left. now apply (sp_prev_b w u R [v] S1 C).
        - intros E. now apply (edge_neq P u v S E1).
        - apply only_at_rev. apply (sp_only_b w u R [v] S1 C); [discriminate|]. now apply (sp_next_b w u R [v] S1 C).
        - now apply ccw_rot, ccw_rot. }
      rewrite winding_above in W; [discriminate|]. intros p Hp. apply in_rev in Hp.
      apply under_le, T. apply (rot_in _ _ p (rot_sym _ _ R1)).
      destruct Hp as [Hp|Hp]; [now left|right]. apply in_app_or in Hp. apply in_or_app.
      destruct Hp as [Hp|[Hp|[]]]; [now left|right; now left]. }
    exists w, u, R, [v]. split; [exact R1|]. split; [now apply (rot_internal (w :: R ++ u :: [v])); [apply rot_sym|]|].
    split; [exact Q1|]. apply (tri_pos u v w D).
Qed.

(** Every simple polygon is oriented one way or the other. *)
Theorem simple_oriented : forall P, simple P -> pos P \/ pos (rev P).
Proof.
  assert (G : forall n P, (length P <= n)%nat -> simple P -> pos P \/ pos (rev P)).
  { induction n as [|n IH]; intros P L S.
    { destruct S as (L' & _). lia. }
    assert (IH' : forall Q, (length Q < length P)%nat -> simple Q -> pos Q \/ pos (rev Q)).
    { intros Q LQ SQ. apply IH; [lia|exact SQ]. }
    destruct (top_exists P) as (v & Hv & T). { destruct S as (L' & _). intros ->. simpl in L'. lia. }
    destruct (prev_exists P v Hv) as (u & Hu). destruct (next_exists P v Hv) as (w & Hw).
    pose proof (top_turn P u v w S Hu Hw T) as TU.
    destruct (le_lt_dec 4 (length P)) as [L4|L4].
    - destruct (Rlt_le_dec 0 (ar u v w)) as [D|D].
      + left. apply good_pos; [exact S|]. now apply (top_step P u v w).
      + right. apply good_pos; [now apply simple_rev|].
        apply (top_step (rev P) w v u).
        * now apply simple_rev.
        * now rewrite rev_length.
        * intros Q LQ. rewrite rev_length in LQ. now apply IH'.
        * now apply in_edges_rev.
        * now apply in_edges_rev.
        * intros p Hp. apply T. now apply in_rev.
        * assert (ar w v u = - ar u v w) by (unfold ar, cross; ring). lra.
    - destruct P as [|a [|b [|c [|d P]]]]; try (destruct S as (L' & _); simpl in L', L4; lia).
      assert (N : ar a b c <> 0).
      { pose proof S as (_ & ND & _).
        assert (Na : a <> b /\ b <> c /\ a <> c).
        { inversion ND as [|? ? M1 M2]; subst. inversion M2 as [|? ? M3 M4]; subst. simpl in *. 
          repeat split; intros ->; tauto. }
        destruct Na as (N1 & N2 & N3).
        destruct Hu as [Hu|[Hu|[Hu|[]]]]; inversion Hu; subst; destruct Hw as [Hw|[Hw|[Hw|[]]]]; inversion Hw; subst; try congruence.
        - intros E. apply TU. rewrite <- E. unfold ar, cross; ring.
        - intros E. apply TU. rewrite <- E. unfold ar, cross; ring. }
      destruct (Rlt_le_dec 0 (ar a b c)) as [D|D]; [left; now apply tri_pos|].
      right. cbn [rev app]. apply tri_pos. assert (ar c b a = - ar a b c) by (unfold ar, cross; ring). lra. }
  intros P S. exact (G (length P) P (le_n _) S).
Qed.

Lemma pos_not_rev : forall P, simple P -> pos P -> pos (rev P) -> False.
Proof.
  intros P S Q1 Q2.
  destruct (top_exists P) as (v & Hv & T). { destruct S as (L' & _). intros ->. simpl in L'. lia. }
  destruct (prev_exists P v Hv) as (u & Hu). destruct (next_exists P v Hv) as (w & Hw).
  set (c := P2 (vx v) (vy v + 1)).
  assert (Nc : c <> v) by (intros E; assert (F := f_equal vy E); simpl in F; lra).
  assert (Tv : forall p, In p P -> vy p <= vy v) by (intros p Hp; now apply under_le, T).
  assert (O : only_at P v c) by (now apply top_test).
  assert (W : winding P c = 0%Z).
  { apply winding_above. intros p Hp. specialize (Tv p Hp). simpl. lra. }
  assert (W' : winding (rev P) c = 0%Z) by (rewrite winding_rev, W; reflexivity).
  destruct (ccw_total v w c u) as [K|K].
  - intros E. now apply (edge_neq P v w S Hw).
  - exact Nc.
  - intros E. now apply (edge_neq P u v S Hu).
  - now apply (only_at_not_next P).
  - intros K. apply (only_at_not_prev P v u c S Hu O). now apply samedir_sym.
  - intros K. apply (no_spike P u v w S Hu Hw). now apply samedir_sym.
  - destruct (Q1 u v w c Hu Hw Nc O) as [R _]. rewrite (R K) in W. discriminate.
  - destruct (Q2 w v u c) as [R _]; auto.
    + now apply in_edges_rev. + now apply in_edges_rev. + now apply only_at_rev.
    + rewrite (R K) in W'. discriminate.
Qed.

Lemma pos_top : forall P u v w, simple P -> pos P -> In (u, v) (edges_of P) -> In (v, w) (edges_of P) ->
  (forall p, In p P -> p = v \/ under p v) -> 0 < ar u v w.
Proof.
  intros P u v w S Q Hu Hw T. pose proof (top_turn P u v w S Hu Hw T) as N.
  destruct (Rlt_le_dec 0 (ar u v w)) as [D|D]; [exact D|exfalso].
  apply (pos_not_rev P S Q). apply (top_pos (rev P) w v u).
  - now apply simple_rev.
  - now apply in_edges_rev.
  - now apply in_edges_rev.
  - intros p Hp. apply T. now apply in_rev.
  - assert (ar w v u = - ar u v w) by (unfold ar, cross; ring). lra.
  - right. now rewrite rev_involutive.
Qed.

(** Every counterclockwise simple polygon with four or more vertices has an internal chord. *)
Theorem chord_exists : forall P, simple P -> pos P -> (4 <= length P)%nat -> good_split P.
Proof.
  intros P S Q L.
  destruct (top_exists P) as (v & Hv & T). { intros ->. simpl in L. lia. }
  destruct (prev_exists P v Hv) as (u & Hu). destruct (next_exists P v Hv) as (w & Hw).
  apply (top_step P u v w); auto.
  - intros Q' _ S'. now apply simple_oriented.
  - now apply (pos_top P).
Qed.

(** A direction free at z is free on a short segment. *)
Lemma near_only : forall P z0 z z1 d, simple P -> In (z0, z) (edges_of P) -> In (z, z1) (edges_of P) ->
  d <> z -> ~ samedir z z0 d -> ~ samedir z z1 d -> exists t, 0 < t <= 1 /\ only_at P z (along z d t).
Proof.
  intros P z0 z z1 d S H0 H1 Nd N0 N1. destruct (near_edges (edges_of P) z) as (r & R & H).
  destruct (near_along r z d R) as (t & T & Nt). exists t. split; [exact T|].
  intros e f x He Xe Xz.
  assert (Nx : near r z x) by (apply (near_seg r z (along z d t)); [apply Nt; lra|exact Xz]).
  pose proof (H (e, f) x He Nx Xe) as Oz. cbn [fst snd] in Oz.
  destruct (edge_ends _ _ _ H1) as [Iz _].
  assert (Sd : forall p, ~ samedir z p d -> on_segment z p x -> x = z).
  { intros p Np Xp. apply (diff_dir z p (along z d t) x); [|exact Xp|exact Xz].
    intros K. apply Np. apply (samedir_trans z p (along z d t) d K). apply samedir_sym. exists t. split; [lra|reflexivity]. }
  destruct (vertex_on P z e f S Iz He Oz) as [E|E]; subst.
  - apply (Sd z1 N1). replace z1 with f; [exact Xe|]. apply (next_unique P e); [apply S|exact He|exact H1].
  - apply (Sd z0 N0). replace z0 with e; [now apply on_segment_rev|]. apply (prev_unique P e z0 f); [apply S|exact He|exact H0].
Qed.

(** The pieces of a counterclockwise polygon along an internal chord are counterclockwise. *)
Theorem split_pos : forall a b X Y, simple (a :: X ++ b :: Y) -> pos (a :: X ++ b :: Y) -> internal (a :: X ++ b :: Y) a b ->
  pos (a :: X ++ [b]) /\ pos (b :: Y ++ [a]).
Proof.
  intros a b X Y S Q I. destruct (internal_split a b X Y S I) as [NX NY]. destruct I as (C & IA & IB).
  destruct (prev_exists (a :: X ++ b :: Y) a) as (a0 & H0); [now left|].
  destruct (next_exists (a :: X ++ b :: Y) a) as (a1 & H1); [now left|].
  pose proof (IA a0 a1 H0 H1) as K.
  destruct (ccw_neq _ _ _ _ K) as (Na1 & Nb & Na0). destruct (ccw_not_same _ _ _ _ K) as (M1 & M2 & M3).
  destruct (ccw_exists a a1 b Na1 Nb M1) as (d & Kd).
  destruct (ccw_l a a1 b a0 d K Kd) as [Kd1 Kd2].
  destruct (ccw_not_same _ _ _ _ Kd1) as (D1 & D2 & D3). destruct (ccw_neq _ _ _ _ Kd1) as (_ & Nd & _).
  destruct (near_only _ a0 a a1 d S H0 H1 Nd) as (t & T & O).
  { intros L. apply D2. now apply samedir_sym. } { exact D1. }
  set (c := along a d t) in *.
  assert (Nc : c <> a) by (apply along_neq; [exact Nd|lra]).
  assert (Kc : ccw a a1 c b) by (apply ccw_scale; [lra|exact Kd]).
  destruct (ccw_l a a1 b a0 c K Kc) as [Kc1 Kc2].
  assert (Kc3 : ccw a a0 c b).
  { assert (A : ccw a b a0 a1) by (now apply ccw_rot). assert (B : ccw a b a1 c) by (now apply ccw_rot, ccw_rot).
    apply ccw_rot. exact (ccw_trans a b a0 a1 c A B). }
  assert (Ncb : ~ samedir a b c).
  { destruct (ccw_not_same _ _ _ _ Kc) as (_ & Z & _). intros L. apply Z. now apply samedir_sym. }
  assert (O1 : only_at (a :: X ++ [b]) a c).
  { intros e f x He Xe Xz. apply sp_edge1 in He. destruct He as [He|[-> ->]].
    - apply (O e f x); [apply sp_edge; now left|exact Xe|exact Xz].
    - apply (diff_dir a b c x Ncb); [now apply on_segment_rev|exact Xz]. }
  assert (O2 : only_at (b :: Y ++ [a]) a c).
  { intros e f x He Xe Xz. apply sp_edge1 in He. destruct He as [He|[-> ->]].
    - apply (O e f x); [apply sp_edge; now right|exact Xe|exact Xz].
    - apply (diff_dir a b c x Ncb); [exact Xe|exact Xz]. }
  destruct (Q a0 a a1 c H0 H1 Nc O) as [W _]. specialize (W Kc1). rewrite winding_split in W.
  pose proof (split_simple a X b Y S NX C) as S1. pose proof (split_simple2 a X b Y S NY C) as S2.
  assert (E1 : In (b, a) (edges_of (a :: X ++ [b]))) by (apply sp_edge1; now right).
  assert (E2 : In (a, a1) (edges_of (a :: X ++ [b]))) by (apply sp_edge1; left; now apply (sp_next_a a b X Y S C)).
  assert (E3 : In (a, b) (edges_of (b :: Y ++ [a]))) by (apply sp_edge1; now right).
  assert (E4 : In (a0, a) (edges_of (b :: Y ++ [a]))) by (apply sp_edge1; left; now apply (sp_prev_a a b X Y S C)).
  destruct (simple_oriented _ S1) as [Q1|Q1], (simple_oriented _ S2) as [Q2|Q2].
  - now split.
  - exfalso. destruct (Q1 b a a1 c E1 E2 Nc O1) as [R1 _]. rewrite (R1 Kc) in W.
    assert (V : winding (rev (b :: Y ++ [a])) c = 1%Z).
    { apply (Q2 b a a0 c); auto; [now apply in_edges_rev|now apply in_edges_rev|now apply only_at_rev]. }
    rewrite winding_rev in V. lia.
  - exfalso. destruct (Q2 a0 a b c E4 E3 Nc O2) as [_ R2]. rewrite (R2 Kc2) in W.
    assert (V : winding (rev (a :: X ++ [b])) c = 0%Z).
    { apply (Q1 a1 a b c); auto; [now apply in_edges_rev|now apply in_edges_rev|now apply only_at_rev|].
      intros L. apply (ccw_asym _ _ _ _ Kc). exact L. }
    rewrite winding_rev in V. lia.
  - exfalso.
    assert (V : winding (rev (a :: X ++ [b])) c = 0%Z).
    { apply (Q1 a1 a b c); auto; [now apply in_edges_rev|now apply in_edges_rev|now apply only_at_rev|].
      intros L. apply (ccw_asym _ _ _ _ Kc). exact L. }
    assert (V' : winding (rev (b :: Y ++ [a])) c = 1%Z).
    { apply (Q2 b a a0 c); auto; [now apply in_edges_rev|now apply in_edges_rev|now apply only_at_rev]. }
    rewrite winding_rev in V, V'. lia.
Qed.
