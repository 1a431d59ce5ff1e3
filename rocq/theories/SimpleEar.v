(** * Ears of simple polygons *)
From Coq Require Import Reals List Bool Lra Lia Psatz ZArith Permutation Classical.
From Verif Require Import Scalar Utils PlaneSpec PolySpec Laws UtilsReal PolyArea PolyTri Winding SimplePoly SimpleWinding SimpleSplit SimpleGlue SimpleMain SimpleChord SimpleJordan.
Import ListNotations.
Local Open Scope R_scope.

Lemma samedir_refl : forall z p, samedir z p p.
Proof. intros z p. exists 1. split; [lra|]. apply pt_eq; unfold along; simpl; ring. Qed.

(** ** Internal chords of a piece are internal chords of the whole *)
Section Piece.
Variables (a b : point) (X Y : list point).
Let P := a :: X ++ b :: Y.
Let P2 := b :: Y ++ [a].
Hypothesis S : simple P.
Hypothesis Q : pos P.
Hypothesis I : internal P a b.

Let S' : simple (b :: Y ++ a :: X) := simple_rot (a :: X) (b :: Y) S.
Let I' : internal (b :: Y ++ a :: X) b a := internal_sym _ _ _ (internal_rot (a :: X) (b :: Y) a b I).
Let C : clear P a b := proj1 I.
Let C' : clear (b :: Y ++ a :: X) b a := proj1 I'.
Let NX : X <> [] := proj1 (internal_split a b X Y S I).
Let NY : Y <> [] := proj2 (internal_split a b X Y S I).
Let Q2 : pos P2 := proj2 (split_pos a b X Y S Q I).

Lemma pc_rot : forall e, In e (edges_of P) <-> In e (edges_of (b :: Y ++ a :: X)).
Proof. intros e. apply (edges_rot_in (a :: X) (b :: Y)). Qed.

Lemma pc_x0 : forall x, In x X -> winding P2 x = 0%Z.
Proof.
  intros x Hx.
  destruct (prev_exists P a) as (a0 & H0); [now left|]. destruct (next_exists P a) as (a1 & H1); [now left|].
  apply (sp_chain0 b a Y X S' C' NX a0 a1); auto; try (now apply pc_rot).
  exact (proj1 (proj2 I) a0 a1 H0 H1).
Qed.

Lemma pc_noedge : ~ In (a, b) (edges_of P).
Proof.
  intros H. destruct (prev_exists P a) as (a0 & H0); [now left|].
  pose proof (proj1 (proj2 I) a0 b H0 H) as K. exact (proj1 (ccw_not_same _ _ _ _ K) (samedir_refl a b)).
Qed.

(** The chord's open points have winding number 1 in the piece. *)
Lemma internal_winding : forall R c d x, simple R -> pos R -> In c R -> internal R c d -> on_segment c d x ->
  x <> c -> x <> d -> winding R x = 1%Z.
Proof.
  intros R c d x SR QR Hc (CR & A & B) Xc Nc Nd.
  destruct (prev_exists R c Hc) as (c0 & H0). destruct (next_exists R c Hc) as (c1 & H1).
  apply (QR c0 c c1 x H0 H1 Nc).
  - intros e f y He Ye Yx.
    assert (Yd : on_segment c d y) by (now apply (on_seg_sub c d x)).
    destruct (CR e f y He Ye Yd) as [E|E]; [exact E|exfalso]. subst y.
    destruct Xc as (t & T & Ex), Yx as (s & Hs & Ed).
    (* d on c x and x on c d *)
    assert (Kx : (1 - s * t) * (vx d - vx c) = 0).
    { assert (F := f_equal vx Ed). rewrite Ex in F. unfold along in F; simpl in F. lra. }
    assert (Ky : (1 - s * t) * (vy d - vy c) = 0).
    { assert (F := f_equal vy Ed). rewrite Ex in F. unfold along in F; simpl in F. lra. }
    assert (Ndc : ~ (vx d - vx c = 0 /\ vy d - vy c = 0)).
    { intros [Z1 Z2]. apply Nc. rewrite Ex. apply pt_eq; unfold along; simpl; [rewrite Z1|rewrite Z2]; lra. }
    apply Rmult_integral in Kx, Ky.
    assert (St : 1 - s * t = 0) by (destruct Kx as [?|?]; [assumption|destruct Ky as [?|?]; [assumption|tauto]]).
    assert (t = 1) by nra. apply Nd. rewrite Ex. subst t. apply along1.
  - pose proof (A c0 c1 H0 H1) as K. destruct (on_seg_same c d x Xc Nc) as (k & Hk & ->). now apply ccw_scale.
Qed.

Lemma piece_clear : forall c d, In c P2 -> In d P2 -> internal P2 c d -> clear P c d.
Proof.
  intros c d Hc Hd J e f x He Xe Xc.
  destruct (classic (x = c)) as [|Nc]; [now left|]. destruct (classic (x = d)) as [|Nd]; [now right|]. exfalso.
  pose proof (proj1 J) as CJ.
  assert (Off : forall g h, In (g, h) (edges_of P2) -> ~ on_segment g h x).
  { intros g h Hg Hx. destruct (CJ g h x Hg Hx Xc); contradiction. }
  pose proof (split_simple2 a X b Y S NY C) as S2.
  assert (W : winding P2 x = 1%Z) by (now apply (internal_winding P2 c d x)).
  apply sp_edge in He. destruct He as [He|He].
  2:{ apply (Off e f); [|exact Xe]. apply sp_edge2. now left. }
  destruct (sp_disj a b X Y S C) as (D1 & D2 & D3 & D4 & D5 & D6).
  destruct (sp_in a b X Y) as (I1 & I2 & I3 & I4).
  assert (Ep : In (e, f) (edges_of P)) by (apply sp_edge; now left).
  assert (Na : x <> a). { intros ->. apply (Off a b); [apply sp_edge2; now right|apply on_seg_l]. }
  assert (Nb : x <> b). { intros ->. apply (Off a b); [apply sp_edge2; now right|apply on_seg_r]. }
  destruct (sp_ends1 a b X _ _ He) as [E1 E2].
  (* walk along the edge to an end in X *)
  assert (MOVE : forall g, (g = e \/ g = f) -> In g X -> False).
  { intros g Hg Gx. assert (V : winding P2 x = winding P2 g).
    { apply winding_move. intros [h k] y Hh Yx Yh. cbn [fst snd] in Yh.
      assert (Ye : on_segment e f y).
      { apply (on_seg_mid e f x g y Xe); [exact Hg|exact Yx]. }
      assert (Yab : y = b \/ y = a).
      { apply (sp_sep b a Y X S' C' e f h k y); auto. }
      assert (Yv : y = e \/ y = f).
      { destruct Yab as [->| ->]; [apply (vertex_on P b e f S)|apply (vertex_on P a e f S)]; auto. }
      assert (Yg : y <> g) by (intros ->; destruct Yab; subst; contradiction).
      (* y is the other end, so x is that end as well *)
      assert (Yx' : x = y).
      { destruct Hg as [->| ->], Yv as [->| ->]; try congruence.
        - apply (seg_end e f x Xe Yx).
        - apply (seg_end f e x); [now apply on_segment_rev|exact Yx]. }
      subst y. destruct Yab; congruence. }
    rewrite V, (pc_x0 g Gx) in W. discriminate. }
  destruct E1 as [->|E1]; [|now apply (MOVE e); [left|]].
  destruct E2 as [->|E2]; [|now apply (MOVE f); [right|]].
  now apply pc_noedge.
Qed.

Lemma piece_cone : forall c d, In c P2 -> internal P2 c d -> forall c0 c1, In (c0, c) (edges_of P) -> In (c, c1) (edges_of P) ->
  ccw c c1 d c0.
Proof.
  intros c d Hc (_ & J & _) c0 c1 H0 H1. pose proof (proj1 (proj2 I)) as A. pose proof (proj2 (proj2 I)) as B.
  destruct Hc as [<-|Hc]; [|apply in_app_or in Hc; destruct Hc as [Hc|[<-|[]]]].
  - (* c = b *)
    pose proof (B c0 c1 H0 H1) as K.
    assert (L : ccw b c1 d a).
    { apply J; [apply sp_edge2; now right|apply sp_edge2; left; now apply (sp_next_b a b X Y S C)]. }
    now apply (ccw_l b c1 a c0 d).
  - apply J; apply sp_edge2; left.
    + now apply (sp_at_x b a Y X S' C'); [|apply pc_rot].
    + now apply (sp_at_x' b a Y X S' C'); [|apply pc_rot].
  - pose proof (A c0 c1 H0 H1) as K.
    assert (L : ccw a b d c0).
    { apply J; [apply sp_edge2; left; now apply (sp_prev_a a b X Y S C)|apply sp_edge2; now right]. }
    now apply (ccw_r a c1 b c0 d).
Qed.

Theorem piece_internal : forall c d, In c P2 -> In d P2 -> internal P2 c d -> internal P c d.
Proof.
  intros c d Hc Hd J. split; [now apply piece_clear|]. split.
  - now apply piece_cone.
  - apply piece_cone; [exact Hd|]. now apply internal_sym.
Qed.
End Piece.

(** ** Every counterclockwise simple polygon has an ear away from a given edge *)
Definition is_ear (P : list point) (v : point) : Prop :=
  exists u w, In (u, v) (edges_of P) /\ In (v, w) (edges_of P) /\ internal P u w.

Theorem ear_exists : forall P a b, simple P -> pos P -> (4 <= length P)%nat -> In (a, b) (edges_of P) ->
  exists v, In v P /\ v <> a /\ v <> b /\ is_ear P v.
Proof.
  assert (G : forall n P a b, (length P <= n)%nat -> simple P -> pos P -> (4 <= length P)%nat -> In (a, b) (edges_of P) ->
    exists v, In v P /\ v <> a /\ v <> b /\ is_ear P v).
  { induction n as [|n IH]; intros P a b Ln S Q L He; [lia|].
    destruct (chord_exists P S Q L) as (p & q & X & Y & R & I & _ & _).
    (* the piece away from the edge a b *)
    assert (HALF : forall p q X Y, rot P (p :: X ++ q :: Y) -> internal P p q -> In (a, b) (path (p :: X ++ [q])) ->
      exists v, In v P /\ v <> a /\ v <> b /\ is_ear P v).
    { clear p q X Y R I. intros p q X Y R I Hab.
      set (P' := p :: X ++ q :: Y) in *.
      pose proof (rot_simple _ _ R S) as S'. pose proof (rot_pos _ _ R Q) as Q'. pose proof (rot_internal _ _ p q R I) as I'.
      pose proof (proj1 I') as C'. destruct (internal_split p q X Y S' I') as [NX NY].
      destruct (sp_disj p q X Y S' C') as (D1 & D2 & D3 & D4 & D5 & D6).
      pose proof (split_simple2 p X q Y S' NY C') as S2. destruct (split_pos p q X Y S' Q' I') as [_ Q2].
      pose proof (rot_length _ _ R) as L'. unfold P' in L'. cbn [length] in L'. rewrite app_length in L'. cbn [length] in L'.
      destruct (path_ends _ _ _ Hab) as [Ha Hb].
      assert (NotY : forall v, In v Y -> v <> a /\ v <> b).
      { intros v Hv. split; intros ->; [destruct Ha as [E|E]|destruct Hb as [E|E]]; try (subst; contradiction);
          [apply in_app_or in Ha || idtac|apply in_app_or in Hb || idtac]; apply in_app_or in E; destruct E as [E|[E|[]]];
          try (subst; contradiction); now apply (D6 _ E). }
      assert (RB : rot P' P) by (now apply rot_sym).
      assert (InP : forall v, In v Y -> In v P).
      { intros v Hv. apply (rot_in _ _ v RB). right. apply in_or_app. right. now right. }
      assert (EP : forall e, In e (path (q :: Y ++ [p])) -> In e (edges_of P)).
      { intros [e1 e2] H. apply (rot_edges _ _ _ RB). apply sp_edge. now right. }
      destruct (le_lt_dec 4 (length (q :: Y ++ [p]))) as [L4|L4].
      - destruct (IH (q :: Y ++ [p]) p q) as (v & Hv & V1 & V2 & (u & w & U1 & U2 & U3)); auto.
        + cbn [length]. rewrite app_length. cbn [length]. destruct X; [congruence|]. cbn [length] in L'. lia.
        + apply sp_edge2. now right.
        + assert (Yv : In v Y).
          { destruct Hv as [E|Hv]; [congruence|]. apply in_app_or in Hv. destruct Hv as [Hv|[E|[]]]; [exact Hv|congruence]. }
          exists v. split; [now apply InP|]. split; [now apply NotY|]. split; [now apply NotY|].
          exists u, w. apply sp_edge2 in U1, U2.
          split; [|split].
          * destruct U1 as [U1|[_ E]]; [now apply EP|congruence].
          * destruct U2 as [U2|[E _]]; [now apply EP|congruence].
          * apply (rot_internal _ _ u w RB). apply (piece_internal p q X Y S' Q' I'); auto.
            -- destruct U1 as [U1|[E _]]; [now apply (path_ends _ _ _ U1)|]. subst. right. apply in_or_app. right. now left.
            -- destruct U2 as [U2|[_ E]]; [now apply (path_ends _ _ _ U2)|]. subst. now left.
      - (* the piece is a triangle *)
        destruct Y as [|y [|y' Y]]; [congruence| |cbn [length app] in L4; rewrite app_length in L4; cbn [length] in L4; lia].
        exists y. split; [apply InP; now left|]. split; [apply NotY; now left|]. split; [apply NotY; now left|].
        exists q, p. split; [apply EP; now left|]. split; [apply EP; right; now left|]. now apply internal_sym. }
    pose proof (rot_edges _ _ _ R He) as He'. apply sp_edge in He'. destruct He' as [He'|He'].
    - now apply (HALF p q X Y).
    - apply (HALF q p Y X); [|now apply internal_sym|exact He'].
      apply (rot_trans _ _ _ R). exists (p :: X), (q :: Y). now split. }
  intros P a b S Q L He. exact (G (length P) P a b (le_n _) S Q L He).
Qed.

(** ** Clipping an ear keeps the other ears *)
Lemma tri_pos_inv : forall u v w, simple [u; v; w] -> pos [u; v; w] -> 0 < ar u v w.
Proof.
  intros u v w S Q. destruct (Rtotal_order (ar u v w) 0) as [T|[T|T]]; [exfalso| |exact T].
  - apply (pos_not_rev _ S Q). cbn [rev app]. apply tri_pos.
    assert (ar w v u = - ar u v w) by (unfold ar, cross; ring). lra.
  - exfalso. destruct (top_exists [u; v; w]) as (y & Hy & Ty); [discriminate|].
    destruct (prev_exists _ y Hy) as (x & Hx). destruct (next_exists _ y Hy) as (z & Hz).
    apply (top_turn _ x y z S Hx Hz Ty).
    pose proof S as (_ & ND & _).
    assert (Na : u <> v /\ v <> w /\ u <> w).
    { inversion ND as [|? ? M1 M2]; subst. inversion M2 as [|? ? M3 M4]; subst. simpl in *.
      split; [|split]; intros E; subst; tauto. }
    destruct Na as (N1 & N2 & N3).
    destruct Hx as [Hx|[Hx|[Hx|[]]]]; inversion Hx; subst; destruct Hz as [Hz|[Hz|[Hz|[]]]]; inversion Hz; subst; try congruence;
      rewrite <- T; unfold ar, cross; ring.
Qed.

Section Clip.
Variables (u v w : point) (R : list point).
Let P := w :: R ++ u :: [v].
Let P1 := w :: R ++ [u].
Hypothesis S : simple P.
Hypothesis Q : pos P.
Hypothesis I : internal P w u.

Let P' := u :: [v] ++ w :: R.
Let RP : rot P P'.
Proof. exists (w :: R), [u; v]. now split. Qed.
Let S' : simple P' := rot_simple _ _ RP S.
Let Q' : pos P' := rot_pos _ _ RP Q.
Let I' : internal P' u w := internal_sym _ _ _ (rot_internal _ _ _ _ RP I).
Let C : clear P w u := proj1 I.
Let C' : clear P' u w := proj1 I'.

Lemma cl_simple : simple P1.
Proof. apply (split_simple w R u [v] S); [apply (internal_split w u R [v] S I)|exact C]. Qed.
Lemma cl_pos : pos P1.
Proof. apply (split_pos w u R [v] S Q I). Qed.
Lemma cl_turn : 0 < ar u v w.
Proof.
  apply tri_pos_inv.
  - apply (split_simple2 w R u [v] S); [discriminate|exact C].
  - apply (split_pos w u R [v] S Q I).
Qed.

Lemma cl_off : forall y e f, In y R -> In (e, f) [(u, v); (v, w); (w, u)] -> ~ on_segment e f y.
Proof. intros y e f Hy H. apply (sp_off u w [v] R S' C' y e f Hy H). Qed.

Lemma cl_empty : forall p, In p R -> ~ inT u v w p.
Proof.
  intros p Hp (A & B & D). pose proof cl_turn as T.
  pose proof (pc_x0 w u R [v] S Q I p Hp) as W.
  destruct (Rle_lt_or_eq_dec _ _ A) as [A'|A'].
  2:{ apply (cl_off p u v Hp); [now left|]. apply (on_side u v w); auto. }
  destruct (Rle_lt_or_eq_dec _ _ B) as [B'|B'].
  2:{ apply (cl_off p v w Hp); [right; now left|]. apply (on_side v w u); auto. now rewrite ar_rot. }
  destruct (Rle_lt_or_eq_dec _ _ D) as [D'|D'].
  2:{ apply (cl_off p w u Hp); [right; right; now left|]. apply (on_side w u v); auto. now rewrite <- ar_rot. }
  change (u :: [v] ++ [w]) with [u; v; w] in W. rewrite tri_in in W by assumption. discriminate.
Qed.

(** Ears of the rest are ears of the whole. *)
Lemma cl_up : forall c d, In c P1 -> In d P1 -> internal P1 c d -> internal P c d.
Proof.
  intros c d Hc Hd J. apply (rot_internal P' P c d (rot_sym _ _ RP)).
  now apply (piece_internal u w [v] R S' Q' I').
Qed.

Variables (t0 t t1 : point).
Hypothesis Ht : In t R.
Hypothesis E0 : In (t0, t) (edges_of P).
Hypothesis E1 : In (t, t1) (edges_of P).
Hypothesis Big : ~ (t0 = w /\ t1 = u).

Lemma cl_e0 : In (t0, t) (path P1).
Proof. now apply (sp_at_x w u R [v] S C). Qed.
Lemma cl_e1 : In (t, t1) (path P1).
Proof. now apply (sp_at_x' w u R [v] S C). Qed.

Lemma cl_ne : ~ In w R /\ ~ In u R /\ ~ In v R /\ w <> u /\ w <> v /\ u <> v.
Proof. apply ca_ne; auto using cl_turn, cl_empty; apply (internal_split w u R [v] S I). Qed.

Lemma cl_t0 : t0 = w \/ In t0 R.
Proof. exact (proj1 (sp_ends1 w u R _ _ cl_e0)). Qed.
Lemma cl_t1 : t1 = u \/ In t1 R.
Proof. exact (proj2 (sp_ends1 w u R _ _ cl_e1)). Qed.

Let Euv : In (u, v) (edges_of P).
Proof. apply sp_edge. right. now left. Qed.
Let Evw : In (v, w) (edges_of P).
Proof. apply sp_edge. right. right. now left. Qed.

Lemma cl_down_clear : internal P t0 t1 -> clear P1 t0 t1.
Proof.
  intros (CJ & _ & _) c d x He Xe Xt. apply sp_edge1 in He. destruct He as [He|[-> ->]].
  { apply (CJ c d x); auto. apply sp_edge. now left. }
  destruct (classic (x = t0)) as [|N0]; [now left|]. destruct (classic (x = t1)) as [|N1]; [now right|]. exfalso.
  destruct cl_ne as (M1 & M2 & M3 & M4 & M5 & M6). pose proof cl_turn as T.
  (* x on the chord u w *)
  destruct Xe as (r & Hr & Ex).
  assert (F : ar u v x = r * ar u v w) by (rewrite Ex, ar_along, (proj1 (ar_aa u v)); ring).
  assert (G : ar v w x = (1 - r) * ar u v w) by (rewrite Ex, ar_along, (proj1 (proj2 (ar_aa v w))), ar_rot; ring).
  assert (H : ar w u x = 0) by (rewrite Ex, ar_along, (proj1 (ar_aa w u)), (proj1 (proj2 (ar_aa w u))); ring).
  assert (IX : inT u v w x) by (unfold inT; rewrite F, G, H; repeat split; nra).
  assert (CH : exists e e', (e = t0 /\ e' = t1 \/ e = t1 /\ e' = t0) /\ In e R /\ 0 <= ar w u e).
  { destruct Xt as (s & Hs & Ex'). pose proof H as H'. rewrite Ex', ar_along in H'.
    assert (s <> 0) by (intros ->; apply N0; rewrite Ex'; apply along0).
    assert (s <> 1) by (intros ->; apply N1; rewrite Ex'; apply along1).
    destruct cl_t0 as [E|R0].
    - destruct cl_t1 as [E'|R1]; [exfalso; now apply Big|].
      rewrite E in H'. rewrite (proj1 (ar_aa w u)) in H'. exists t1, t0. split; [now right|]. split; [exact R1|].
      assert (ar w u t1 = 0) by nra. lra.
    - destruct cl_t1 as [E'|R1].
      + rewrite E' in H'. rewrite (proj1 (proj2 (ar_aa w u))) in H'. exists t0, t1. split; [now left|]. split; [exact R0|].
        assert (ar w u t0 = 0) by nra. lra.
      + destruct (Rlt_le_dec (ar w u t0) 0) as [L|L].
        * exists t1, t0. split; [now right|]. split; [exact R1|].
          destruct (Rlt_le_dec (ar w u t1) 0) as [L'|L']; [nra|exact L'].
        * exists t0, t1. split; [now left|]. now split. }
  destruct CH as (e & e' & Ee & Re & He).
  destruct (tri_exit u v w x e T IX (cl_empty e Re) He) as (y & Y1 & Y2).
  assert (Yt : on_segment t0 t1 y).
  { apply (on_seg_mid t0 t1 x e y Xt); [|exact Y1]. destruct Ee as [[-> _]|[-> _]]; auto. }
  assert (Ye : y = t0 \/ y = t1) by (destruct Y2 as [Y2|Y2]; [apply (CJ u v y Euv Y2 Yt)|apply (CJ v w y Evw Y2 Yt)]).
  assert (Ne : y <> e).
  { intros ->. destruct Y2 as [Y2|Y2]; [apply (cl_off e u v Re)|apply (cl_off e v w Re)]; auto; [now left|right; now left]. }
  assert (Y' : y = e') by (destruct Ee as [[-> ->]|[-> ->]], Ye; congruence).
  subst y. assert (x = e').
  { apply (seg_end e e' x); [|exact Y1]. destruct Ee as [[-> ->]|[-> ->]]; [exact Xt|now apply on_segment_rev]. }
  destruct Ee as [[_ ->]|[_ ->]]; contradiction.
Qed.

Lemma cl_down : internal P t0 t1 -> internal P1 t0 t1.
Proof.
  intros J. pose proof (cl_down_clear J) as CD. split; [exact CD|].
  destruct cl_ne as (M1 & M2 & M3 & M4 & M5 & M6). pose proof cl_turn as T.
  pose proof cl_simple as S1. destruct J as (CJ & JA & JB). pose proof (proj1 (proj2 I)) as IA. pose proof (proj2 (proj2 I)) as IB.
  assert (ND : NoDup P) by apply S. assert (ND1 : NoDup P1) by apply S1.
  split.
  - intros c0 c1 H0 H1.
    assert (E : c1 = t) by (apply (next_unique P1 t0 c1 t ND1 H1); apply sp_edge1; left; exact cl_e0). subst c1.
    destruct cl_t0 as [Ew|Rt0].
    + subst t0. assert (E : c0 = u) by (apply (prev_unique P1 c0 u w ND1 H0); apply sp_edge1; now right). subst c0.
      assert (Rt1 : In t1 R) by (destruct cl_t1 as [?|?]; [exfalso; now apply Big|assumption]).
      pose proof (JA v t Evw E0) as K1. pose proof (IA v t Evw E0) as K2.
      destruct (ccw_split w t u v t1 K2) as [L|L]; auto.
      * intros ->. contradiction.
      * intros L. destruct (samedir_meet w u t1 L) as (x & X1 & X2 & X3); [congruence|].
        destruct (CD u w x H0 (on_segment_rev _ _ _ X2) X3) as [E|E]; [congruence|].
        subst x. apply (cl_off t1 w u Rt1); [right; right; now left|exact X2].
      * exfalso. apply (cone_block w u v t1).
        -- now rewrite <- ar_rot.
        -- intros L'. apply (cl_empty t1 Rt1). now apply inT_rot.
        -- intros x X1 X2. destruct (CJ u v x Euv X2 X1) as [E|E]; subst x.
           ++ destruct (vertex_on P w u v S (or_introl eq_refl) Euv X2); congruence.
           ++ apply (cl_off t1 u v Rt1); [now left|exact X2].
        -- exact L.
    + apply JA; [|exact E0]. apply sp_edge1 in H0. destruct H0 as [H0|[_ E]]; [apply sp_edge; now left|].
      subst t0. contradiction.
  - intros c0 c1 H0 H1.
    assert (E : c0 = t) by (apply (prev_unique P1 c0 t t1 ND1 H0); apply sp_edge1; left; exact cl_e1). subst c0.
    destruct cl_t1 as [Eu|Rt1].
    + subst t1. assert (E : c1 = w) by (apply (next_unique P1 u c1 w ND1 H1); apply sp_edge1; now right). subst c1.
      assert (Rt0 : In t0 R) by (destruct cl_t0 as [?|?]; [exfalso; now apply Big|assumption]).
      pose proof (JB t v E1 Euv) as K1. pose proof (IB t v E1 Euv) as K2.
      destruct (ccw_split u v w t t0 K2) as [L|L]; auto.
      * intros ->. contradiction.
      * intros L. destruct (samedir_meet u w t0 L) as (x & X1 & X2 & X3); [congruence|].
        destruct (CD u w x H1 X2 (on_segment_rev _ _ _ X3)) as [E|E]; [|congruence].
        subst x. apply (cl_off t0 w u Rt0); [right; right; now left|now apply on_segment_rev].
      * exfalso. apply (cone_block u v w t0).
        -- exact T.
        -- now apply cl_empty.
        -- intros x X1 X2. destruct (CJ v w x Evw X2 (on_segment_rev _ _ _ X1)) as [E|E]; subst x.
           ++ apply (cl_off t0 v w Rt0); [right; now left|exact X2].
           ++ destruct (vertex_on P u v w S (proj1 (edge_ends _ _ _ Euv)) Evw X2); congruence.
        -- exact L.
    + apply JB; [exact E1|]. apply sp_edge1 in H1. destruct H1 as [H1|[E _]]; [apply sp_edge; now left|].
      subst t1. contradiction.
Qed.

Theorem clip_internal : internal P t0 t1 <-> internal P1 t0 t1.
Proof.
  split; [exact cl_down|]. apply cl_up.
  - exact (proj1 (path_ends _ _ _ cl_e0)).
  - exact (proj2 (path_ends _ _ _ cl_e1)).
Qed.
End Clip.
