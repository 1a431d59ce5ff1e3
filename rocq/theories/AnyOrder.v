(** * Nodes and edges may be added in any order. *)
From Coq Require Import Reals Lia Lra List Bool Arith Permutation ZArith.
From Flocq Require Import Core.Core IEEE754.BinarySingleNaN.
From Verif Require Import Scalar Utils Polygon Laws Graph GraphSpec PlaneSpec PlanarSpec GridSpec
  GraphAdd GraphAddProps GraphRemove GraphHistory UtilsReal F32 UtilsF32 PolyF32 PolyNewF32 GraphPlanar GraphSim GridUtils GridSeg GridPrim GridOn
  GridGraph ThroughSpec Through GridThroughSpec GridThrough DrawSpec Draw AnyOrderSpec.
Import ListNotations.
Local Open Scope R_scope.

Section Exact.
Context {T U : Type} (dT : T).
Local Notation graph := (PlanarGraph XO T U).
Local Notation asksX := (asks dT (@drawn T U)).

Definition on_line_of (l : list (point * point)) (x : point) : Prop := exists a b, In (a, b) l /\ on_segment a b x.
Definition two_lines (l : list (point * point)) (x : point) : Prop :=
  exists c c' l', Permutation l (c :: c' :: l') /\ on_segment (fst c) (snd c) x /\ on_segment (fst c') (snd c') x.

Lemma two_cons : forall a b l x, two_lines ((a, b) :: l) x <-> (on_segment a b x /\ on_line_of l x) \/ two_lines l x.
Proof.
  intros a b l x. split.
  - intros (c & c' & l' & P & S1 & S2). assert (Hc : In (a, b) (c :: c' :: l')) by (apply (Permutation_in _ P); now left).
    destruct Hc as [E|[E|Hc]]; [subst c|subst c'|].
    + apply Permutation_cons_inv in P. left. split; [exact S1|]. destruct c' as [a' b']. exists a', b'. split; [apply (Permutation_in _ (Permutation_sym P)); now left|exact S2].
    + assert (P' : Permutation ((a, b) :: l) ((a, b) :: c :: l')) by (rewrite P; apply perm_swap). apply Permutation_cons_inv in P'.
      left. split; [exact S2|]. destruct c as [a' b']. exists a', b'. split; [apply (Permutation_in _ (Permutation_sym P')); now left|exact S1].
    + apply in_split in Hc. destruct Hc as (l1 & l2 & ->). right. exists c, c', (l1 ++ l2). split; [|auto].
      apply (Permutation_cons_inv (a := (a, b))). rewrite P. symmetry. change (c :: c' :: l1 ++ (a, b) :: l2) with ((c :: c' :: l1) ++ (a, b) :: l2).
      now apply (Permutation_cons_app (c :: c' :: l1) l2).
  - intros [(S1 & a' & b' & Hin & S2)|(c & c' & l' & P & S1 & S2)].
    + apply in_split in Hin. destruct Hin as (l1 & l2 & ->). exists (a, b), (a', b'), (l1 ++ l2). split; [|auto]. constructor. symmetry. apply Permutation_middle.
    + exists c, c', ((a, b) :: l'). split; [|auto]. rewrite P. transitivity (c :: (a, b) :: c' :: l'); [apply perm_swap|constructor; apply perm_swap].
Qed.
Lemma on_line_cons : forall a b l x, on_line_of ((a, b) :: l) x <-> on_segment a b x \/ on_line_of l x.
Proof.
  intros a b l x. split.
  - intros (a' & b' & [E|H] & S); [injection E as -> ->; now left|right; exists a', b'; auto].
  - intros [S|(a' & b' & H & S)]; [exists a, b; split; [now left|exact S]|exists a', b'; split; [now right|exact S]].
Qed.

Lemma node_full : forall (g g1 : graph) ps p dat i ces, drawn g ps -> well_drawn ps (edges g) ->
  good_place ps (edges g) p -> add_node g (xp p) dat = Ok (g1, (i, ces)) ->
  exists ps1, drawn g1 ps1 /\ well_drawn ps1 (edges g1) /\ (forall x, covers ps1 (edges g1) x <-> covers ps (edges g) x) /\
    (forall x, In x ps1 <-> In x ps \/ x = pt ps1 i).
Proof.
  intros g g1 ps p dat i ces D W GP H. destruct (add_node_planar g g1 ps p dat i ces D W GP H) as (qs & D1 & W1 & C1 & L1 & _).
  exists (ps ++ qs). split; [exact D1|]. split; [exact W1|]. split; [exact C1|].
  assert (Q : qs = [] \/ (qs = [p] /\ i = length ps)).
  { apply add_node_ok in H. destruct H as [(dd & _ & _ & -> & _)|(dd & j & _ & _ & -> & Hn & _)].
    - left. pose proof (drawn_fun _ _ _ D D1) as E. apply (f_equal (@length _)) in E. rewrite app_length in E. destruct qs; [reflexivity|cbn in E; lia].
    - right. split; [|exact (drawn_length _ _ D)]. assert (D2 : drawn g1 (ps ++ [p])).
      { unfold drawn in *. rewrite Hn, !map_app, D. reflexivity. }
      exact (app_inv_head _ _ _ (drawn_fun _ _ _ D1 D2)). }
  intros x. destruct Q as [->|(-> & ->)].
  - rewrite app_nil_r in *. split; [now left|]. intros [Hx| ->]; [exact Hx|]. now apply nth_In.
  - unfold pt. rewrite app_nth2, Nat.sub_diag by lia. cbn [nth]. rewrite in_app_iff. cbn [In]. split; intros [A|B]; auto; [destruct B as [->|[]]; auto].
Qed.

Lemma asks_picture : forall os l (g g' : graph) ps, asksX g os l g' -> neat dT g os -> drawn g ps -> well_drawn ps (edges g) ->
  exists ps', drawn g' ps' /\ well_drawn ps' (edges g') /\
    (forall x, covers ps' (edges g') x <-> covers ps (edges g) x \/ on_line_of (lines l) x) /\
    (forall x, In x ps' <-> In x ps \/ dotted l x \/ (on_line_of (lines l) x /\ covers ps (edges g) x) \/ two_lines (lines l) x).
Proof.
  intros os l g g' ps A. revert ps. induction A as [g|g p dat g1 i ces ps0 os l g2 H P A IH|g s d u g1 r ps0 os l g2 NA Ls Ld H P A IH|g s d u g1 r os l g2 N H A IH];
    intros ps N0 D W.
  - exists ps. split; [exact D|]. split; [exact W|]. cbn [lines]. split; intros x.
    + split; [now left|]. intros [?|(a & b & [] & _)]; assumption.
    + split; [now left|]. intros [?|[[]|[((a & b & [] & _) & _)|(c & c' & l' & Q & _)]]]; [assumption|]. apply Permutation_nil in Q. discriminate.
  - destruct N0 as [(ps1 & q & D1 & -> & GP) N1]. rewrite (drawn_fun _ _ _ D1 D) in GP.
    destruct (node_full g g1 ps q dat i ces D W GP H) as (ps2 & D2 & W2 & C2 & I2). rewrite (drawn_fun _ _ _ P D2).
    destruct (IH ps2) as (ps' & D' & W' & C' & I'); [apply N1; cbn [step]; rewrite H; reflexivity|exact D2|exact W2|].
    exists ps'. split; [exact D'|]. split; [exact W'|]. cbn [lines]. split; intros x.
    + rewrite C', C2. reflexivity.
    + rewrite I', I2, C2. unfold dotted. cbn [In]. split.
      * intros [[A1|A1]|[A1|A1]]; auto. subst x. auto.
      * intros [A1|[[A1|A1]|A1]]; auto. injection A1 as <-. auto.
  - destruct N0 as [(Nsd & [B|[B|(ps1 & D1 & UA & PE)]]) N1]; [contradiction|tauto|]. rewrite (drawn_fun _ _ _ D1 D) in UA, PE. rewrite (drawn_fun _ _ _ P D).
    rewrite (drawn_length _ _ D) in Ls, Ld.
    destruct (add_edge_thru dT g g1 ps s d u r D W UA Nsd NA Ls Ld H) as (qs & D2 & _ & C2 & I2 & _ & _ & Wi).
    destruct (IH (ps ++ qs)) as (ps' & D' & W' & C' & I'); [apply N1; cbn [step]; rewrite H; reflexivity|exact D2|now apply Wi|].
    exists ps'. split; [exact D'|]. split; [exact W'|]. cbn [lines]. split; intros x.
    + rewrite C', C2, on_line_cons. tauto.
    + rewrite I', C2, on_line_cons, two_cons, in_app_iff, I2. unfold dotted. cbn [In].
      destruct (Classical_Prop.classic (In x ps)) as [Q|Q].
      * tauto.
      * split.
        -- intros [[A1|(A1 & A2 & _)]|[A1|[(A1 & [A2|A2])|A1]]]; auto 7.
        -- intros [A1|[[A1|A1]|[([A1|A1] & A2)|[(A1 & A2)|A1]]]]; auto 7. discriminate.
  - destruct N0 as [_ N1]. pose proof (add_edge_ok dT _ _ _ _ _ _ H) as Q.
    destruct Q as [(_ & -> & _)|[(_ & _ & -> & _)|(NA & Ls & Ld & _)]].
    + apply IH; auto. apply N1. cbn [step]. rewrite H. reflexivity.
    + apply IH; auto. apply N1. cbn [step]. rewrite H. reflexivity.
    + exfalso. tauto.
Qed.

Theorem asks_order : forall (g g1 g2 : graph) ps os1 os2 l1 l2, drawn g ps -> well_drawn ps (edges g) ->
  neat dT g os1 -> neat dT g os2 -> asksX g os1 l1 g1 -> asksX g os2 l2 g2 -> same_strokes l1 l2 ->
  exists ps1 ps2, drawn g1 ps1 /\ drawn g2 ps2 /\ same_drawing ps1 (edges g1) ps2 (edges g2).
Proof.
  intros g g1 g2 ps os1 os2 l1 l2 D W N1 N2 A1 A2 (S1 & S2).
  destruct (asks_picture os1 l1 g g1 ps A1 N1 D W) as (ps1 & D1 & W1 & C1 & I1).
  destruct (asks_picture os2 l2 g g2 ps A2 N2 D W) as (ps2 & D2 & W2 & C2 & I2).
  assert (L : forall x, on_line_of (lines l1) x <-> on_line_of (lines l2) x).
  { intros x. split; intros (a & b & H & S); exists a, b; (split; [|exact S]).
    - exact (Permutation_in _ S2 H).
    - exact (Permutation_in _ (Permutation_sym S2) H). }
  assert (L2 : forall x, two_lines (lines l1) x <-> two_lines (lines l2) x).
  { intros x. split; intros (c & c' & l' & P & S); exists c, c', l'; (split; [|exact S]).
    - now rewrite <- S2.
    - now rewrite S2. }
  exists ps1, ps2. split; [exact D1|]. split; [exact D2|]. apply drawing_unique; [now apply well_plane|now apply well_plane| |].
  - intros x. rewrite I1, I2, L, L2, S1. reflexivity.
  - intros x. rewrite C1, C2, L. reflexivity.
Qed.
End Exact.

(** ** f32 on the grids of C90 *)
Section Fam.
Context (lm : Libm) (e : Z) (He : (-22 <= e <= 51)%Z) {T U : Type} (dT : T).
Local Notation G := (grid_le 6 e).
Context (S : point -> point -> Prop).
Hypothesis HonS : forall a b p i, G a -> G b -> G p -> S (toR a) (toR b) ->
  (is_on_line_segment (O := FO lm) a b p i = true <-> inner (toR a) (toR b) (toR p)) /\
  (is_on_line_segment (O := XO) (up a) (up b) (up p) i = true <-> inner (toR a) (toR b) (toR p)).
Hypothesis Hlat : forall a b c d p, G a -> G b -> G c -> G d -> S (toR a) (toR b) -> S (toR c) (toR d) ->
  cross (toR a) (toR b) (toR c) (toR d) <> 0 -> on_segment (toR a) (toR b) p -> on_segment (toR c) (toR d) p ->
  exists m, p = P2 (IZR (fst m) * bpow radix2 e) (IZR (snd m) * bpow radix2 e).
Hypothesis HsplitS : forall a b p, S a b -> on_segment a b p -> S a p /\ S b p.
Local Notation graph := (PlanarGraph (FO lm) T U).
Let S' (a b : Vec2 (FO lm)) : Prop := S (toR a) (toR b).
Local Notation ins := (@GraphSim.inside (FO lm) T U G S').

Lemma fam_asks : forall (g g' : graph) os l, asks dT placed_f32 g os l g' -> ins g -> GridSpec.draws dT G S g os ->
  asks dT (@drawn T U) (exact_graph g) (map exact_op os) l (exact_graph g').
Proof.
  intros g g' os l A. induction A as [g|g p dat g1 i ces ps0 os l g2 H P A IH|g s d u g1 r ps0 os l g2 NA Ls Ld H P A IH|g s d u g1 r os l g2 N H A IH];
    intros I D.
  - constructor.
  - destruct D as [D1 D2]. destruct (fam_add_node lm e He S HonS HsplitS g p dat I D1) as [E I']. rewrite H in E. cbn [rmap fst snd] in E.
    unfold placed_f32 in P. subst ps0. cbn [map exact_op].
    apply (asks_node dT _ _ _ _ (exact_graph g1) i ces (places g1) _ _ _ E (exact_drawn lm g1)). apply IH; [exact (I' _ _ H)|]. apply D2. cbn [step]. now rewrite H.
  - destruct D as [D1 D2]. destruct (fam_add_edge lm e He dT S HonS Hlat HsplitS g s d u I D1) as [E I']. rewrite H in E. cbn [rmap fst snd] in E.
    unfold placed_f32 in P. subst ps0. cbn [map exact_op].
    apply (asks_edge dT _ _ s d u (exact_graph g1) r (places g)); [exact NA|unfold exact_graph; cbn [nodes]; now rewrite map_length..|exact E|exact (exact_drawn lm g)|].
    apply IH; [exact (I' _ _ H)|]. apply D2. cbn [step]. now rewrite H.
  - destruct D as [D1 D2]. destruct (fam_add_edge lm e He dT S HonS Hlat HsplitS g s d u I D1) as [E I']. rewrite H in E. cbn [rmap fst snd] in E.
    cbn [map exact_op]. apply (asks_none dT _ _ s d u (exact_graph g1) r); [|exact E|].
    + destruct N as [N|N]; [left; exact N|right]. unfold exact_graph. cbn [nodes]. now rewrite map_length.
    + apply IH; [exact (I' _ _ H)|]. apply D2. cbn [step]. now rewrite H.
Qed.

Theorem fam_order : forall (g g1 g2 : graph) os1 os2 l1 l2, ins g -> well_drawn (places g) (edges g) ->
  GridSpec.draws dT G S g os1 -> straights dT g os1 -> GridSpec.draws dT G S g os2 -> straights dT g os2 ->
  asks dT placed_f32 g os1 l1 g1 -> asks dT placed_f32 g os2 l2 g2 -> same_strokes l1 l2 ->
  same_drawing (places g1) (edges g1) (places g2) (edges g2).
Proof.
  intros g g1 g2 os1 os2 l1 l2 I W D1 St1 D2 St2 A1 A2 SS.
  destruct (asks_order dT (exact_graph g) (exact_graph g1) (exact_graph g2) (places g) (map exact_op os1) (map exact_op os2) l1 l2 (exact_drawn lm g) W)
    as (ps1 & ps2 & Q1 & Q2 & SD).
  - exact (fam_neats lm e He dT S HonS Hlat HsplitS os1 g I W D1 St1).
  - exact (fam_neats lm e He dT S HonS Hlat HsplitS os2 g I W D2 St2).
  - exact (fam_asks g g1 os1 l1 A1 I D1).
  - exact (fam_asks g g2 os2 l2 A2 I D2).
  - exact SS.
  - rewrite (drawn_fun _ _ _ Q1 (exact_drawn lm g1)) in SD. rewrite (drawn_fun _ _ _ Q2 (exact_drawn lm g2)) in SD. exact SD.
Qed.
End Fam.

Section Run.
Context {lm : Libm} {T U : Type} (dT : T).
Lemma asks_run : forall os (g g' : PlanarGraph (FO lm) T U),
  (forall o, In o os -> match o with ORemoveNode _ | ORemoveEdge _ => False | _ => True end) -> run dT g os = Ok g' ->
  exists l, asks dT placed_f32 g os l g' /\ forall l' g'', asks dT placed_f32 g os l' g'' -> l' = l /\ g'' = g'.
Proof.
  induction os as [|o os IH]; intros g g' A R.
  - injection R as <-. exists []. split; [constructor|]. intros l' g'' H. inversion H; subst; auto.
  - pose proof (A o (or_introl eq_refl)) as Ho. cbn [run] in R.
    assert (A' : forall o', In o' os -> match o' with ORemoveNode _ | ORemoveEdge _ => False | _ => True end) by (intros o' I; apply A; now right).
    destruct o as [p d|s d u|i|i]; [| |destruct Ho|destruct Ho]; cbn [step] in R.
    + destruct (add_node g p d) as [[g1 [i ces]]|] eqn:E; [|discriminate]. destruct (IH g1 g' A' R) as (l & Q & Un).
      exists (Dot (pt (places g1) i) :: l). split; [exact (asks_node dT _ _ _ _ _ _ _ _ _ _ _ E eq_refl Q)|].
      intros l' g'' H. inversion H as [|g0 p0 d0 g1' i' ces' ps' os' l0 g2' E' P' Q'| |]; subst. rewrite E in E'. injection E' as -> -> ->.
      destruct (Un _ _ Q') as [-> ->]. unfold placed_f32 in P'. subst ps'. auto.
    + destruct (add_edge dT g s d u) as [[g1 r]|] eqn:E; [|discriminate]. destruct (IH g1 g' A' R) as (l & Q & Un).
      assert (Dec : (adjacent g s d \/ ~ (s < length (nodes g) /\ d < length (nodes g))%nat) \/
        (~ adjacent g s d /\ (s < length (nodes g))%nat /\ (d < length (nodes g))%nat)).
      { destruct (has_edge_between_nodes g s d) eqn:B; [left; left; now apply between_adjacent|].
        assert (NA : ~ adjacent g s d) by (intros Q0; apply between_adjacent in Q0; congruence).
        destruct (Nat.lt_ge_cases s (length (nodes g))), (Nat.lt_ge_cases d (length (nodes g))); [right; auto|left; right; lia..]. }
      destruct Dec as [Dec|(NA & Ls & Ld)].
      * exists l. split; [exact (asks_none dT _ _ _ _ _ _ _ _ _ _ Dec E Q)|].
        intros l' g'' H. inversion H as [| |g0 s0 d0 u0 g1' r' ps' os' l0 g2' N1 N2 N3 E' P' Q'|g0 s0 d0 u0 g1' r' os' l0 g2' N1 E' Q']; subst; [tauto|].
        rewrite E in E'. injection E' as -> ->. exact (Un _ _ Q').
      * exists (Line (pt (places g) s) (pt (places g) d) :: l). split; [exact (asks_edge dT _ _ _ _ _ _ _ _ _ _ _ NA Ls Ld E eq_refl Q)|].
        intros l' g'' H. inversion H as [| |g0 s0 d0 u0 g1' r' ps' os' l0 g2' N1 N2 N3 E' P' Q'|g0 s0 d0 u0 g1' r' os' l0 g2' N1 E' Q']; subst; [|tauto].
        rewrite E in E'. injection E' as -> ->. destruct (Un _ _ Q') as [-> ->]. unfold placed_f32 in P'. subst ps'. auto.
Qed.
End Run.
