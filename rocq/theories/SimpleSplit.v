(** * Cutting a simple polygon along a chord *)
From Coq Require Import Reals List Bool Lra Lia Psatz ZArith Permutation Classical.
From Verif Require Import Scalar Utils PlaneSpec PolySpec Laws UtilsReal PolyArea PolyTri Winding SimplePoly SimpleWinding.
Import ListNotations.
Local Open Scope R_scope.

Lemma path_ends : forall l a b, In (a, b) (path l) -> In a l /\ In b l.
Proof.
  induction l as [|x l IH]; intros a b H; [destruct H|]. destruct l as [|y l]; [destruct H|].
  change (path (x :: y :: l)) with ((x, y) :: path (y :: l)) in H. destruct H as [H|H].
  - inversion H; subst. split; [now left|right; now left].
  - destruct (IH _ _ H). split; now right.
Qed.

Lemma path_next : forall l m a x b, In x (l ++ [a]) -> exists y, In (x, y) (path (l ++ a :: b :: m)).
Proof.
  intros l m a x b H. assert (K : In x (map fst (path (l ++ a :: b :: m)))).
  { replace (l ++ a :: b :: m) with ((l ++ [a]) ++ (b :: m)) by (now rewrite <- app_assoc).
    assert (G : forall k, In x k -> In x (map fst (path (k ++ b :: m)))); [|now apply G].
    clear. induction k as [|y k IH]; intros H; [destruct H|].
    destruct k as [|y' k].
    - destruct H as [->|[]]. simpl. now left.
    - change (path ((y :: y' :: k) ++ b :: m)) with ((y, y') :: path ((y' :: k) ++ b :: m)).
      destruct H as [->|H]; [now left|right; now apply IH]. }
  apply in_map_iff in K. destruct K as ([x' y] & E & K). simpl in E. subst. now exists y.
Qed.

Lemma NoDup_app_disj : forall (A : Type) (l m : list A) x, NoDup (l ++ m) -> In x l -> In x m -> False.
Proof.
  induction l as [|y l IH]; intros m x N H1 H2; [destruct H1|]. inversion N as [|? ? N1 N2]; subst.
  destruct H1 as [->|H1]; [apply N1; apply in_or_app; now right|now apply (IH m x)].
Qed.

(** A quantity that does not change along the edges of a path is the same at all its points. *)
Lemma path_const : forall (f : point -> Z) l, (forall a b, In (a, b) (path l) -> f a = f b) ->
  forall x y, In x l -> In y l -> f x = f y.
Proof.
  intros f. assert (G : forall l h, (forall a b, In (a, b) (path (h :: l)) -> f a = f b) -> forall y, In y (h :: l) -> f h = f y).
  { induction l as [|a l IH]; intros h H y [->|Hy]; try reflexivity; [destruct Hy|].
    change (path (h :: a :: l)) with ((h, a) :: path (a :: l)) in H.
    rewrite (H h a) by (now left). apply IH; [|exact Hy]. intros c d I. apply H. now right. }
  intros [|h l] H x y Hx Hy; [destruct Hx|].
  now rewrite <- (G l h H x Hx), <- (G l h H y Hy).
Qed.

Lemma path_mid : forall l a b m, In (a, b) (path l) -> In (a, b) (path (l ++ m)).
Proof.
  induction l as [|x l IH]; intros a b m H; [destruct H|]. destruct l as [|y l]; [destruct H|].
  change (path ((x :: y :: l) ++ m)) with ((x, y) :: path ((y :: l) ++ m)).
  change (path (x :: y :: l)) with ((x, y) :: path (y :: l)) in H.
  destruct H as [H|H]; [now left|right; now apply IH].
Qed.

Lemma path_tl : forall l a b x, In (a, b) (path l) -> In (a, b) (path (x :: l)).
Proof. intros [|y l] a b x H; [destruct H|]. right. exact H. Qed.

Section Split.
Variables (a b : point) (X Y : list point).
Let P := a :: X ++ b :: Y.
Let P1 := a :: X ++ [b].
Let P2 := b :: Y ++ [a].
Hypothesis S : simple P.
Hypothesis C : clear P a b.
Hypothesis NX : X <> [].
Hypothesis NY : Y <> [].

Lemma sp_nodup : NoDup (a :: X ++ b :: Y).
Proof. apply S. Qed.

Lemma sp_disj : ~ In a X /\ ~ In a Y /\ ~ In b X /\ ~ In b Y /\ a <> b /\ (forall x, In x X -> ~ In x Y).
Proof.
  pose proof sp_nodup as N. inversion N as [|? ? N1 N2]; subst.
  assert (N3 : ~ In b (X ++ Y)) by (now apply NoDup_remove_2).
  repeat split.
  - intros H. apply N1. apply in_or_app. now left.
  - intros H. apply N1. apply in_or_app. right. now right.
  - intros H. apply N3. apply in_or_app. now left.
  - intros H. apply N3. apply in_or_app. now right.
  - intros ->. apply N1. apply in_or_app. right. now left.
  - intros x H1 H2. apply (NoDup_app_disj _ X (b :: Y) x N2 H1). now right.
Qed.

Lemma sp_edge : forall c d, In (c, d) (edges_of P) <-> In (c, d) (path P1) \/ In (c, d) (path P2).
Proof. intros c d. unfold P. rewrite edges_split. apply in_app_iff. Qed.

Lemma sp_edge1 : forall c d, In (c, d) (edges_of P1) <-> In (c, d) (path P1) \/ (c = b /\ d = a).
Proof.
  intros c d. unfold P1. rewrite edges_chord. rewrite in_app_iff. simpl. split.
  - intros [H|[H|[]]]; [now left|right]. inversion H; auto.
  - intros [H|[-> ->]]; [now left|right; now left].
Qed.

Lemma sp_edge2 : forall c d, In (c, d) (edges_of P2) <-> In (c, d) (path P2) \/ (c = a /\ d = b).
Proof.
  intros c d. unfold P2. rewrite edges_chord. rewrite in_app_iff. simpl. split.
  - intros [H|[H|[]]]; [now left|right]. inversion H; auto.
  - intros [H|[-> ->]]; [now left|right; now left].
Qed.

Lemma sp_ends1 : forall c d, In (c, d) (path P1) -> (c = a \/ In c X) /\ (d = b \/ In d X).
Proof.
  intros c d H. split.
  - apply (in_map fst) in H. unfold P1 in H. change (a :: X ++ [b]) with ((a :: X) ++ [b]) in H. rewrite path_fst in H.
    destruct H as [H|H]; [left; symmetry; exact H|right; exact H].
  - apply (in_map snd) in H. unfold P1 in H. rewrite path_snd in H. apply in_app_or in H.
    destruct H as [H|[H|[]]]; [right; exact H|left; symmetry; exact H].
Qed.

Lemma sp_ends2 : forall c d, In (c, d) (path P2) -> (c = b \/ In c Y) /\ (d = a \/ In d Y).
Proof.
  intros c d H. split.
  - apply (in_map fst) in H. unfold P2 in H. change (b :: Y ++ [a]) with ((b :: Y) ++ [a]) in H. rewrite path_fst in H.
    destruct H as [H|H]; [left; symmetry; exact H|right; exact H].
  - apply (in_map snd) in H. unfold P2 in H. rewrite path_snd in H. apply in_app_or in H.
    destruct H as [H|[H|[]]]; [right; exact H|left; symmetry; exact H].
Qed.

Lemma sp_in : In a P /\ In b P /\ (forall x, In x X -> In x P) /\ (forall y, In y Y -> In y P).
Proof.
  unfold P. repeat split.
  - now left.
  - right. apply in_or_app. right. now left.
  - intros x H. right. apply in_or_app. now left.
  - intros x H. right. apply in_or_app. right. now right.
Qed.

(** The two sides of the cut meet at a and b only. *)
Lemma sp_sep : forall c d e f x, In (c, d) (path P2) -> In (e, f) (edges_of P1) ->
  on_segment c d x -> on_segment e f x -> x = a \/ x = b.
Proof.
  intros c d e f x H1 H2 X1 X2. apply sp_edge1 in H2.
  assert (E1 : In (c, d) (edges_of P)) by (apply sp_edge; now right).
  destruct H2 as [H2|[-> ->]].
  - assert (E2 : In (e, f) (edges_of P)) by (apply sp_edge; now left).
    destruct (sp_ends1 _ _ H2) as [A1 A2]. destruct (sp_ends2 _ _ H1) as [B1 B2].
    destruct sp_disj as (D1 & D2 & D3 & D4 & D5 & D6).
    pose proof S as (_ & _ & I).
    destruct (I c d e f x E1 E2 X1 X2) as [E|[[E F]|[E F]]].
    + subst e. exfalso. destruct A1 as [A1|A1], B1 as [B1|B1]; subst; try tauto; try congruence. now apply (D6 c).
    + subst x e. destruct A1 as [A1|A1], B2 as [B2|B2]; subst; try tauto. exfalso. now apply (D6 d).
    + subst x f. destruct A2 as [A2|A2], B1 as [B1|B1]; subst; try tauto. exfalso. now apply (D6 c).
  - apply (C c d x E1 X1). now apply on_segment_rev.
Qed.

(** Vertices of one chain are not on the other side. *)
Lemma sp_off : forall y e f, In y Y -> In (e, f) (edges_of P1) -> ~ on_segment e f y.
Proof.
  intros y e f Hy H K. destruct sp_disj as (D1 & D2 & D3 & D4 & D5 & D6).
  destruct sp_in as (I1 & I2 & I3 & I4).
  apply sp_edge1 in H. destruct H as [H|[-> ->]].
  - destruct (vertex_on P y e f S) as [E|E]; auto; [apply sp_edge; now left| |];
      destruct (sp_ends1 _ _ H) as [A1 A2]; subst.
    + destruct A1 as [->|A1]; [tauto|now apply (D6 e)].
    + destruct A2 as [->|A2]; [tauto|now apply (D6 f)].
  - destruct (prev_exists P y (I4 y Hy)) as (y0 & Hp).
    destruct (C y0 y y Hp (on_seg_r _ _) (on_segment_rev _ _ _ K)) as [E|E]; subst; tauto.
Qed.

Lemma sp_chain : forall y y', In y Y -> In y' Y -> winding P1 y = winding P1 y'.
Proof.
  intros y y' H H'. apply (path_const (winding P1) Y); auto.
  intros c d Hcd. apply winding_move. intros [e f] x He Xc Xe. cbn [fst snd] in Xe.
  assert (Hp : In (c, d) (path P2)).
  { unfold P2. apply path_tl. now apply path_mid. }
  destruct (path_ends _ _ _ Hcd) as [Yc Yd].
  destruct sp_disj as (D1 & D2 & D3 & D4 & D5 & D6). destruct sp_in as (I1 & I2 & I3 & I4).
  assert (Ep : In (c, d) (edges_of P)) by (apply sp_edge; now right).
  destruct (sp_sep c d e f x Hp He Xc Xe) as [->| ->].
  - destruct (vertex_on P a c d S I1 Ep Xc) as [E|E]; subst; tauto.
  - destruct (vertex_on P b c d S I2 Ep Xc) as [E|E]; subst; tauto.
Qed.

Lemma sp_head : exists y, In y Y /\ In (b, y) (path P2).
Proof.
  unfold P2. clear - NY. destruct Y as [|y Y']; [congruence|]. exists y. split; now left.
Qed.

Lemma sp_only_b : forall b1, In (b, b1) (path P2) -> only_at P1 b b1.
Proof.
  intros b1 H e f x He Xe Xb.
  destruct sp_disj as (D1 & D2 & D3 & D4 & D5 & D6). destruct sp_in as (I1 & I2 & I3 & I4).
  destruct (sp_sep b b1 e f x H He Xb Xe) as [->| ->]; [|reflexivity]. exfalso.
  assert (E : In (b, b1) (edges_of P)) by (apply sp_edge; now right).
  destruct (vertex_on P a b b1 S I1 E Xb) as [F|F]; [congruence|]. subst b1.
  (* then Y is empty *)
  destruct (sp_head) as (y & Hy & Hb).
  assert (y = a); [|subst; now apply D2].
  apply (next_unique P b y a); [exact sp_nodup| |exact E]. apply sp_edge. now right.
Qed.

Lemma sp_only_a : forall a0, In (a0, a) (path P2) -> only_at P1 a a0.
Proof.
  intros a0 H e f x He Xe Xb.
  destruct sp_disj as (D1 & D2 & D3 & D4 & D5 & D6). destruct sp_in as (I1 & I2 & I3 & I4).
  destruct (sp_sep a0 a e f x H He (on_segment_rev _ _ _ Xb) Xe) as [->| ->]; [reflexivity|]. exfalso.
  assert (E : In (a0, a) (edges_of P)) by (apply sp_edge; now right).
  destruct (vertex_on P b a0 a S I2 E (on_segment_rev _ _ _ Xb)) as [F|F]; [|congruence]. subst a0.
  destruct (sp_head) as (y & Hy & Hb).
  assert (y = a); [|subst; now apply D2].
  apply (next_unique P b y a); [exact sp_nodup| |exact E]. apply sp_edge. now right.
Qed.

(** Edges at the ends of the chord. *)
Lemma sp_next_a : forall c, In (a, c) (edges_of P) -> In (a, c) (path P1).
Proof.
  intros c H. apply sp_edge in H. destruct H as [H|H]; [exact H|]. exfalso.
  destruct (sp_ends2 _ _ H) as [[E|E] _]; destruct sp_disj as (D1 & D2 & D3 & D4 & D5 & D6); tauto.
Qed.
Lemma sp_prev_a : forall c, In (c, a) (edges_of P) -> In (c, a) (path P2).
Proof.
  intros c H. apply sp_edge in H. destruct H as [H|H]; [|exact H]. exfalso.
  destruct (sp_ends1 _ _ H) as [_ [E|E]]; destruct sp_disj as (D1 & D2 & D3 & D4 & D5 & D6); tauto.
Qed.
Lemma sp_next_b : forall c, In (b, c) (edges_of P) -> In (b, c) (path P2).
Proof.
  intros c H. apply sp_edge in H. destruct H as [H|H]; [|exact H]. exfalso.
  destruct (sp_ends1 _ _ H) as [[E|E] _]; destruct sp_disj as (D1 & D2 & D3 & D4 & D5 & D6); [|tauto]. now apply D5.
Qed.
Lemma sp_prev_b : forall c, In (c, b) (edges_of P) -> In (c, b) (path P1).
Proof.
  intros c H. apply sp_edge in H. destruct H as [H|H]; [exact H|]. exfalso.
  destruct (sp_ends2 _ _ H) as [_ [E|E]]; destruct sp_disj as (D1 & D2 & D3 & D4 & D5 & D6); [|tauto]. now apply D5.
Qed.
Lemma sp_at_x : forall x x0, In x X -> In (x0, x) (edges_of P) -> In (x0, x) (path P1).
Proof.
  intros x x0 Hx H. apply sp_edge in H. destruct H as [H|H]; [exact H|]. exfalso.
  destruct (sp_ends2 _ _ H) as [_ [E|E]]; destruct sp_disj as (D1 & D2 & D3 & D4 & D5 & D6); [subst; tauto|]. now apply (D6 x).
Qed.
Lemma sp_at_x' : forall x x0, In x X -> In (x, x0) (edges_of P) -> In (x, x0) (path P1).
Proof.
  intros x x0 Hx H. apply sp_edge in H. destruct H as [H|H]; [exact H|]. exfalso.
  destruct (sp_ends2 _ _ H) as [[E|E] _]; destruct sp_disj as (D1 & D2 & D3 & D4 & D5 & D6); [subst; tauto|]. now apply (D6 x).
Qed.

(** The chain on the other side has winding number 0 if it starts outside the angle at b. *)
Lemma sp_chain0 : forall b0 b1, In (b0, b) (edges_of P) -> In (b, b1) (edges_of P) -> ccw b b1 a b0 -> pos P1 ->
  forall y, In y Y -> winding P1 y = 0%Z.
Proof.
  intros b0 b1 H0 H1 K Q y Hy.
  pose proof (sp_next_b _ H1) as H1'. pose proof (sp_prev_b _ H0) as H0'.
  destruct sp_disj as (D1 & D2 & D3 & D4 & D5 & D6).
  assert (Yb : In b1 Y).
  { destruct sp_head as (y0 & Hy0 & Hb).
    assert (y0 = b1); [|now subst]. apply (next_unique P b); [exact sp_nodup| |exact H1].
    apply sp_edge. now right. }
  rewrite (sp_chain y b1 Hy Yb).
  apply (Q b0 b a b1).
  - apply sp_edge1. now left.
  - apply sp_edge1. now right.
  - intros ->. tauto.
  - now apply sp_only_b.
  - intros L. apply (ccw_asym _ _ _ _ K). now apply ccw_rot, ccw_rot.
Qed.
End Split.
