(** * Additions on f32 grids whose edges may pass through any nodes. *)
From Coq Require Import ZArith Reals List Bool Lia Lra Arith Classical.
From Flocq Require Import Core.Core IEEE754.BinarySingleNaN.
From Verif Require Import Scalar Utils Polygon Graph GraphSpec PlaneSpec F32 Laws UtilsReal UtilsF32 PolyF32 PolyNewF32
  PlanarSpec GridSpec GridUtils GridSeg GraphAdd GraphAddProps GraphRemove GraphHistory GraphPlanar GraphReport GraphSim GridPrim GridOn
  GridGraph ThroughSpec Through GridThroughSpec GridThrough LooseSpec Loose GridLooseSpec.
Import ListNotations.
Local Open Scope R_scope.

Section Fam.
Context (lm : Libm) (e : Z) (He : (-22 <= e <= 51)%Z) {T U : Type} (dT : T).
Local Notation G := (grid_le 6 e).
Context (S : point -> point -> Prop).
Hypothesis HonS : forall a b p i, G a -> G b -> G p -> S (toR a) (toR b) ->
  (is_on_line_segment (O := FO lm) a b p i = true <-> inner (toR a) (toR b) (toR p)) /\
  (is_on_line_segment (O := XO) (up a) (up b) (up p) i = true <-> inner (toR a) (toR b) (toR p)).
Hypothesis Hlat : forall a b c d p, G a -> G b -> G c -> G d -> S (toR a) (toR b) -> S (toR c) (toR d) ->
  cross (toR a) (toR b) (toR c) (toR d) <> 0 -> on_segment (toR a) (toR b) p -> on_segment (toR c) (toR d) p ->
  exists m, p = P2 (IZR (fst m) * bpow radix2 e) (IZR (snd m) * bpow radix2 e).
Hypothesis HsplitS : forall a b p, S a b -> on_segment a b p -> S a p /\ S b p.
Local Notation graph := (PlanarGraph (FO lm) T U).
Let S' (a b : Vec2 (FO lm)) : Prop := S (toR a) (toR b).
Local Notation ins := (@inside (FO lm) T U G S').

Lemma along_unambiguous : forall (g : graph) s d u, ins g -> loosely_drawn (places g) (edges g) ->
  (s < node_count g)%nat -> (d < node_count g)%nat -> draws_op G S g (OAddEdge s d u) ->
  along_no_edge g s d -> unambiguous (places g) (edges g) s d.
Proof.
  intros g s d u I W Hs Hd [Nsd D] C. pose proof W as (_ & A & _ & M).
  assert (Ls : (s < length (places g))%nat) by (rewrite places_length; exact Hs).
  assert (Ld : (d < length (places g))%nat) by (rewrite places_length; exact Hd).
  apply (straight_unambiguous lm e He S HonS Hlat g s d I A Ls Ld Nsd).
  - destruct (place_at lm g s Ls) as (a & Ha & Ea). destruct (place_at lm g d Ld) as (b & Hb & Eb). rewrite Ea, Eb. exact (D a b Ha Hb).
  - split; [exact C|]. intros i f x Hf O1 O2.
    destruct (classic (exists k, (k < length (places g))%nat /\ x = pt (places g) k)) as [K|NK]; [now left|right].
    intros j h Nj Hh Oh. apply NK. exact (M j i h f x Nj Hh Hf Oh O1).
Qed.

Lemma fam_loose_op : forall (g : graph) o, ins g -> loosely_drawn (places g) (edges g) -> draws_op G S g o -> lays_op g o ->
  loose_op (exact_graph g) (exact_op o).
Proof.
  intros g o I W D C. destruct o as [p dd|s d u|i|i]; cbn [exact_op loose_op]; try contradiction.
  - exists (places g), (real_point p). split; [apply exact_drawn|]. split; [reflexivity|]. exact (good_grid lm e He S HonS g p I D).
  - split; [exact (proj1 D)|].
    destruct C as [A|[B|C]]; [left; exact A|right; left|].
    { intros Q. apply B. unfold exact_graph in Q; cbn [nodes] in Q. rewrite map_length in Q. exact Q. }
    destruct (lt_dec s (length (nodes g))) as [Ls|Ls]; [|right; left; unfold exact_graph; cbn [nodes]; rewrite map_length; tauto].
    destruct (lt_dec d (length (nodes g))) as [Ld|Ld]; [|right; left; unfold exact_graph; cbn [nodes]; rewrite map_length; tauto].
    right. right. exists (places g). split; [apply exact_drawn|]. exact (along_unambiguous g s d u I W Ls Ld D C).
Qed.

Lemma fam_loose_step : forall (g g' : graph) o, ins g -> loosely_drawn (places g) (edges g) -> draws_op G S g o -> lays_op g o ->
  step dT g o = Ok g' -> ins g' /\ loosely_drawn (places g') (edges g') /\
    forall k, knotted (places g) (edges g) k -> knotted (places g') (edges g') k.
Proof.
  intros g g' o I W D C H. destruct (fam_step lm e He dT S HonS Hlat HsplitS g o I D) as [E1 E2]. split; [exact (E2 g' H)|].
  rewrite H in E1. cbn [rmap] in E1.
  assert (R : run dT (exact_graph g) [exact_op o] = Ok (exact_graph g')) by (cbn [run]; rewrite E1; reflexivity).
  assert (L : loose dT (exact_graph g) [exact_op o]) by (split; [exact (fam_loose_op g o I W D C)|intros; exact Logic.I]).
  destruct (loose_history dT _ _ _ _ (exact_drawn lm g) W L R) as (qs & D' & W' & K').
  rewrite (drawn_fun _ _ _ D' (exact_drawn lm g')) in W', K'. split; [exact W'|exact K'].
Qed.
Lemma fam_lays : forall os (g g' : graph), ins g -> loosely_drawn (places g) (edges g) -> draws dT G S g os -> lays dT g os ->
  run dT g os = Ok g' -> ins g' /\ loosely_drawn (places g') (edges g') /\
    forall k, knotted (places g) (edges g) k -> knotted (places g') (edges g') k.
Proof.
  induction os as [|o os IH]; intros g g' I W D C H.
  - inv H. auto.
  - cbn [run] in H. apply bind_ok in H. destruct H as (g1 & H1 & H). destruct D as [D1 D2]. destruct C as [C1 C2].
    destruct (fam_loose_step g g1 o I W D1 C1 H1) as (I1 & W1 & K1). destruct (IH g1 g' I1 W1 (D2 g1 H1) (C2 g1 H1) H) as (I2 & W2 & K2). auto.
Qed.

Lemma fam_looses : forall os (g : graph), ins g -> loosely_drawn (places g) (edges g) -> draws dT G S g os -> lays dT g os ->
  loose dT (exact_graph g) (map exact_op os).
Proof.
  induction os as [|o os IH]; intros g I W D C; [exact Logic.I|]. destruct D as [D1 D2]. destruct C as [C1 C2]. split; [apply fam_loose_op; assumption|].
  intros g1 H1. destruct (fam_step lm e He dT S HonS Hlat HsplitS g o I D1) as [E1 E2]. rewrite E1 in H1.
  destruct (step dT g o) as [g'|] eqn:E; [|discriminate]. cbn [rmap] in H1. inv H1.
  destruct (fam_loose_step g g' o I W D1 C1 E) as (I1 & W1 & _). apply IH; auto.
Qed.

Lemma fam_loose_edge : forall (g g' : graph) s d u r, ins g -> loosely_drawn (places g) (edges g) ->
  draws_op G S g (OAddEdge s d u) -> along_no_edge g s d -> ~ adjacent g s d ->
  (s < node_count g)%nat -> (d < node_count g)%nat -> add_edge dT g s d u = Ok (g', r) ->
  let P := places g in let P' := places g' in
  (forall x, covers P' (edges g') x <-> covers P (edges g) x \/ on_segment (pt P s) (pt P d) x) /\
  (forall x, In x P' <-> In x P \/ (on_segment (pt P s) (pt P d) x /\ covers P (edges g) x)) /\
  (forall k, crossed P' (edges g') k <->
     (crossed P (edges g) k \/ passes P s d k) /\ ~ meets_once P (edges g) s d k).
Proof.
  intros g g' s d u r I W D C NA Hs Hd H P P'.
  destruct (fam_add_edge lm e He dT S HonS Hlat HsplitS g s d u I D) as [E I']. rewrite H in E. cbn [rmap fst snd] in E.
  assert (Ls : (s < length (places g))%nat) by (rewrite places_length; exact Hs).
  assert (Ld : (d < length (places g))%nat) by (rewrite places_length; exact Hd).
  pose proof (along_unambiguous g s d u I W Hs Hd D C) as UA.
  destruct (add_edge_loose dT _ _ _ _ _ _ _ (exact_drawn lm g) W UA (proj1 D) NA Ls Ld E) as (qs & D' & _ & Pc & Pn & Pk & _).
  pose proof (drawn_fun _ _ _ D' (exact_drawn lm g')) as EP. rewrite EP in Pc, Pk.
  split; [exact Pc|]. split; [|exact Pk].
  intros x. unfold P', P. rewrite <- EP, in_app_iff, Pn. split; [tauto|].
  intros [?|[? ?]]; [tauto|]. destruct (classic (In x (places g))); tauto.
Qed.
Lemma fam_loose_node : forall (g g' : graph) p v r, ins g -> loosely_drawn (places g) (edges g) ->
  draws_op G S g (OAddNode p v) -> add_node g p v = Ok (g', r) ->
  let P := places g in let P' := places g' in
  (forall x, covers P' (edges g') x <-> covers P (edges g) x) /\
  (forall x, In x P' <-> In x P \/ x = real_point p) /\
  (forall k, crossed P' (edges g') k <-> crossed P (edges g) k).
Proof.
  intros g g' p v r I W D H P P'.
  destruct (fam_step lm e He dT S HonS Hlat HsplitS g (OAddNode p v) I D) as [E I'].
  assert (Hs : step dT g (OAddNode p v) = Ok g') by (cbn [step]; rewrite H; reflexivity). rewrite Hs in E.
  assert (Q : (let! (g', _) := add_node (exact_graph g) (xp (real_point p)) v in Ok g') = Ok (exact_graph g')) by exact E.
  apply bind_ok in Q. destruct Q as ([g2 r2] & E2 & Q). inversion Q. clear Q.
  subst g2. pose proof (good_grid lm e He S HonS g p I D) as GP.
  destruct (add_node_loose _ _ _ _ _ _ (exact_drawn lm g) W GP E2) as (qs & D' & _ & Pc & Pn & Pk & _).
  pose proof (drawn_fun _ _ _ D' (exact_drawn lm g')) as EP. rewrite EP in Pc, Pk.
  split; [exact Pc|]. split; [|exact Pk].
  intros x. unfold P', P. rewrite <- EP, in_app_iff, Pn. split; [tauto|]. intros [?|Ex]; [tauto|]. subst x.
  destruct (classic (In (real_point p) (places g))) as [?|N]; [tauto|]. right. split; [reflexivity|].
  intros k Lk. destruct (place_grid lm e He S g k I Lk) as (q & Gq & Eq & _). rewrite Eq.
  left. apply (grid_far e He); auto. intros Q. apply N. change (toR p) with (real_point p) in Q. rewrite Q, <- Eq. now apply nth_In.
Qed.
End Fam.
