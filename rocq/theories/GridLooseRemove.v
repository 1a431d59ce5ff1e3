(** * Removals on f32 grids from drawings in which edges run through nodes. *)
From Coq Require Import ZArith Reals List Bool Lia Lra Arith Classical.
From Flocq Require Import Core.Core IEEE754.BinarySingleNaN.
From Verif Require Import Scalar Utils Polygon Graph GraphSpec PlaneSpec F32 Laws UtilsReal UtilsF32 PolyF32 PolyNewF32
  PlanarSpec GridSpec GridUtils GridSeg GraphAdd GraphAddProps GraphRemove GraphHistory GraphPlanar GraphReport GraphSim GridPrim GridOn
  GridGraph ThroughSpec Through GridThroughSpec GridThrough LooseSpec Loose GridLooseSpec GridLoose LooseRemoveSpec LooseRemove.
Import ListNotations.
Local Open Scope R_scope.

Section Fam.
Context (lm : Libm) (e : Z) (He : (-22 <= e <= 51)%Z) {T U : Type} (dT : T).
Local Notation G := (grid_le 6 e).
Context (S : point -> point -> Prop).
Hypothesis HonS : forall a b p i, G a -> G b -> G p -> S (toR a) (toR b) ->
  (is_on_line_segment (O := FO lm) a b p i = true <-> inner (toR a) (toR b) (toR p)) /\
  (is_on_line_segment (O := XO) (up a) (up b) (up p) i = true <-> inner (toR a) (toR b) (toR p)).
Hypothesis Hlat : forall a b c d p, G a -> G b -> G c -> G d -> S (toR a) (toR b) -> S (toR c) (toR d) ->
  cross (toR a) (toR b) (toR c) (toR d) <> 0 -> on_segment (toR a) (toR b) p -> on_segment (toR c) (toR d) p ->
  exists m, p = P2 (IZR (fst m) * bpow radix2 e) (IZR (snd m) * bpow radix2 e).
Hypothesis HsplitS : forall a b p, S a b -> on_segment a b p -> S a p /\ S b p.
Local Notation graph := (PlanarGraph (FO lm) T U).
Let S' (a b : Vec2 (FO lm)) : Prop := S (toR a) (toR b).
Local Notation ins := (@inside (FO lm) T U G S').

Lemma fam_slack_op : forall (g : graph) o, ins g -> loosely_drawn (places g) (edges g) -> draws_op G S g o -> slacks_op g o ->
  slack_op (exact_graph g) (exact_op o).
Proof.
  intros g o I W D C. destruct o as [p dd|s d u|i|i]; cbn [slacks_op] in C.
  - exact (fam_loose_op lm e He S HonS Hlat g (OAddNode p dd) I W D C).
  - exact (fam_loose_op lm e He S HonS Hlat g (OAddEdge s d u) I W D C).
  - intros Hi. exists (places g). split; [apply exact_drawn|]. apply C. unfold exact_graph in Hi; cbn [nodes] in Hi. rewrite map_length in Hi. exact Hi.
  - exists (places g). split; [apply exact_drawn|]. exact C.
Qed.

Lemma fam_slack_step : forall (g g' : graph) o, ins g -> loosely_drawn (places g) (edges g) -> draws_op G S g o -> slacks_op g o ->
  step dT g o = Ok g' -> ins g' /\ loosely_drawn (places g') (edges g').
Proof.
  intros g g' o I W D C H. destruct (fam_step lm e He dT S HonS Hlat HsplitS g o I D) as [E1 E2]. split; [exact (E2 g' H)|].
  rewrite H in E1. cbn [rmap] in E1.
  assert (R : run dT (exact_graph g) [exact_op o] = Ok (exact_graph g')) by (cbn [run]; rewrite E1; reflexivity).
  assert (L : slack dT (exact_graph g) [exact_op o]) by (split; [exact (fam_slack_op g o I W D C)|intros; exact Logic.I]).
  destruct (slack_history dT _ _ _ _ (exact_drawn lm g) W L R) as (ps & D' & W').
  rewrite (drawn_fun _ _ _ D' (exact_drawn lm g')) in W'. exact W'.
Qed.
Lemma fam_slacks : forall os (g g' : graph), ins g -> loosely_drawn (places g) (edges g) -> draws dT G S g os -> slacks dT g os ->
  run dT g os = Ok g' -> ins g' /\ loosely_drawn (places g') (edges g').
Proof.
  induction os as [|o os IH]; intros g g' I W D C H.
  - inv H. auto.
  - cbn [run] in H. apply bind_ok in H. destruct H as (g1 & H1 & H). destruct D as [D1 D2]. destruct C as [C1 C2].
    destruct (fam_slack_step g g1 o I W D1 C1 H1) as (I1 & W1). exact (IH g1 g' I1 W1 (D2 g1 H1) (C2 g1 H1) H).
Qed.

Lemma fam_slack : forall os (g : graph), ins g -> loosely_drawn (places g) (edges g) -> draws dT G S g os -> slacks dT g os ->
  slack dT (exact_graph g) (map exact_op os).
Proof.
  induction os as [|o os IH]; intros g I W D C; [exact Logic.I|]. destruct D as [D1 D2]. destruct C as [C1 C2]. split; [apply fam_slack_op; assumption|].
  intros g1 H1. destruct (fam_step lm e He dT S HonS Hlat HsplitS g o I D1) as [E1 E2]. rewrite E1 in H1.
  destruct (step dT g o) as [g'|] eqn:E; [|discriminate]. cbn [rmap] in H1. inv H1.
  destruct (fam_slack_step g g' o I W D1 C1 E) as (I1 & W1). apply IH; auto.
Qed.

Lemma fam_loose_remove_node : forall (g g' : graph) id r, loosely_drawn (places g) (edges g) -> (id < node_count g)%nat ->
  remove_node g id = Ok (g', r) ->
  let P := places g in let P' := places g' in
  (forall x, In x P' <-> exists k, (k < length P)%nat /\ ~ to_delete g id k /\ x = pt P k) /\
  (forall x, covers P' (edges g') x <-> exists f, In f (edges g) /\ ~ touches id f /\ edge_on P f x) /\
  (forall x, (exists a, crossed P' (edges g') a /\ x = pt P' a) <->
     exists k f, (k < length P)%nat /\ ~ to_delete g id k /\ In f (edges g) /\ ~ touches id f /\ crosses_node P k f /\ x = pt P k) /\
  (loosely_drawn P' (edges g') <-> drops_node g P id).
Proof.
  intros g g' id r W Hi H P P'. pose proof (fam_remove_node lm g id) as E. rewrite H in E. cbn [rmap fst snd] in E.
  assert (Hi' : (id < length (places g))%nat) by (rewrite places_length; exact Hi).
  destruct (remove_node_loose _ _ _ _ _ (exact_drawn lm g) W Hi' E) as (ps' & D' & Q1 & Q2 & Q3 & Q4).
  pose proof (drawn_fun _ _ _ D' (exact_drawn lm g')) as EP. rewrite EP in *. split; [exact Q1|]. split; [exact Q2|]. split; [exact Q3|exact Q4].
Qed.

Lemma fam_loose_remove_edge : forall (g g' : graph) id f0 r, loosely_drawn (places g) (edges g) -> nth_error (edges g) id = Some f0 ->
  remove_edge g id = Ok (g', r) ->
  let P := places g in let P' := places g' in
  (forall x, In x P' <-> exists k, (k < length P)%nat /\ ~ (touches k f0 /\ degree g k = 1%nat) /\ x = pt P k) /\
  (forall x, covers P' (edges g') x <-> exists i f, i <> id /\ nth_error (edges g) i = Some f /\ edge_on P f x) /\
  (forall x, (exists a, crossed P' (edges g') a /\ x = pt P' a) <->
     exists k i f, (k < length P)%nat /\ ~ (touches k f0 /\ degree g k = 1%nat) /\ i <> id /\ nth_error (edges g) i = Some f /\
       crosses_node P k f /\ x = pt P k) /\
  (loosely_drawn P' (edges g') <-> drops_edge g P id).
Proof.
  intros g g' id f0 r W Hf H P P'. pose proof (fam_remove_edge lm g id) as E. rewrite H in E. cbn [rmap fst snd] in E.
  destruct (remove_edge_loose _ _ _ _ _ _ (exact_drawn lm g) W Hf E) as (ps' & D' & Q1 & Q2 & Q3 & Q4).
  pose proof (drawn_fun _ _ _ D' (exact_drawn lm g')) as EP. rewrite EP in *. split; [exact Q1|]. split; [exact Q2|]. split; [exact Q3|exact Q4].
Qed.
End Fam.
