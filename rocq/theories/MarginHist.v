(** * Histories in f32 on drawings with room to spare. *)
From Coq Require Import ZArith Reals Lia Lra List Bool Arith.
From Flocq Require Import Core.Core IEEE754.BinarySingleNaN.
From Verif Require Import Scalar Utils F32 Laws Graph ListSpec GraphSpec PlaneSpec PlanarSpec GridSpec Format RoundSpec GeoSpec GeoRound Closest
  GraphAdd GraphAddProps GeoOn UtilsReal GeoSeg GeoGraph GraphPlanar GraphSim GridGraph MarginSpec MarginReal MarginSeg MarginGraph MarginAdd.
Import ListNotations.
Local Open Scope R_scope.

Section MarginHist.
Context (lm : Libm) {T U : Type} (dT : T).
Local Notation F := (FO lm).
Local Notation graph := (PlanarGraph F T U).
Local Notation edge := (Edge U).
Local Notation rp := real_point.
Variables (M K dl : R).
Hypothesis Fn : fine M K dl.
Local Notation h := (slip M K).

(** A planar drawing without loops or parallel edges, its nodes more than epsilon apart. *)
Definition proper (g : graph) : Prop :=
  planar_f32 g /\ no_loops g /\ no_parallel g /\
  forall i j, (i < length (nodes g))%nat -> (j < length (nodes g))%nat -> i <> j -> eps32 < dist (pt (places g) i) (pt (places g) j).

Lemma spaced_proper : forall (g : graph) e, eps32 < e -> spaced e (places g) (edges g) -> planar_f32 g -> proper g.
Proof.
  intros g e He (V & A & C) P. split; [exact P|]. split; [intros f Hf; now apply V|]. split.
  - apply planar_places in P. destruct P as [_ P]. intros i j ei ej N Hi Hj J. destruct (V ei (nth_error_In _ _ Hi)) as (Ne & L1 & L2).
    pose proof (A _ _ L1 L2 Ne) as B. pose proof eps32_pos as E0.
    assert (O1 : on_segment (pt (places g) (src ei)) (pt (places g) (dst ei)) (along (pt (places g) (src ei)) (pt (places g) (dst ei)) (/ 2))) by (exists (/ 2); split; [lra|reflexivity]).
    assert (O2 : on_segment (pt (places g) (src ej)) (pt (places g) (dst ej)) (along (pt (places g) (src ei)) (pt (places g) (dst ei)) (/ 2))).
    { destruct J as [[-> ->]|[-> ->]]; [exact O1|now apply on_sym]. }
    destruct (P i j ei ej _ N Hi Hj O1 O2) as (k & Tk & _ & Em).
    assert (D1 : dist (pt (places g) (src ei)) (along (pt (places g) (src ei)) (pt (places g) (dst ei)) (/ 2)) = / 2 * dist (pt (places g) (src ei)) (pt (places g) (dst ei))) by (apply dist_along; lra).
    pose proof (on_segment_dist _ _ _ O1) as Sum.
    destruct Tk as [<-|<-]; rewrite Em in *.
    + rewrite dist_self0 in D1. lra.
    + rewrite dist_self0 in Sum. lra.
  - intros i j Hi Hj N. rewrite <- place_len in Hi, Hj. pose proof (A i j Hi Hj N). lra.
Qed.

Lemma margin_drawn : forall g : graph, (forall n, In n (nodes g) -> pbound M (position n)) -> spaced dl (places g) (edges g) -> planar_f32 g ->
  well_drawn (places g) (edges g).
Proof.
  intros g PB S P. pose proof S as (V & A & C). pose proof (fine_eps M K dl Fn) as E. pose proof (at_rel lm M K dl Fn g PB) as (_ & B & _).
  split; [exact V|]. split; [intros i j Hi Hj N; pose proof (A i j Hi Hj N); lra|]. split; [exact (spaced_clear M K dl Fn (places g) (edges g) B S)|]. now apply planar_places.
Qed.

Lemma drawn_proper : forall g : graph, well_drawn (places g) (edges g) -> proper g.
Proof.
  intros g W. split; [|split; [|split]].
  - apply planar_places, W.
  - exact (well_drawn_no_loops (exact_graph g) (places g) W).
  - exact (planar_no_parallel (exact_graph g) (places g) W).
  - intros i j. rewrite <- place_len. apply W.
Qed.

Lemma margin_step : forall (g g' : graph) o, (forall n, In n (nodes g) -> pbound M (position n)) -> spaced dl (places g) (edges g) ->
  room_op M K dl g o -> planar_f32 g -> step dT g o = Ok g' -> proper g'.
Proof.
  intros g g' o PB S Ro P H. destruct (margins M K dl Fn) as (_ & _ & H1 & _). pose proof (fine_eps M K dl Fn) as E.
  assert (H2 : eps32 < dl - 2 * h) by (rewrite eps_u in *; pose proof u_pos; assert (0 < u32 * u32) by nra; lra).
  assert (G0 : proper g) by now apply (spaced_proper g dl).
  destruct o as [p dat|s d u|i|i]; cbn [step] in H; apply bind_ok in H; destruct H as ([g1 r] & H & Q); injection Q as ->.
  - destruct Ro as [Fp Ro]. destruct r as [i ces].
    destruct (add_node_margin lm M K dl Fn g PB S P p dat g' i ces Fp Ro H) as [(-> & _)|(_ & _ & P' & S' & _)]; [exact G0|]. now apply (spaced_proper g' (dl - 2 * h)).
  - destruct Ro as (Nsd & Ro). pose proof H as Q. apply add_edge_ok in Q.
    destruct Q as [(_ & -> & _)|[(_ & _ & -> & _)|(NA & Ls & Ld & _)]]; [exact G0|exact G0|].
    destruct Ro as [A|[B|CW]]; [contradiction|exfalso; apply B; split; assumption|].
    rewrite <- place_len in Ls, Ld.
    destruct (add_edge_margin lm dT M K dl Fn g s d PB S P Nsd NA Ls Ld CW u g' r H) as (new & xs & _ & _ & _ & _ & P' & S' & _).
    now apply (spaced_proper g' (dl - 2 * h)).
  - pose proof (margin_drawn g PB S P) as W. pose proof (up_remove_node (O1 := FO lm) (O2 := XO) (fun p => xp (real_point p)) g i) as X. rewrite H in X.
    destruct (remove_node_planar _ _ _ _ _ (exact_drawn lm g) W X) as (ps' & D' & W' & _).
    cbn [rmap fst snd] in D', W'. rewrite (drawn_fun _ _ _ D' (exact_drawn lm g')) in W'. now apply drawn_proper.
  - pose proof (margin_drawn g PB S P) as W. pose proof (up_remove_edge (O1 := FO lm) (O2 := XO) (fun p => xp (real_point p)) g i) as X. rewrite H in X.
    destruct (remove_edge_planar _ _ _ _ _ (exact_drawn lm g) W X) as (ps' & D' & W' & _).
    cbn [rmap fst snd] in D', W'. rewrite (drawn_fun _ _ _ D' (exact_drawn lm g')) in W'. now apply drawn_proper.
Qed.

Theorem margin_run : forall os (g g' : graph), proper g -> roomy dT M K dl g os -> run dT g os = Ok g' -> proper g'.
Proof.
  induction os as [|o os IH]; intros g g' P R H.
  - inversion H; now subst g'.
  - cbn [run] in H. apply bind_ok in H. destruct H as (g1 & H1 & H). destruct R as (PB & S & Ro & R).
    apply (IH g1 g'); [|now apply R|exact H]. exact (margin_step g g1 o PB S Ro (proj1 P) H1).
Qed.
Lemma empty_proper : proper graph_new.
Proof.
  split; [|split; [|split]].
  - split; [intros k e Hk; inversion Hk|]. intros [|i] j ei ej x _ Hi; discriminate.
  - intros e [].
  - intros [|i] j ei ej _ Hi; discriminate.
  - intros i j Hi. inversion Hi.
Qed.
End MarginHist.
