(** * The calls as operations on sets of points, in f32 with room to spare. *)
From Coq Require Import Reals Lia Lra List Bool Arith Permutation Classical.
From Verif Require Import Scalar Utils Laws Graph ListSpec GraphSpec PlaneSpec PlanarSpec GridSpec GeoSpec GeoRound SimSpec
  GraphAdd GraphAddProps UtilsReal GraphPlanar GridGraph MarginSpec MarginAdd Drift MarginDrift SimOrder Draw DrawSpec
  ThroughSpec Through GridThroughSpec AnyOrderSpec AnyOrder MeaningSpec Meaning.
Import ListNotations.
Local Open Scope R_scope.

Section Exact.
Context {T U : Type} (dT : T).
Local Notation graph := (PlanarGraph XO T U).

(** Tidy calls are neat. *)
Lemma tidy_neat_op : forall (g : graph) ps o, drawn g ps -> well_drawn ps (edges g) -> tidy_op g o -> neat_op g o.
Proof.
  intros g ps o D W H. destruct o as [p dat|s d u|i|i]; cbn [tidy_op neat_op] in *; try exact H.
  destruct H as (Nsd & [H|[H|(ps' & D' & GP)]]); split; try exact Nsd; [now left|right; now left|].
  rewrite (drawn_fun _ _ _ D' D) in GP. clear ps' D'.
  destruct (classic (adjacent g s d)) as [A|NA]; [now left|]. right.
  destruct (classic (s < length (nodes g) /\ d < length (nodes g))%nat) as [[Ls Ld]|N]; [|now left]. right.
  rewrite (drawn_length _ _ D) in Ls, Ld. exists ps. split; [exact D|].
  destruct (general_unambiguous _ ps (edges g) s d W Nsd Ls Ld) as [A B]; [intros e He J; apply NA; exists e; auto|exact GP|].
  split; [exact A|]. intros k Hk. destruct (B k Hk).
Qed.
Lemma tidy_neat : forall os (g : graph) ps, drawn g ps -> well_drawn ps (edges g) -> tidy dT g os -> neat dT g os.
Proof.
  induction os as [|o os IH]; intros g ps D W H; [exact I|]. destruct H as [H1 H2]. split; [exact (tidy_neat_op g ps o D W H1)|].
  intros g' Hs. destruct (step_planar dT _ _ _ _ D W H1 Hs) as (ps' & D' & W'). exact (IH g' ps' D' W' (H2 g' Hs)).
Qed.

(** An exact run at real points says words. *)
Lemma means_some : forall lm (g : graph) ps (o : @op (FO lm) T U), exists w, means value_x g ps (exact_op o) w.
Proof.
  intros lm g ps o. destruct o as [p dat|s d u|i|i]; cbn [exact_op].
  - exists (Put (real_point p)). now constructor.
  - destruct (classic (s < length ps /\ d < length ps)%nat) as [[Ls Ld]|N]; [eexists; now apply means_join|eexists; now apply means_join_missing].
  - destruct (classic (i < length ps)%nat); [eexists; now apply means_drop|eexists; now apply means_drop_missing].
  - destruct (nth_error (edges g) i) as [e|] eqn:E; [eexists; now apply (means_erase _ _ _ _ e)|eexists; now apply means_erase_missing].
Qed.
Lemma tells_some : forall lm (os : list (@op (FO lm) T U)) (g g' : graph) l ps, drawn g ps -> well_drawn ps (edges g) -> tidy dT g (map exact_op os) ->
  calls dT g (map exact_op os) = Ok (g', l) -> exists ws, tells dT drawn value_x g (map exact_op os) ws g'.
Proof.
  intros lm os. induction os as [|o os IH]; intros g g' l ps D W Td H; cbn [map calls] in H.
  - injection H as <- _. exists []. constructor.
  - apply bind_ok in H. destruct H as ([g1 a] & H1 & H). apply bind_ok in H. destruct H as ([g2 l2] & H2 & H). injection H as -> _.
    pose proof (call_step dT g (exact_op o) g1 a H1) as Hs. destruct Td as [Td Tn].
    destruct (step_planar dT _ _ _ _ D W Td Hs) as (ps1 & D1 & W1). destruct (means_some lm g ps o) as (w & Mw).
    destruct (IH g1 g' l2 ps1 D1 W1 (Tn g1 Hs) H2) as (ws & Te). exists (w :: ws). cbn [map]. econstructor; [exact D|exact Mw|exact Hs|exact Te].
Qed.
Lemma tells_calls : forall os (g g' : graph) ws, tells dT drawn value_x g os ws g' -> exists l, calls dT g os = Ok (g', l).
Proof.
  intros os g g' ws Te. induction Te as [g|g ps o w g1 os ws g2 D M H Te (l & E)]; [now exists []|].
  assert (Q : exists a, call dT g o = Ok (g1, a)).
  { clear - H. destruct o; cbn [step call] in *; apply bind_ok in H; destruct H as ([g' r] & H & E); injection E as <-; rewrite H; cbn [bind]; try (destruct r); eexists; reflexivity. }
  destruct Q as (a & Q). exists (a :: l). cbn [calls]. rewrite Q. cbn [bind]. rewrite E. reflexivity.
Qed.
Lemma asks_calls : forall os (g g' : graph) l, asks dT drawn g os l g' -> exists a, calls dT g os = Ok (g', a).
Proof.
  intros os g g' l A. induction A as [g|g p dat g1 i ces ps0 os l g2 H P A (a & E)|g s d u g1 r ps0 os l g2 NA Ls Ld H P A (a & E)|g s d u g1 r os l g2 N H A (a & E)].
  - now exists [].
  - eexists. cbn [calls call]. rewrite H. cbn [bind]. rewrite E. reflexivity.
  - eexists. cbn [calls call]. rewrite H. cbn [bind]. rewrite E. reflexivity.
  - eexists. cbn [calls call]. rewrite H. cbn [bind]. rewrite E. reflexivity.
Qed.
End Exact.

Section Margin.
Context {lm : Libm} {T U : Type} (dT : T).
Variables (M K dl H : R) (G : nat).
Hypothesis St : steady M K dl H G.
Local Notation graph := (PlanarGraph (FO lm) T U).
Local Notation xgraph := (PlanarGraph XO T U).
Local Notation fin g := (forall n, In n (nodes g) -> pfin (position n)).

Lemma first_well : forall depth o os (g : graph), planar_f32 g -> calm (lm := lm) dT M K dl H G depth (exact_graph g) (o :: os) -> well_drawn (places g) (edges g).
Proof.
  intros depth o os g Pl C. cbn [calm] in C. destruct C as ((X & D & Bx & Sp & _) & _). rewrite (drawn_fun _ _ _ D (exact_drawn lm g)) in *.
  exact (calm_well M K dl H G St (places g) (edges g) Bx Sp (proj1 (planar_places lm g) Pl)).
Qed.
Lemma calm_neat : forall depth os (g : graph), planar_f32 g -> calm (lm := lm) dT M K dl H G depth (exact_graph g) os -> well_drawn (places g) (edges g) ->
  tidy dT (exact_graph g) (map exact_op os) /\ neat dT (exact_graph g) (map exact_op os).
Proof.
  intros depth os g Pl C W. pose proof (calm_tidy dT M K dl H G St depth os (exact_graph g) (places g) (exact_drawn lm g) (proj1 (planar_places lm g) Pl) C) as Td.
  split; [exact Td|]. exact (tidy_neat dT _ _ (places g) (exact_drawn lm g) W Td).
Qed.

(** What is drawn. *)
Theorem margin_shows : forall depth (g g1 : graph) os l, fin g -> planar_f32 g -> calm (lm := lm) dT M K dl H G depth (exact_graph g) os -> calls dT g os = Ok (g1, l) ->
  exists ws gx X, tells dT drawn value_x (exact_graph g) (map exact_op os) ws gx /\ drawn gx X /\
    shows X (edges gx) (after_all ws (scene_of (places g) (edges g))) /\ edges g1 = edges gx /\ List.Forall2 (drifted M K G depth) (nodes g1) (nodes gx).
Proof.
  intros depth g g1 os l Fin Pl C R. pose proof (drift_histories lm dT M K dl H G depth St os g Fin Pl C) as A. rewrite R in A.
  destruct (calls dT (exact_graph g) (map exact_op os)) as [[gx l']|] eqn:Rx; cbn [agree] in A; [|destruct A]. destruct A as (_ & E & Fa).
  destruct os as [|o os].
  - cbn [map calls] in Rx. injection Rx as <- _. exists [], (exact_graph g), (places g). split; [constructor|]. split; [apply exact_drawn|]. split; [apply scene_shows|]. split; assumption.
  - pose proof (first_well depth o os g Pl C) as W. destruct (calm_neat depth (o :: os) g Pl C W) as [Td Nt].
    destruct (tells_some dT lm (o :: os) (exact_graph g) gx l' (places g) (exact_drawn lm g) W Td Rx) as (ws & Te).
    destruct (tells_shows dT _ gx (places g) (scene_of (places g) (edges g)) _ ws Te (exact_drawn lm g) W (scene_shows _ _ _) Nt) as (X & D & _ & Sh).
    exists ws, gx, X. repeat (split; [assumption|]). assumption.
Qed.

(** Slots do not matter. *)
Theorem margin_slots : forall depth1 depth2 (g1 g2 : graph) os1 os2 ws1 ws2 x1 x2, fin g1 -> planar_f32 g1 -> fin g2 -> planar_f32 g2 ->
  calm (lm := lm) dT M K dl H G depth1 (exact_graph g1) os1 -> calm (lm := lm) dT M K dl H G depth2 (exact_graph g2) os2 ->
  same_drawing (places g1) (edges g1) (places g2) (edges g2) ->
  tells dT drawn value_x (exact_graph g1) (map exact_op os1) ws1 x1 -> tells dT drawn value_x (exact_graph g2) (map exact_op os2) ws2 x2 -> List.Forall2 same_word ws1 ws2 ->
  exists h1 a1 h2 a2, calls dT g1 os1 = Ok (h1, a1) /\ calls dT g2 os2 = Ok (h2, a2) /\ alike (2 * drift M K G) h1 h2.
Proof.
  intros depth1 depth2 g1 g2 os1 os2 ws1 ws2 x1 x2 Fin1 Pl1 Fin2 Pl2 C1 C2 SD T1 T2 F.
  destruct (tells_calls dT _ _ _ _ T1) as (b1 & R1). destruct (tells_calls dT _ _ _ _ T2) as (b2 & R2).
  pose proof (drift_histories lm dT M K dl H G depth1 St os1 g1 Fin1 Pl1 C1) as A1. pose proof (drift_histories lm dT M K dl H G depth2 St os2 g2 Fin2 Pl2 C2) as A2.
  rewrite R1 in A1. rewrite R2 in A2. destruct (calls dT g1 os1) as [[h1 a1]|]; [|destruct A1]. destruct (calls dT g2 os2) as [[h2 a2]|]; [|destruct A2].
  cbn [agree] in A1, A2. exists h1, a1, h2, a2. split; [reflexivity|]. split; [reflexivity|].
  destruct os1 as [|o1 os1].
  - cbn [map] in T1. inversion T1; subst. inversion F; subst. destruct os2 as [|o2 os2]; cbn [map] in T2; inversion T2; subst.
    exact (same_alike M K dl H G St depth1 depth2 h1 h2 _ _ (places g1) (places g2) (proj2 A1) (proj2 A2) (exact_drawn lm g1) (exact_drawn lm g2) SD).
  - destruct os2 as [|o2 os2].
    { cbn [map] in T1, T2. inversion T2; subst. inversion F; subst. inversion T1. }
    pose proof (first_well depth1 o1 os1 g1 Pl1 C1) as W1. pose proof (first_well depth2 o2 os2 g2 Pl2 C2) as W2.
    destruct (calm_neat depth1 (o1 :: os1) g1 Pl1 C1 W1) as [_ N1].
    pose proof (neats_plain dT _ _ (places g1) (scene_of (places g1) (edges g1)) _ ws1 T1 (exact_drawn lm g1) W1 (scene_shows _ _ _) N1) as P.
    destruct (words_same dT _ _ _ _ (places g1) (places g2) (scene_of (places g1) (edges g1)) _ _ ws1 ws2 (exact_drawn lm g1) W1 (scene_shows _ _ _)
      (exact_drawn lm g2) W2 (same_shows _ _ _ _ _ _ _ SD (scene_shows _ _ _)) P F T1 T2) as (X1 & X2 & D1 & D2 & S).
    exact (same_alike M K dl H G St depth1 depth2 h1 h2 x1 x2 X1 X2 (proj2 A1) (proj2 A2) D1 D2 S).
Qed.

(** Nodes and segments in any order. *)
Theorem margin_order : forall depth1 depth2 (g : graph) os1 os2 l1 l2 x1 x2, fin g -> planar_f32 g ->
  calm (lm := lm) dT M K dl H G depth1 (exact_graph g) os1 -> calm (lm := lm) dT M K dl H G depth2 (exact_graph g) os2 ->
  asks dT drawn (exact_graph g) (map exact_op os1) l1 x1 -> asks dT drawn (exact_graph g) (map exact_op os2) l2 x2 -> same_strokes l1 l2 ->
  exists h1 a1 h2 a2, calls dT g os1 = Ok (h1, a1) /\ calls dT g os2 = Ok (h2, a2) /\ alike (2 * drift M K G) h1 h2.
Proof.
  intros depth1 depth2 g os1 os2 l1 l2 x1 x2 Fin Pl C1 C2 T1 T2 SS.
  destruct (asks_calls dT _ _ _ _ T1) as (b1 & R1). destruct (asks_calls dT _ _ _ _ T2) as (b2 & R2).
  pose proof (drift_histories lm dT M K dl H G depth1 St os1 g Fin Pl C1) as A1. pose proof (drift_histories lm dT M K dl H G depth2 St os2 g Fin Pl C2) as A2.
  rewrite R1 in A1. rewrite R2 in A2. destruct (calls dT g os1) as [[h1 a1]|]; [|destruct A1]. destruct (calls dT g os2) as [[h2 a2]|]; [|destruct A2].
  cbn [agree] in A1, A2. exists h1, a1, h2, a2. split; [reflexivity|]. split; [reflexivity|].
  assert (Q : (os1 = [] /\ os2 = []) \/ well_drawn (places g) (edges g)).
  { destruct os1 as [|o1 os1]; [|right; exact (first_well _ _ _ _ Pl C1)]. destruct os2 as [|o2 os2]; [now left|right; exact (first_well _ _ _ _ Pl C2)]. }
  destruct Q as [[-> ->]|W].
  - cbn [map] in T1, T2. inversion T1; subst. inversion T2; subst.
    apply (same_alike M K dl H G St depth1 depth2 h1 h2 _ _ (places g) (places g) (proj2 A1) (proj2 A2) (exact_drawn lm g) (exact_drawn lm g)).
    split; [reflexivity|]. split; [reflexivity|]. split; [reflexivity|]. split; intros e He; exists e; (split; [exact He|]); left; split; reflexivity.
  - destruct (calm_neat depth1 os1 g Pl C1 W) as [_ N1]. destruct (calm_neat depth2 os2 g Pl C2 W) as [_ N2].
    destruct (asks_order dT _ _ _ (places g) _ _ _ _ (exact_drawn lm g) W N1 N2 T1 T2 SS) as (X1 & X2 & D1 & D2 & S).
    exact (same_alike M K dl H G St depth1 depth2 h1 h2 x1 x2 X1 X2 (proj2 A1) (proj2 A2) D1 D2 S).
Qed.
End Margin.
