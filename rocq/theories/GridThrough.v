(** * Histories that draw through existing nodes, in exact arithmetic and on f32 grids. *)
From Coq Require Import ZArith Reals List Bool Lia Lra Arith.
From Flocq Require Import Core.Core IEEE754.BinarySingleNaN.
From Verif Require Import Scalar Utils Polygon Graph GraphSpec PlaneSpec F32 Laws UtilsReal UtilsF32 PolyF32 PolyNewF32
  PlanarSpec GridSpec GridUtils GridSeg GraphAdd GraphAddProps GraphRemove GraphHistory GraphPlanar GraphReport GraphSim GridPrim GridOn
  GridGraph ThroughSpec Through GridThroughSpec.
Import ListNotations.
Local Open Scope R_scope.

Section Neat.
Context {T U : Type} (dT : T).
Local Notation graph := (PlanarGraph XO T U).
Lemma neat_step : forall (g g' : graph) o ps, drawn g ps -> well_drawn ps (edges g) ->
  neat_op g o -> step dT g o = Ok g' ->
  exists ps', drawn g' ps' /\ well_drawn ps' (edges g').
Proof.
  intros g g' o ps D W T1 H. destruct o as [pos dd|s d u|i|i]; try exact (step_planar dT g g' (OAddNode pos dd) ps D W T1 H); try exact (step_planar dT g g' (ORemoveNode i) ps D W T1 H); try exact (step_planar dT g g' (ORemoveEdge i) ps D W T1 H).
  cbn [step] in H; apply bind_ok in H; destruct H as ([g1 r] & H & E); inv E.
  destruct T1 as (N & T1). pose proof (add_edge_ok dT _ _ _ _ _ _ H) as H0.
  destruct H0 as [(_ & -> & _)|[(_ & _ & -> & _)|(NA & Hs & Hd & _)]]; [eauto|eauto|].
  destruct T1 as [A|[B|(ps0 & D0 & G & P)]]; [contradiction|tauto|].
  rewrite (drawn_fun _ _ _ D0 D) in G, P. rewrite (drawn_length _ _ D) in Hs, Hd.
  destruct (add_edge_thru dT g g' ps s d u r D W G N NA Hs Hd H) as (qs & D' & _ & _ & _ & _ & _ & Wi).
  exists (ps ++ qs). split; [exact D'|]. apply Wi. exact P.
Qed.
Theorem neat_planar : forall os (g g' : graph) ps, drawn g ps -> well_drawn ps (edges g) ->
  neat dT g os -> run dT g os = Ok g' ->
  exists ps', drawn g' ps' /\ well_drawn ps' (edges g').
Proof.
  induction os as [|o os IH]; intros g g' ps D W T1 H.
  - inv H. eauto.
  - cbn [run] in H. apply bind_ok in H. destruct H as (g1 & H1 & H). destruct T1 as (T1 & T2).
    destruct (neat_step _ _ _ _ D W T1 H1) as (ps' & D' & W'). eapply IH; eauto.
Qed.
End Neat.

Section Fam.
Context (lm : Libm) (e : Z) (He : (-22 <= e <= 51)%Z) {T U : Type} (dT : T).
Local Notation G := (grid_le 6 e).
Context (S : point -> point -> Prop).
Hypothesis HonS : forall a b p i, G a -> G b -> G p -> S (toR a) (toR b) ->
  (is_on_line_segment (O := FO lm) a b p i = true <-> inner (toR a) (toR b) (toR p)) /\
  (is_on_line_segment (O := XO) (up a) (up b) (up p) i = true <-> inner (toR a) (toR b) (toR p)).
Hypothesis Hlat : forall a b c d p, G a -> G b -> G c -> G d -> S (toR a) (toR b) -> S (toR c) (toR d) ->
  cross (toR a) (toR b) (toR c) (toR d) <> 0 -> on_segment (toR a) (toR b) p -> on_segment (toR c) (toR d) p ->
  exists m, p = P2 (IZR (fst m) * bpow radix2 e) (IZR (snd m) * bpow radix2 e).
Hypothesis HsplitS : forall a b p, S a b -> on_segment a b p -> S a p /\ S b p.
Local Notation graph := (PlanarGraph (FO lm) T U).
Let S' (a b : Vec2 (FO lm)) : Prop := S (toR a) (toR b).
Local Notation ins := (@inside (FO lm) T U G S').

Lemma straight_unambiguous : forall (g : graph) s d, ins g -> apart (places g) ->
  (s < length (places g))%nat -> (d < length (places g))%nat -> s <> d ->
  S (pt (places g) s) (pt (places g) d) -> straight_path g s d ->
  unambiguous (places g) (edges g) s d.
Proof.
  intros g s d I W Hs Hd Nsd Ssd (C1 & C2).
  destruct (place_grid lm e He S g s I Hs) as (ps & Gs & Es & _). destruct (place_grid lm e He S g d I Hd) as (pd & Gd & Ed & _).
  set (P := places g) in *.
  assert (NE : pt P s <> pt P d).
  { intros Q. pose proof (W s d Hs Hd Nsd) as F. rewrite Q, dist_self0 in F. pose proof eps32_pos. lra. }
  (* meeting points are grid points *)
  assert (L : forall f x, In f (edges g) -> edge_on P f x -> on_segment (pt P s) (pt P d) x -> exists q, G q /\ toR q = x).
  { intros f x Hf On Ox. destruct (Classical_Prop.classic (exists k, (k < length P)%nat /\ x = pt P k)) as [(k & Hk & Ek)|NK].
    { destruct (place_grid lm e He S g k I Hk) as (q & Gq & Eq & _). exists q. split; [exact Gq|]. now rewrite Ek. }
    assert (NK' : forall k, (k < length P)%nat -> x <> pt P k) by (intros k Hk Q; apply NK; now exists k).
    destruct (edge_grid lm e He S g f I Hf) as (a & b & Ga & Gb & Ea & Eb & Sab & Ls & Ld). fold P in Ea, Eb, Ls, Ld.
    pose proof On as On'. unfold edge_on in On. rewrite Ea, Eb in On.
    destruct (Req_dec (cross (toR a) (toR b) (toR ps) (toR pd)) 0) as [Z|NZ].
    - exfalso. rewrite <- Ea, <- Eb, <- Es, <- Ed in Z. rewrite <- Ea, <- Eb in On.
      destruct (parallel_overlap _ _ _ _ x Z NE On Ox (NK' s Hs) (NK' d Hd)) as [(Q1 & _)|[(Q1 & _)|(Q1 & Q2)]].
      + apply (NK' (src f) Ls). apply (C1 f); auto. apply on_left.
      + apply (NK' (dst f) Ld). apply (C1 f); auto. apply on_right.
      + apply (NK' s Hs). apply (C1 f); auto. apply on_left.
    - rewrite Es, Ed in Ox, Ssd. destruct (Hlat a b ps pd x Ga Gb Gs Gd Sab Ssd NZ On Ox) as (m & Em).
      apply (lattice_f32 6 e a b x m ltac:(lia) ltac:(lia) Ga Gb On Em). }
  split; [|split; [exact C1|split]].
  - intros k Hk N1 N2 Nr. destruct (place_grid lm e He S g k I Hk) as (q & Gq & Eq & _). fold P in Eq.
    rewrite Es, Ed, Eq in *. apply (near_inner lm e S HonS ps pd q Gs Gd Gq Ssd Nr).
  - intros i f x Hf On Ox. assert (Hin : In f (edges g)) by (eapply nth_error_In; exact Hf).
    destruct (Classical_Prop.classic (exists k, (k < length P)%nat /\ x = pt P k)) as [K|NK]; [now left|].
    destruct (C2 i f x Hf On Ox) as [K|K2]; [contradiction|]. right.
    destruct (L f x Hin On Ox) as (q & Gq & Eq). split.
    + intros k Hk. destruct (place_grid lm e He S g k I Hk) as (r & Gr & Er & _). fold P in Er. rewrite Er, <- Eq.
      apply (grid_far e He); [assumption..|]. intros Q. apply NK. exists k. split; [exact Hk|]. rewrite Er. congruence.
    + intros j h Nj Hh NEr. apply (K2 j h Nj Hh). assert (Hhin : In h (edges g)) by (eapply nth_error_In; exact Hh).
      destruct (edge_grid lm e He S g h I Hhin) as (a & b & Ga & Gb & Ea & Eb & Sab & _). fold P in Ea, Eb.
      unfold edge_near, edge_on in *. rewrite Ea, Eb, <- Eq in *. apply (near_inner lm e S HonS a b q Ga Gb Gq Sab NEr).
  - intros f h x y Hf Hh O1 O2 O3 O4. destruct (L f x Hf O1 O3) as (q & Gq & <-). destruct (L h y Hh O2 O4) as (r & Gr & <-).
    destruct (Classical_Prop.classic (toR q = toR r)) as [Q|Q]; [now left|right]. apply (grid_far e He); assumption.
Qed.

Lemma fam_pos : forall (g : graph) i, real_point (pos_at (nodes g) i) = pt (places g) i.
Proof.
  intros g i. unfold pos_at, pt. destruct (nth_error (nodes g) i) as [n|] eqn:En.
  - symmetry. apply nth_error_nth. exact (map_nth_error (fun n => real_point (position n)) i (nodes g) En).
  - rewrite nth_overflow; [|rewrite (places_length lm); now apply nth_error_None].
    unfold real_point. cbn [vx vy]. f_equal; reflexivity.
Qed.
Lemma exact_degree : forall (g : graph) k, degree (exact_graph g) k = degree g k.
Proof. reflexivity. Qed.

Lemma fam_neat : forall (g : graph) o, ins g -> well_drawn (places g) (edges g) -> draws_op G S g o -> straight_op g o ->
  neat_op (exact_graph g) (exact_op o).
Proof.
  intros g o I W D C. destruct o as [p dd|s d u|i|i]; cbn [exact_op neat_op]; try exact Logic.I.
  - exists (places g), (real_point p). split; [apply exact_drawn|]. split; [reflexivity|]. exact (good_grid lm e He S HonS g p I D).
  - destruct D as [N D]. split; [exact N|].
    destruct C as [A|[B|(C & P)]]; [left; exact A|right; left|].
    { intros Q. apply B. unfold exact_graph in Q; cbn [nodes] in Q. rewrite map_length in Q. exact Q. }
    destruct (lt_dec s (length (nodes g))) as [Ls|Ls]; [|right; left; unfold exact_graph; cbn [nodes]; rewrite map_length; tauto].
    destruct (lt_dec d (length (nodes g))) as [Ld|Ld]; [|right; left; unfold exact_graph; cbn [nodes]; rewrite map_length; tauto].
    right. right. exists (places g). split; [apply exact_drawn|].
    rewrite <- (places_length lm) in Ls, Ld. split; [|exact P]. apply straight_unambiguous; try assumption; [exact (proj1 (proj2 W))|].
    destruct (place_at lm g s Ls) as (a & Ha & Ea). destruct (place_at lm g d Ld) as (b & Hb & Eb). rewrite Ea, Eb. exact (D a b Ha Hb).
Qed.

Lemma fam_straight_step : forall (g g' : graph) o, ins g -> well_drawn (places g) (edges g) -> draws_op G S g o -> straight_op g o ->
  step dT g o = Ok g' -> ins g' /\ well_drawn (places g') (edges g').
Proof.
  intros g g' o I W D C H. destruct (fam_step lm e He dT S HonS Hlat HsplitS g o I D) as [E1 E2]. split; [exact (E2 g' H)|].
  rewrite H in E1. cbn [rmap] in E1.
  destruct (neat_step dT _ _ _ _ (exact_drawn lm g) W (fam_neat g o I W D C) E1) as (ps' & D' & W').
  rewrite (drawn_fun _ _ _ D' (exact_drawn lm g')) in W'. exact W'.
Qed.
Lemma fam_straights : forall os (g g' : graph), ins g -> well_drawn (places g) (edges g) -> draws dT G S g os -> straights dT g os ->
  run dT g os = Ok g' -> ins g' /\ well_drawn (places g') (edges g').
Proof.
  induction os as [|o os IH]; intros g g' I W D C H.
  - inv H. split; assumption.
  - cbn [run] in H. apply bind_ok in H. destruct H as (g1 & H1 & H). destruct D as [D1 D2]. destruct C as [C1 C2].
    destruct (fam_straight_step g g1 o I W D1 C1 H1) as [I1 W1]. eapply IH; eauto.
Qed.

Lemma fam_neats : forall os (g : graph), ins g -> well_drawn (places g) (edges g) -> draws dT G S g os -> straights dT g os ->
  neat dT (exact_graph g) (map exact_op os).
Proof.
  induction os as [|o os IH]; intros g I W D C; [exact Logic.I|]. destruct D as [D1 D2]. destruct C as [C1 C2]. split; [apply fam_neat; assumption|].
  intros g1 H1. destruct (fam_step lm e He dT S HonS Hlat HsplitS g o I D1) as [E1 E2]. rewrite E1 in H1.
  destruct (step dT g o) as [g'|] eqn:E; [|discriminate]. cbn [rmap] in H1. inv H1.
  destruct (fam_straight_step g g' o I W D1 C1 E) as [I1 W1]. apply IH; auto.
Qed.

(** One more edge, passing through any nodes. *)
Lemma fam_through : forall (g g' : graph) s d u r, ins g -> well_drawn (places g) (edges g) ->
  draws_op G S g (OAddEdge s d u) -> straight_path g s d -> ~ adjacent g s d ->
  (s < node_count g)%nat -> (d < node_count g)%nat -> add_edge dT g s d u = Ok (g', r) ->
  (forall x, covers (places g') (edges g') x <-> covers (places g) (edges g) x \/ on_segment (pt (places g) s) (pt (places g) d) x) /\
  (forall k, passes (places g) s d k ->
     (degree g k <> 1%nat <-> exists f, In f (edges g') /\ crosses_node (places g') k f)) /\
  (planar_f32 g' <-> passes_ends g (places g) s d).
Proof.
  intros g g' s d u r I W D C NA Hs Hd H.
  pose proof D as [Nsd D2]. destruct (fam_add_edge lm e He dT S HonS Hlat HsplitS g s d u I D) as [E I']. specialize (I' _ _ H).
  rewrite H in E. cbn [rmap fst snd] in E.
  assert (Ls : (s < length (places g))%nat) by (rewrite places_length; exact Hs).
  assert (Ld : (d < length (places g))%nat) by (rewrite places_length; exact Hd).
  assert (UA : unambiguous (places g) (edges g) s d).
  { apply straight_unambiguous; try assumption; [exact (proj1 (proj2 W))|].
    destruct (place_at lm g s Ls) as (a & Ha & Ea). destruct (place_at lm g d Ld) as (b & Hb & Eb). rewrite Ea, Eb. exact (D2 a b Ha Hb). }
  destruct (add_edge_thru dT _ _ _ _ _ _ _ (exact_drawn lm g) W UA Nsd NA Ls Ld E) as (qs & D' & _ & P & _ & _ & Q & Wi).
  pose proof (drawn_fun _ _ _ D' (exact_drawn lm g')) as EP. rewrite EP in P, Q, Wi. split; [exact P|]. split; [exact Q|].
  rewrite <- (Wi : _ <-> passes_ends g (places g) s d). split.
  - intros PF. apply Wi. intros k Pk. destruct (Nat.eq_dec (degree g k) 1) as [Q1|Q1]; [exact Q1|exfalso].
    apply (Q k Pk) in Q1. destruct Q1 as (f & Hf & Nt & On).
    pose proof (fam_pos g') as Epos. destruct PF as (PF & _).
    apply (PF k f); [|exact Hf|exact Nt|rewrite !Epos; exact On].
    destruct Pk as (Lk & _). rewrite <- (places_length lm), <- EP, app_length. lia.
  - intros W'. exact (proj1 (fam_planar_f32 lm e S g' I' W')).
Qed.
End Fam.
