(** * Properties: drawings in which edges run through nodes (C146, C147).

    [loosely_drawn ps es]: the ends of the edges exist and differ, nodes are further apart
    than EPSILON, a node in the needle of an edge lies on that edge, and two edges meet
    only in nodes.  [crossed ps es k]: some edge runs through node k.  [meets_once ps es s
    d k]: node k is on the segment from s to d and on exactly one edge not parallel to it. *)
From Coq Require Import List Arith Bool Lia Reals Lra ZArith.
From Flocq Require Import Core.Core IEEE754.BinarySingleNaN.
From Verif Require Import Scalar Utils Polygon Graph GraphSpec PlaneSpec PlanarSpec GridSpec F32 Laws UtilsReal UtilsF32
  PolyF32 PolyNewF32 GraphDemo GraphHistory GraphPlanar GraphSim GridUtils GridSeg GridPrim GridOn GridGraph GridInst GridCheck
  ThroughSpec Through GridThroughSpec GridThrough GridThroughCheck
  Properties_Utils Properties_Polygon Properties_Grid Properties_GridGraph LooseSpec Loose GridLooseSpec GridLoose GridLooseCheck.
Import ListNotations.
Local Open Scope R_scope.

(** ** C146: exact arithmetic *)

(** One more edge. *)
Theorem C146_edge :
  forall (T U : Type) (dT : T) (g g' : PlanarGraph XO T U) ps s d u r,
  drawn g ps -> loosely_drawn ps (edges g) -> unambiguous ps (edges g) s d -> s <> d ->
  ~ adjacent g s d -> (s < length ps)%nat -> (d < length ps)%nat ->
  add_edge dT g s d u = Ok (g', r) ->
  exists qs, drawn g' (ps ++ qs) /\ loosely_drawn (ps ++ qs) (edges g') /\
    (* the picture gains the segment *)
    (forall x, covers (ps ++ qs) (edges g') x <-> covers ps (edges g) x \/ on_segment (pt ps s) (pt ps d) x) /\
    (* the new nodes are its points on edges that are no nodes *)
    (forall x, In x qs <-> on_segment (pt ps s) (pt ps d) x /\ covers ps (edges g) x /\ ~ In x ps) /\
    (* edges run through the nodes of before and through the passed nodes, except at the
       nodes that the segment meets once *)
    (forall k, crossed (ps ++ qs) (edges g') k <->
       (crossed ps (edges g) k \/ passes ps s d k) /\ ~ meets_once ps (edges g) s d k).
Proof.
  intros T U dT g g' ps s d u r D W G N NA Ls Ld H.
  destruct (add_edge_loose dT g g' ps s d u r D W G N NA Ls Ld H) as (qs & Q1 & Q2 & Q3 & Q4 & Q5 & _). exists qs. auto.
Qed.
Print Assumptions C146_edge.

(** So a node through which an edge runs, and which is on no other edge, is repaired by
    the first edge that reaches it from elsewhere. *)
Theorem C146_repaired :
  forall (T U : Type) (dT : T) (g g' : PlanarGraph XO T U) ps s d u r k e,
  drawn g ps -> loosely_drawn ps (edges g) -> unambiguous ps (edges g) s d -> s <> d ->
  ~ adjacent g s d -> (s < length ps)%nat -> (d < length ps)%nat ->
  add_edge dT g s d u = Ok (g', r) ->
  (k < length ps)%nat -> on_segment (pt ps s) (pt ps d) (pt ps k) -> askew ps s d e ->
  (exists i, nth_error (edges g) i = Some e /\ edge_on ps e (pt ps k) /\
     forall j f, nth_error (edges g) j = Some f -> edge_on ps f (pt ps k) -> j = i) ->
  exists ps', drawn g' ps' /\ pt ps' k = pt ps k /\ forall f, In f (edges g') -> ~ crosses_node ps' k f.
Proof.
  intros T U dT g g' ps s d u r k e D W G N NA Ls Ld H Lk O A (i & He & Oe & Un).
  destruct (C146_edge T U dT g g' ps s d u r D W G N NA Ls Ld H) as (qs & Q1 & _ & _ & _ & Q5).
  exists (ps ++ qs). split; [exact Q1|]. split; [now apply pt_app|]. intros f Hf C.
  assert (K : crossed (ps ++ qs) (edges g') k) by (split; [rewrite app_length; lia|eauto]).
  apply Q5 in K. apply (proj2 K). split; [exact O|]. exists i, e. repeat split; auto. intros j h Hh Oh _. eapply Un; eassumption.
Qed.
Print Assumptions C146_repaired.

(** One more node. *)
Theorem C146_node :
  forall (T U : Type) (g g' : PlanarGraph XO T U) ps p v r,
  drawn g ps -> loosely_drawn ps (edges g) -> good_place ps (edges g) p ->
  add_node g (xp p) v = Ok (g', r) ->
  exists qs, drawn g' (ps ++ qs) /\ loosely_drawn (ps ++ qs) (edges g') /\
    (forall x, covers (ps ++ qs) (edges g') x <-> covers ps (edges g) x) /\
    (forall x, In x qs <-> x = p /\ forall k, (k < length ps)%nat -> eps32 <= dist p (pt ps k)) /\
    (forall k, crossed (ps ++ qs) (edges g') k <-> crossed ps (edges g) k).
Proof.
  intros T U g g' ps p v r D W G H.
  destruct (add_node_loose g g' ps p v r D W G H) as (qs & Q1 & Q2 & Q3 & Q4 & Q5 & _). exists qs. auto.
Qed.
Print Assumptions C146_node.

(** Every history of additions from the empty graph.  [loose dT g os]: every added node
    has a good place, every requested edge is between different nodes and exists already,
    has a missing end, or is unambiguous. *)
Theorem C146_history :
  forall (T U : Type) (dT : T) os (g : PlanarGraph XO T U),
  loose dT graph_new os -> run dT graph_new os = Ok g ->
  exists ps, drawn g ps /\ loosely_drawn ps (edges g) /\
    (planar_drawing (pt ps) (length ps) (edges g) <-> forall k, ~ crossed ps (edges g) k).
Proof.
  intros T U dT os g L H. destruct (@empty_drawn T U) as [D W]. apply well_loose in W. destruct W as [W _].
  destruct (loose_history dT os _ _ _ D W L H) as (ps & D' & W' & _). exists ps. split; [exact D'|]. split; [exact W'|]. split.
  - intros [Pl _] k (Lk & e & He & Nt & O). exact (Pl k e Lk He Nt O).
  - intros N. assert (Q : well_drawn ps (edges g)) by (apply well_loose; auto). apply Q.
Qed.
Print Assumptions C146_history.

(** A node through which an edge runs and whose edges go in three directions is never
    repaired. *)
Theorem C146_knot :
  forall (T U : Type) (dT : T) os (g g' : PlanarGraph XO T U) ps,
  drawn g ps -> loosely_drawn ps (edges g) -> loose dT g os -> run dT g os = Ok g' ->
  exists qs, drawn g' (ps ++ qs) /\
    forall k, knotted ps (edges g) k -> exists e, In e (edges g') /\ crosses_node (ps ++ qs) k e.
Proof.
  intros T U dT os g g' ps D W L H. destruct (loose_history dT os _ _ _ D W L H) as (qs & D' & _ & K). exists qs. split; [exact D'|].
  intros k Hk. destruct (K k Hk) as [[_ C] _]. exact C.
Qed.
Print Assumptions C146_knot.

(** ** C147: the same in f32 on the grids of C90

    [lays dT g os]: additions only, and every requested edge exists already, has a missing
    end, or has at most one point in common with each edge. *)
Lemma new_lays : forall (T U : Type), loosely_drawn (U := U) (@nil point) [].
Proof. intros T U. destruct (@empty_drawn T U) as [_ W]. apply well_loose in W. exact (proj1 W). Qed.

Theorem C147_history :
  forall lm e S (T U : Type) (dT : T) os (g : PlanarGraph (FO lm) T U), drawable e S ->
  draws dT (grid_le 6 e) S graph_new os -> lays dT graph_new os -> run dT graph_new os = Ok g ->
  loosely_drawn (places g) (edges g) /\ (planar_f32 g <-> forall k, ~ crossed (places g) (edges g) k).
Proof.
  intros lm e S T U dT os g HS D C R. destruct (drawable_ok e S HS) as (He & H1 & H2 & H3).
  destruct (fam_lays lm e He dT S (H1 lm) H2 H3 os graph_new g (new_inside _ _) (new_lays T U) D C R) as (I & W & _).
  split; [exact W|]. split.
  - intros [Pl _] k (Lk & f & Hf & Nt & O). rewrite places_length in Lk. apply (Pl k f Lk Hf Nt). rewrite !fam_pos. exact O.
  - intros N. assert (Q : well_drawn (places g) (edges g)) by (apply well_loose; auto). exact (proj1 (fam_planar_f32 lm e S g I Q)).
Qed.
Print Assumptions C147_history.

Theorem C147_edge :
  forall lm e S (T U : Type) (dT : T) os (g g' : PlanarGraph (FO lm) T U) s d u r, drawable e S ->
  draws dT (grid_le 6 e) S graph_new os -> lays dT graph_new os -> run dT graph_new os = Ok g ->
  draws_op (grid_le 6 e) S g (OAddEdge s d u) -> along_no_edge g s d -> ~ adjacent g s d ->
  (s < node_count g)%nat -> (d < node_count g)%nat -> add_edge dT g s d u = Ok (g', r) ->
  let P := places g in let P' := places g' in
  (forall x, covers P' (edges g') x <-> covers P (edges g) x \/ on_segment (pt P s) (pt P d) x) /\
  (forall x, In x P' <-> In x P \/ (on_segment (pt P s) (pt P d) x /\ covers P (edges g) x)) /\
  (forall k, crossed P' (edges g') k <->
     (crossed P (edges g) k \/ passes P s d k) /\ ~ meets_once P (edges g) s d k).
Proof.
  intros lm e S T U dT os g g' s d u r HS D C R Do Sp NA Ls Ld H. destruct (drawable_ok e S HS) as (He & H1 & H2 & H3).
  destruct (fam_lays lm e He dT S (H1 lm) H2 H3 os graph_new g (new_inside _ _) (new_lays T U) D C R) as (I & W & _).
  exact (fam_loose_edge lm e He dT S (H1 lm) H2 H3 g g' s d u r I W Do Sp NA Ls Ld H).
Qed.
Print Assumptions C147_edge.

Theorem C147_node :
  forall lm e S (T U : Type) (dT : T) os (g g' : PlanarGraph (FO lm) T U) p v r, drawable e S ->
  draws dT (grid_le 6 e) S graph_new os -> lays dT graph_new os -> run dT graph_new os = Ok g ->
  draws_op (grid_le 6 e) S g (OAddNode p v) -> add_node g p v = Ok (g', r) ->
  let P := places g in let P' := places g' in
  (forall x, covers P' (edges g') x <-> covers P (edges g) x) /\
  (forall x, In x P' <-> In x P \/ x = real_point p) /\
  (forall k, crossed P' (edges g') k <-> crossed P (edges g) k).
Proof.
  intros lm e S T U dT os g g' p v r HS D C R Do H. destruct (drawable_ok e S HS) as (He & H1 & H2 & H3).
  destruct (fam_lays lm e He dT S (H1 lm) H2 H3 os graph_new g (new_inside _ _) (new_lays T U) D C R) as (I & W & _).
  exact (fam_loose_node lm e He dT S (H1 lm) H2 H3 g g' p v r I W Do H).
Qed.
Print Assumptions C147_node.

Theorem C147_knot :
  forall lm e S (T U : Type) (dT : T) os os' (g g' : PlanarGraph (FO lm) T U), drawable e S ->
  draws dT (grid_le 6 e) S graph_new os -> lays dT graph_new os -> run dT graph_new os = Ok g ->
  draws dT (grid_le 6 e) S g os' -> lays dT g os' -> run dT g os' = Ok g' ->
  forall k, knotted (places g) (edges g) k -> exists f, In f (edges g') /\ crosses_node (places g') k f.
Proof.
  intros lm e S T U dT os os' g g' HS D C R D' C' R' k Hk. destruct (drawable_ok e S HS) as (He & H1 & H2 & H3).
  destruct (fam_lays lm e He dT S (H1 lm) H2 H3 os graph_new g (new_inside _ _) (new_lays T U) D C R) as (I & W & _).
  destruct (fam_lays lm e He dT S (H1 lm) H2 H3 os' g g' I W D' C' R') as (_ & _ & K).
  destruct (K k Hk) as [[_ Q] _]. exact Q.
Qed.
Print Assumptions C147_knot.

(** ** Examples *)
Definition nine : list (@op (FO lm0) nat nat) :=
  map (fun p : Vec2 (FO lm0) => OAddNode p 7%nat) [gp (-5) 0 0; gp (-5) (-4) 0; gp (-5) 4 0; gp (-5) 0 (-4); gp (-5) 0 4;
    gp (-5) (-4) (-4); gp (-5) 4 4; gp (-5) (-4) 4; gp (-5) 4 (-4)].
Definition nine_at : list (Z * Z) := [(0, 0); (-4, 0); (4, 0); (0, -4); (0, 4); (-4, -4); (4, 4); (-4, 4); (4, -4)]%Z.
(** A bar through node 0, which has no edge; an edge from node 0. *)
Definition bar : list (@op (FO lm0) nat nat) := nine ++ [OAddEdge 1 2 1%nat].
Definition bar_stem : list (@op (FO lm0) nat nat) := bar ++ [OAddEdge 0 3 2%nat].
(** Three bars through node 0; edges from node 0. *)
Definition bars : list (@op (FO lm0) nat nat) := bar ++ [OAddEdge 3 4 2%nat; OAddEdge 5 6 3%nat].
Definition later : list (@op (FO lm0) nat nat) := [OAddEdge 0 7 4%nat; OAddNode (gp (-5) 2 (-6) : Vec2 (FO lm0)) 7%nat; OAddEdge 8 0 5%nat; OAddEdge 4 6 5%nat].

Definition look (r : res (PlanarGraph (FO lm0) nat nat)) : option (option (list (Z * Z)) * list (nat * nat)) :=
  match r with Ok g => Some (all_places (-5) (nodes g), map (fun e => (src e, dst e)) (edges g)) | Panic => None end.

Lemma pleat5 : drawable (-5) (pleat (-5)).
Proof. right. split; [lia|reflexivity]. Qed.
Lemma look_ok : forall r ks es, look r = Some (Some ks, es) -> exists g : PlanarGraph (FO lm0) nat nat, r = Ok g /\ places g = map (at_unit (-5)) ks /\
  map (fun e => (src e, dst e)) (edges g) = es.
Proof.
  intros [g|] ks es H; [|discriminate]. exists g. split; [reflexivity|]. unfold look in H. inversion H as [[E1 E2]]. split; [|reflexivity].
  symmetry. exact (all_places_ok (-5) ltac:(lia) _ _ E1).
Qed.

Lemma laid : forall os (g : PlanarGraph (FO lm0) nat nat),
  drawsb 0%nat (-5) pleatb (@graph_new (FO lm0) nat nat) os = true -> laysb 0%nat (-5) (@graph_new (FO lm0) nat nat) os = true -> run 0%nat graph_new os = Ok g ->
  loose 0%nat graph_new (map exact_op os) /\ run 0%nat graph_new (map exact_op os) = Ok (exact_graph g) /\
  drawn (exact_graph g) (places g) /\ loosely_drawn (places g) (edges g) /\
  draws 0%nat (grid_le 6 (-5)) (pleat (-5)) graph_new os /\ lays 0%nat graph_new os.
Proof.
  intros os g B1 B2 R. pose proof (drawsb_ok 0%nat (-5) ltac:(lia) (pleat (-5)) pleatb (pleatb_ok (-5)) _ _ B1) as D.
  pose proof (laysb_ok 0%nat (-5) ltac:(lia) _ _ B2) as L.
  split; [|split; [|split; [|split; [|split; assumption]]]].
  - destruct (drawable_ok _ _ pleat5) as (He & H1 & H2 & H3).
    exact (fam_looses lm0 (-5) He 0%nat (pleat (-5)) (H1 lm0) H2 H3 os graph_new (new_inside _ _) (new_lays nat nat) D L).
  - rewrite (C90_histories_exact lm0 (-5) (pleat (-5)) nat nat 0%nat os pleat5 D), R. reflexivity.
  - apply exact_drawn.
  - exact (proj1 (C147_history lm0 (-5) (pleat (-5)) nat nat 0%nat os g pleat5 D L R)).
Qed.

(** The bar runs through node 0, which the stem meets once: it is split there. *)
Example C146_example :
  loose 0%nat graph_new (map exact_op bar_stem) /\
  exists g : PlanarGraph (FO lm0) nat nat, run 0%nat graph_new (map exact_op bar) = Ok (exact_graph g) /\ drawn (exact_graph g) (places g) /\
    loosely_drawn (places g) (edges g) /\ crossed (places g) (edges g) 0 /\ meets_once (places g) (edges g) 0 3 0 /\
    look (run 0%nat graph_new bar) = Some (Some nine_at, [(1, 2)])%nat /\
    look (run 0%nat graph_new bar_stem) = Some (Some nine_at, [(1, 0); (0, 3); (2, 0)])%nat.
Proof.
  assert (E1 : look (run 0%nat graph_new bar) = Some (Some nine_at, [(1, 2)])%nat) by (vm_compute; reflexivity).
  assert (E2 : look (run 0%nat graph_new bar_stem) = Some (Some nine_at, [(1, 0); (0, 3); (2, 0)])%nat) by (vm_compute; reflexivity).
  destruct (look_ok _ _ _ E1) as (g & R & Pg & Eg). destruct (look_ok _ _ _ E2) as (g2 & R2 & _ & _).
  destruct (laid bar_stem g2 ltac:(vm_compute; reflexivity) ltac:(vm_compute; reflexivity) R2) as (L & _).
  destruct (laid bar g ltac:(vm_compute; reflexivity) ltac:(vm_compute; reflexivity) R) as (_ & X & D & W & _).
  split; [exact L|]. exists g. split; [exact X|]. split; [exact D|]. split; [exact W|].
  cut (crossed (places g) (edges g) 0 /\ meets_once (places g) (edges g) 0 3 0); [intros [K1 K2]; exact (conj K1 (conj K2 (conj E1 E2)))|].
  rewrite Pg. generalize dependent (edges g). clear. intros es Eg. destruct es as [|e [|e' l]]; try discriminate. injection Eg as S1 S2.
  pose proof (bpow_gt_0 radix2 (-5)) as UP.
  assert (O : edge_on (map (at_unit (-5)) nine_at) e (pt (map (at_unit (-5)) nine_at) 0)).
  { exists (/ 2). split; [lra|]. rewrite S1, S2. unfold along, pt, at_unit, nine_at. cbn [map nth fst snd vx vy]. f_equal; lra. }
  split.
  - split; [simpl; lia|]. exists e. split; [now left|]. split; [intros [Q|Q]; congruence|exact O].
  - split; [apply on_left|]. exists 0%nat, e. split; [reflexivity|]. split; [exact O|]. split.
    + unfold askew. rewrite S1, S2. unfold PlaneSpec.cross, pt, at_unit, nine_at. cbn [map nth fst snd vx vy]. set (u := bpow radix2 (-5)) in *. intros Q. assert (0 < u * u) by (apply Rmult_lt_0_compat; assumption). nra.
    + intros [|j] f Hf; [reflexivity|]. destruct j; discriminate.
Qed.

(** Three bars through node 0: the second is split there, the third is not, and runs
    through node 0 for ever. *)
Example C147_example :
  draws 0%nat (grid_le 6 (-5)) (pleat (-5)) graph_new (bars ++ later) /\ lays 0%nat graph_new (bars ++ later) /\
  look (run 0%nat graph_new bars) = Some (Some nine_at, [(1, 0); (3, 0); (2, 0); (4, 0); (5, 6)])%nat /\
  exists g, run 0%nat graph_new bars = Ok g /\ knotted (places g) (edges g) 0.
Proof.
  assert (E1 : look (run 0%nat graph_new bars) = Some (Some nine_at, [(1, 0); (3, 0); (2, 0); (4, 0); (5, 6)])%nat) by (vm_compute; reflexivity).
  destruct (look_ok _ _ _ E1) as (g & R & Pg & Eg).
  destruct (run 0%nat graph_new (bars ++ later)) as [g2|] eqn:R2.
  2:{ assert (B : match run 0%nat graph_new (bars ++ later) with Ok _ => true | Panic => false end = true) by (vm_compute; reflexivity). rewrite R2 in B. discriminate. }
  destruct (laid (bars ++ later) g2 ltac:(vm_compute; reflexivity) ltac:(vm_compute; reflexivity) R2) as (_ & _ & _ & _ & D & L).
  split; [exact D|]. split; [exact L|]. split; [exact E1|]. exists g. split; [exact R|]. rewrite Pg.
  generalize dependent (edges g). clear. intros es Eg. destruct es as [|e2 [|e4 [|e3 [|e5 [|e1 [|e6 l]]]]]]; try discriminate.
  injection Eg as S2 T2 S4 T4 S3 T3 S5 T5 S1 T1. pose proof (bpow_gt_0 radix2 (-5)) as UP.
  assert (O : edge_on (map (at_unit (-5)) nine_at) e1 (pt (map (at_unit (-5)) nine_at) 0)).
  { exists (/ 2). split; [lra|]. rewrite S1, T1. unfold along, pt, at_unit, nine_at. cbn [map nth fst snd vx vy]. f_equal; lra. }
  split.
  - split; [simpl; lia|]. exists e1. split; [simpl; tauto|]. split; [intros [Q|Q]; congruence|exact O].
  - exists (at_unit (-5) (-4, -4)%Z), (at_unit (-5) (4, 4)%Z), (at_unit (-5) (-4, 0)%Z), (at_unit (-5) (0, 0)%Z), (at_unit (-5) (0, -4)%Z), (at_unit (-5) (0, 0)%Z).
    unfold heads. split; [|split; [|split; [|split; [|split]]]].
    1-3: unfold PlaneSpec.cross, at_unit; cbn [fst snd vx vy]; set (u := bpow radix2 (-5)) in *; intros Q; assert (0 < u * u) by (apply Rmult_lt_0_compat; assumption); nra.
    + exists e1. split; [simpl; tauto|]. split; [exact O|]. rewrite S1, T1. unfold PlaneSpec.cross, pt, at_unit, nine_at. cbn [map nth fst snd vx vy]. ring.
    + exists e2. split; [simpl; tauto|]. unfold edge_on. rewrite S2, T2. split; [apply on_right|]. unfold PlaneSpec.cross, pt, at_unit, nine_at. cbn [map nth fst snd vx vy]. ring.
    + exists e4. split; [simpl; tauto|]. unfold edge_on. rewrite S4, T4. split; [apply on_right|]. unfold PlaneSpec.cross, pt, at_unit, nine_at. cbn [map nth fst snd vx vy]. ring.
Qed.
