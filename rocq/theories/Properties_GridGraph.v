(** * C87-C91: the geometric decisions of the graph code in f32 on grids, and whole
    histories that draw on them.

    [grid_le K e p]: both coordinates of p are k*2^e with |k| <= K.  [real_point p] is the
    point with the same coordinates as real numbers. *)
From Coq Require Import List Arith Bool Lia Reals Lra ZArith Psatz.
From Flocq Require Import Core.Core IEEE754.BinarySingleNaN.
From Verif Require Import Scalar Utils Polygon Graph GraphSpec PlaneSpec PlanarSpec GridSpec F32 Laws UtilsReal UtilsF32
  PolyF32 PolyNewF32 GraphDemo GraphHistory GraphPlanar GraphSim GridUtils GridSeg GridPrim GridOn GridGraph GridInst GridCheck
  Properties_Utils Properties_Polygon Properties_Grid.
Import ListNotations.
Local Open Scope R_scope.
Local Notation cross := PlaneSpec.cross.

(** ** C87: segment intersection *)
Theorem C87_segment_intersection_decides :
  forall lm e K a b c d, (-74 <= e <= 51)%Z -> (1 <= K)%Z -> (8 * (K * K) <= 16777216)%Z ->
  grid_le K e a -> grid_le K e b -> grid_le K e c -> grid_le K e d ->
  let meet p := cross (real_point a) (real_point b) (real_point c) (real_point d) <> 0 /\
    on_segment (real_point a) (real_point b) p /\ on_segment (real_point c) (real_point d) p in
  match calculate_line_segment_intersection (O := FO lm) a b c d with
  | None => forall p, ~ meet p
  | Some q => exists p, meet p /\ is_finite (vx q) = true /\ is_finite (vy q) = true /\
      Rabs (vx (real_point q) - vx p) <= 6 * IZR K * bpow radix2 (e - 24) /\
      Rabs (vy (real_point q) - vy p) <= 6 * IZR K * bpow radix2 (e - 24)
  end.
Proof.
  intros lm e K a b c d He HK HK2 Ga Gb Gc Gd meet.
  apply grid_le_at in Ga. destruct Ga as (ka & Wa & Aa). apply grid_le_at in Gb. destruct Gb as (kb & Wb & Ab).
  apply grid_le_at in Gc. destruct Gc as (kc & Wc & Ac). apply grid_le_at in Gd. destruct Gd as (kd & Wd & Ad).
  pose proof (seg_grid lm e K He HK HK2 a b c d ka kb kc kd Wa Wb Wc Wd Aa Ab Ac Ad) as SG.
  destruct (calculate_line_segment_intersection (O := FO lm) a b c d) as [q|].
  - destruct SG as (p & E & F). apply segment_intersection_spec in E. destruct E as (p' & E' & M).
    assert (p = p') by (apply xp_inj; exact E'). subst p'. exists p. split; [exact M|exact F].
  - intros p M. assert (X : calculate_line_segment_intersection (O := XO) (xp (toR a)) (xp (toR b)) (xp (toR c)) (xp (toR d)) = Some (xp p)).
    { apply segment_intersection_spec. exists p. split; [reflexivity|exact M]. }
    rewrite SG in X. discriminate.
Qed.
Print Assumptions C87_segment_intersection_decides.

(** An end of one segment on the other, and two segments that miss each other by one
    two-thousandth; both on the largest grid. *)
Example C87_example :
  let a := xy (-1448) 0 in let b := xy 1448 1 in
  Forall (grid_le 1448 0) [a; b; xy 0 (-5); xy 1448 1; xy 1447 1; xy 1447 9] /\
  calculate_line_segment_intersection (O := FO lm0) a b (xy 0 (-5)) (xy 1448 1) <> None /\
  calculate_line_segment_intersection (O := FO lm0) a b (xy 1447 1) (xy 1447 9) = None.
Proof.
  cbv zeta. split; [repeat constructor; apply xy_grid_le; lia|].
  split; [|vm_compute; reflexivity].
  intros E. apply (f_equal (fun o => match o with Some _ => true | None => false end)) in E. vm_compute in E. discriminate.
Qed.

(** ** C88: the closest point *)
Theorem C88_closest_exact :
  forall lm e t ps i d, (-74 <= e <= 51)%Z -> grid_le 724 e t -> Forall (grid_le 724 e) ps -> ps <> [] ->
  find_closest_to (O := FO lm) t ps = (i, d) ->
  exists p, nth_error ps i = Some p /\
    is_finite d = true /\ B2R d = rnd32 (dist (real_point t) (real_point p)) /\
    (forall j q, nth_error ps j = Some q -> dist (real_point t) (real_point p) <= dist (real_point t) (real_point q)) /\
    (forall j q, (j < i)%nat -> nth_error ps j = Some q -> dist (real_point t) (real_point p) < dist (real_point t) (real_point q)).
Proof.
  intros lm e t ps i d He Gt Gps NE H.
  destruct (find_closest_grid lm e He t ps Gt Gps) as [E1 E2]. rewrite H in E1, E2. cbn [fst snd] in E1, E2.
  destruct (find_closest_to (O := XO) (xp (toR t)) (map (fun q => xp (toR q)) ps)) as [i' x] eqn:EX. cbn [fst snd] in E1, E2. subst i'.
  rewrite <- (map_map toR xp) in EX. apply C20_find_closest_exact in EX.
  assert (SM : forall q, In q ps -> dist (toR t) (toR q) < max32).
  { intros q Hq. rewrite Forall_forall in Gps. specialize (Gps q Hq).
    apply grid_le_at in Gt. destruct Gt as (k & Wk & Ak). apply grid_le_at in Gps. destruct Gps as (l & Wl & Al).
    rewrite (dist_at _ _ _ _ _ Ak Al). apply root_lt_max; [exact He|].
    pose proof (dist2_bound 724 k l Wk Wl). pose proof (dist2_nonneg k l). lia. }
  destruct EX as [(-> & -> & M)|(p & Hp & -> & M1 & M2)].
  - exfalso. destruct ps as [|q ps]; [congruence|]. specialize (M 0%nat (toR q) eq_refl). specialize (SM q (or_introl eq_refl)). lra.
  - rewrite nth_error_map in Hp. destruct (nth_error ps i) as [p0|] eqn:Ep; [|discriminate]. injection Hp as <-. exists p0.
    split; [reflexivity|]. split; [|split].
    + destruct E2 as [(n & (N & F & _) & _)|[-> _]]; [exact F|reflexivity].
    + destruct E2 as [(n & (N & F & Ed) & X)|[_ X]].
      * injection X as X. change (real_point t) with (toR t). change (real_point p0) with (toR p0). now rewrite X.
      * exfalso. injection X as X. pose proof (SM p0 (nth_error_In _ _ Ep)). lra.
    + split; intros j q; [intros Hq|intros Hj Hq].
      * apply (M1 j). now rewrite nth_error_map, Hq.
      * apply (M2 j); [exact Hj|]. now rewrite nth_error_map, Hq.
Qed.
Print Assumptions C88_closest_exact.

(** Squared distances 65 and 64: told apart. *)
Example C88_example :
  Forall (grid_le 724 0) [xy 700 1; xy 707 (-3); xy 700 9; xy 692 1] /\
  fst (find_closest_to (O := FO lm0) (xy 700 1) [xy 707 (-3); xy 700 9; xy 692 1]) = 1%nat.
Proof. split; [repeat constructor; apply xy_grid_le; lia|vm_compute; reflexivity]. Qed.

(** On the grid of 765 units the first point is returned although the second is closer:
    the squared distances 4443401 and 4443400 have the same rounded root. *)
Theorem C88_fails_at_765 :
  let t := xy (-765) (-765) in let p := xy 715 736 in let q := xy 685 765 in
  Forall (grid_le 765 0) [t; p; q] /\
  fst (find_closest_to (O := FO lm0) t [p; q]) = 0%nat /\
  dist (real_point t) (real_point q) < dist (real_point t) (real_point p).
Proof.
  cbv zeta. split; [repeat constructor; apply xy_grid_le; lia|]. split; [vm_compute; reflexivity|].
  change real_point with toR. rewrite !toR_xy by lia. unfold dist; cbn [vx vy]. apply sqrt_lt_1_alt. lra.
Qed.
Print Assumptions C88_fails_at_765.

(** ** C89: points on segments, and crossings at grid points *)
Theorem C89_on_grid_lines_exact :
  forall lm e a b p i, (-19 <= e <= 51)%Z -> grid_le 6 e a -> grid_le 6 e b -> grid_le 6 e p ->
  axis (real_point a) (real_point b) ->
  (is_on_line_segment (O := FO lm) a b p i = true <-> inner (real_point a) (real_point b) (real_point p)).
Proof. intros lm e a b p i He Ga Gb Gp A. exact (proj1 (axis_on lm e ltac:(lia) ltac:(lia) a b p i Ga Gb Gp A)). Qed.
Print Assumptions C89_on_grid_lines_exact.

Theorem C89_on_small_box_exact :
  forall lm e a b p i, (-9 <= e <= -5)%Z -> grid_le 6 e a -> grid_le 6 e b -> grid_le 6 e p ->
  (is_on_line_segment (O := FO lm) a b p i = true <-> inner (real_point a) (real_point b) (real_point p)).
Proof. intros lm e a b p i He Ga Gb Gp. exact (proj1 (small_on lm e ltac:(lia) He a b p i Ga Gb Gp)). Qed.
Print Assumptions C89_on_small_box_exact.

Definition gp (e x y : Z) : Vec2 f32 := P2 (f32_of x e) (f32_of y e).
Lemma gp_grid : forall K e x y, (-149 <= e <= 103)%Z -> (K <= 2048)%Z -> (Z.abs x <= K)%Z -> (Z.abs y <= K)%Z ->
  grid_le K e (gp e x y) /\ real_point (gp e x y) = P2 (IZR x * bpow radix2 e) (IZR y * bpow radix2 e).
Proof.
  intros K e x y He HK Hx Hy. destruct (f32_of_exact x e ltac:(lia) He) as [F1 E1]. destruct (f32_of_exact y e ltac:(lia) He) as [F2 E2].
  split; [split; (split; [assumption|eauto])|]. unfold real_point, gp; cbn [vx vy]. now rewrite E1, E2.
Qed.

(** A point on a slanted segment and a point off it by a unit, near the ends. *)
Example C89_example :
  Forall (grid_le 6 (-5)) [gp (-5) (-6) (-3); gp (-5) 6 3; gp (-5) 4 2; gp (-5) 5 3] /\
  is_on_line_segment (O := FO lm0) (gp (-5) (-6) (-3)) (gp (-5) 6 3) (gp (-5) 4 2) false = true /\
  is_on_line_segment (O := FO lm0) (gp (-5) (-6) (-3)) (gp (-5) 6 3) (gp (-5) 5 3) false = false.
Proof.
  split; [repeat constructor; apply gp_grid; lia|]. split; vm_compute; reflexivity.
Qed.

(** On integers it fails: (2, 1) is on the segment from (0, 0) to (6, 3). *)
Theorem C89_fails_on_integers :
  on_segment (real_point (xy 0 0)) (real_point (xy 6 3)) (real_point (xy 2 1)) /\
  forall i, is_on_line_segment (O := FO lm0) (xy 0 0) (xy 6 3) (xy 2 1) i = false.
Proof.
  split.
  - change real_point with toR. rewrite !toR_xy by lia. exists (/ 3). split; [lra|]. unfold along; cbn [vx vy]. f_equal; field.
  - intros []; vm_compute; reflexivity.
Qed.
Print Assumptions C89_fails_on_integers.

(** Two segments that cross in a grid point, on a grid of at most 12 units across: the
    computed point is exactly that point. *)
Theorem C89_grid_crossing_exact :
  forall lm e a b c d p, (-22 <= e <= 51)%Z -> grid_le 6 e a -> grid_le 6 e b -> grid_le 6 e c -> grid_le 6 e d ->
  cross (real_point a) (real_point b) (real_point c) (real_point d) <> 0 ->
  on_segment (real_point a) (real_point b) p -> on_segment (real_point c) (real_point d) p ->
  (exists m n, p = P2 (IZR m * bpow radix2 e) (IZR n * bpow radix2 e)) ->
  exists q, calculate_line_segment_intersection (O := FO lm) a b c d = Some q /\ real_point q = p.
Proof.
  intros lm e a b c d p He Ga Gb Gc Gd N O1 O2 (m & n & Ep).
  destruct (grid_cross lm e He a b c d Ga Gb Gc Gd) as [E _].
  { intros p' _ O1' O2'. exists (m, n). cbn [fst snd]. rewrite <- Ep.
    apply (meet_once (toR a) (toR b) (toR c) (toR d)); [exact N|now apply on_cross..]. }
  assert (X : calculate_line_segment_intersection (O := XO) (xp (toR a)) (xp (toR b)) (xp (toR c)) (xp (toR d)) = Some (xp p)).
  { apply segment_intersection_spec. exists p. auto. }
  unfold up in E. rewrite X in E. destruct (calculate_line_segment_intersection (O := FO lm) a b c d) as [q|]; [|discriminate].
  exists q. split; [reflexivity|]. cbn [option_map] in E. injection E. intros Y1 Y2.
  destruct p as [p1 p2]. change (real_point q) with (toR q). unfold toR; cbn [vx vy] in *. congruence.
Qed.
Print Assumptions C89_grid_crossing_exact.

(** Computed crossings with their values. *)
Lemma crossing_value : forall lm a b c d x y,
  option_map (fun q => (B2SF (vx q), B2SF (vy q))) (calculate_line_segment_intersection (O := FO lm) a b c d) = Some (x, y) ->
  exists q, calculate_line_segment_intersection (O := FO lm) a b c d = Some q /\ real_point q = P2 (SF2R radix2 x) (SF2R radix2 y).
Proof.
  intros lm a b c d x y H. destruct (calculate_line_segment_intersection (O := FO lm) a b c d) as [q|]; [|discriminate].
  exists q. split; [reflexivity|]. cbn [option_map] in H. injection H as <- <-. unfold real_point. now rewrite !SF2R_B2SF.
Qed.

Example C89_crossing_example :
  let a := xy (-6) (-6) in let b := xy 6 6 in let c := xy 6 (-4) in let d := xy (-4) 6 in
  Forall (grid_le 6 0) [a; b; c; d] /\
  exists q, calculate_line_segment_intersection (O := FO lm0) a b c d = Some q /\ real_point q = P2 1 1.
Proof.
  cbv zeta. split; [repeat constructor; apply xy_grid_le; lia|].
  destruct (crossing_value lm0 (xy (-6) (-6)) (xy 6 6) (xy 6 (-4)) (xy (-4) 6) (SpecFloat.S754_finite false 8388608 (-23)) (SpecFloat.S754_finite false 8388608 (-23))) as (q & E & V).
  { vm_compute. reflexivity. }
  exists q. split; [exact E|]. rewrite V. f_equal; vm_compute; lra.
Qed.

(** At 13 units it fails: (-6, 0)-(7, 0) meets (1, -1)-(1, 1) in (1, 0), computed elsewhere. *)
Theorem C89_crossing_fails_at_13 :
  let a := xy (-6) 0 in let b := xy 7 0 in let c := xy 1 (-1) in let d := xy 1 1 in
  exists q, calculate_line_segment_intersection (O := FO lm0) a b c d = Some q /\ real_point q <> real_point (xy 1 0) /\
    on_segment (real_point a) (real_point b) (real_point (xy 1 0)) /\ on_segment (real_point c) (real_point d) (real_point (xy 1 0)).
Proof.
  cbv zeta. destruct (crossing_value lm0 (xy (-6) 0) (xy 7 0) (xy 1 (-1)) (xy 1 1) (SpecFloat.S754_finite false 8388612 (-23)) (SpecFloat.S754_zero false)) as (q & E & V).
  { vm_compute. reflexivity. }
  exists q. split; [exact E|]. split.
  - rewrite V. change real_point with toR. rewrite toR_xy by lia. intros Q. injection Q. vm_compute. lra.
  - change real_point with toR. rewrite !toR_xy by lia. split.
    + exists (7 / 13). split; [lra|]. unfold along; cbn [vx vy]. f_equal; field.
    + exists (/ 2). split; [lra|]. unfold along; cbn [vx vy]. f_equal; field.
Qed.
Print Assumptions C89_crossing_fails_at_13.

(** ** C90: histories that draw on such grids are exact

    [drawable e S]: S is "horizontal or vertical" and -19 <= e <= 51, or S is the set of
    box pleating segments (also diagonals at even offsets) and -9 <= e <= -5.
    [draws dT G S g os]: the history os adds nodes at points of G and edges between
    different nodes along S.  [exact_graph], [exact_op]: the same graph and call with the
    real values of the coordinates. *)
Theorem C90_histories_exact :
  forall lm e S (T U : Type) (dT : T) os, drawable e S ->
  draws (lm := lm) (U := U) dT (grid_le 6 e) S graph_new os ->
  run dT graph_new (map exact_op os) =
    match run dT graph_new os with Ok g => Ok (exact_graph g) | Panic => Panic end.
Proof.
  intros lm e S T U dT os HS D. destruct (drawable_ok e S HS) as (He & H1 & H2 & H3).
  exact (proj1 (fam_run lm e He dT S (H1 lm) H2 H3 os graph_new (new_inside _ _) D)).
Qed.
Print Assumptions C90_histories_exact.

(** Also every single call after such a history gives the same answer. *)
Theorem C90_calls_exact :
  forall lm e S (T U : Type) (dT : T) os (g : PlanarGraph (FO lm) T U), drawable e S ->
  draws dT (grid_le 6 e) S graph_new os -> run dT graph_new os = Ok g ->
  (forall n, In n (nodes g) -> grid_le 6 e (position n)) /\
  (forall p d g' r, grid_le 6 e p -> add_node g p d = Ok (g', r) ->
     add_node (exact_graph g) (xp (real_point p)) d = Ok (exact_graph g', r)) /\
  (forall s d u g' r, draws_op (grid_le 6 e) S g (OAddEdge s d u) -> add_edge dT g s d u = Ok (g', r) ->
     add_edge dT (exact_graph g) s d u = Ok (exact_graph g', r)) /\
  (forall i g' r, remove_node g i = Ok (g', r) -> remove_node (exact_graph g) i = Ok (exact_graph g', r)) /\
  (forall i g' r, remove_edge g i = Ok (g', r) -> remove_edge (exact_graph g) i = Ok (exact_graph g', r)).
Proof.
  intros lm e S T U dT os g HS D R. destruct (drawable_ok e S HS) as (He & H1 & H2 & H3).
  pose proof (proj2 (fam_run lm e He dT S (H1 lm) H2 H3 os graph_new (new_inside _ _) D) g R) as I.
  split; [|split; [|split; [|split]]].
  - destruct I as (_ & _ & OG & _). apply Forall_forall. exact OG.
  - intros p d g' r Gp H. destruct (fam_add_node lm e He S (H1 lm) H3 g p d I Gp) as [E _]. rewrite E, H. reflexivity.
  - intros s d u g' r Dd H. destruct (fam_add_edge lm e He dT S (H1 lm) H2 H3 g s d u I Dd) as [E _]. rewrite E, H. reflexivity.
  - intros i g' r H. rewrite fam_remove_node, H. reflexivity.
  - intros i g' r H. rewrite fam_remove_edge, H. reflexivity.
Qed.
Print Assumptions C90_calls_exact.

(** Noughts and crosses on the integers: four lines, four crossings. *)
Definition ttt : list (@op (FO lm0) nat nat) :=
  map (fun p : Vec2 (FO lm0) => OAddNode p 7%nat) [xy (-6) (-2); xy 6 (-2); xy (-6) 2; xy 6 2; xy (-2) (-6); xy (-2) 6; xy 2 (-6); xy 2 6] ++
  [OAddEdge 0 1 1%nat; OAddEdge 2 3 2%nat; OAddEdge 4 5 3%nat; OAddEdge 6 7 4%nat; ORemoveEdge 2].
(** A square with its diagonals and a further line, box pleated. *)
Definition pleats : list (@op (FO lm0) nat nat) :=
  map (fun p : Vec2 (FO lm0) => OAddNode p 7%nat) [gp (-5) (-4) (-4); gp (-5) 4 (-4); gp (-5) 4 4; gp (-5) (-4) 4; gp (-5) (-6) 2; gp (-5) 6 2] ++
  [OAddEdge 0 1 1%nat; OAddEdge 1 2 2%nat; OAddEdge 2 3 3%nat; OAddEdge 3 0 4%nat; OAddEdge 0 2 5%nat; OAddEdge 1 3 6%nat; OAddEdge 4 5 7%nat].

Definition size {T U} (r : res (PlanarGraph (FO lm0) T U)) : nat * nat :=
  match r with Ok g => (node_count g, edge_count g) | Panic => (0, 0)%nat end.
Example C90_example :
  drawable 0 axis /\ draws 0%nat (grid_le 6 0) axis graph_new ttt /\
  size (run 0%nat graph_new (firstn 12 ttt)) = (12, 12)%nat /\ size (run 0%nat graph_new ttt) = (11, 11)%nat.
Proof.
  split; [left; split; [lia|reflexivity]|]. split.
  - apply (drawsb_ok 0%nat 0 ltac:(lia) axis axisb (axisb_ok 0)). vm_compute. reflexivity.
  - split; vm_compute; reflexivity.
Qed.
Example C90_example_pleats :
  drawable (-5) (pleat (-5)) /\ draws 0%nat (grid_le 6 (-5)) (pleat (-5)) graph_new pleats /\
  size (run 0%nat graph_new pleats) = (11, 17)%nat.
Proof.
  split; [right; split; [lia|reflexivity]|]. split.
  - apply (drawsb_ok 0%nat (-5) ltac:(lia) (pleat (-5)) pleatb (pleatb_ok (-5))). vm_compute. reflexivity.
  - vm_compute; reflexivity.
Qed.

(** ** C91: and yield planar drawings in f32

    [clears dT g os]: every requested edge exists already, has a missing end, or passes no
    node and meets the edges in inner points that are on one edge only.  [places g] are
    the points of the nodes, [covers] the picture (PlanarSpec.v). *)
Theorem C91_planar :
  forall lm e S (T U : Type) (dT : T) os (g : PlanarGraph (FO lm) T U), drawable e S ->
  draws dT (grid_le 6 e) S graph_new os -> clears dT graph_new os -> run dT graph_new os = Ok g ->
  planar_f32 g /\ no_parallel g /\ no_loops g /\
  (forall i j, (i < node_count g)%nat -> (j < node_count g)%nat -> i <> j -> pt (places g) i <> pt (places g) j).
Proof.
  intros lm e S T U dT os g HS D C R. destruct (drawable_ok e S HS) as (He & H1 & H2 & H3).
  destruct (fam_planar lm e He dT S (H1 lm) H2 H3 os graph_new g (new_inside _ _) (proj2 (@empty_drawn T U)) D C R) as [I W].
  exact (fam_planar_f32 lm e S g I W).
Qed.
Print Assumptions C91_planar.

(** A clear edge adds exactly its segment to the picture, and the report is exact. *)
Theorem C91_edge :
  forall lm e S (T U : Type) (dT : T) os (g g' : PlanarGraph (FO lm) T U) s d u ns es, drawable e S ->
  draws dT (grid_le 6 e) S graph_new os -> clears dT graph_new os -> run dT graph_new os = Ok g ->
  draws_op (grid_le 6 e) S g (OAddEdge s d u) -> clear_path g s d -> ~ adjacent g s d ->
  (s < node_count g)%nat -> (d < node_count g)%nat -> add_edge dT g s d u = Ok (g', AddOk ns es) ->
  (forall x, covers (places g') (edges g') x <-> covers (places g) (edges g) x \/ on_segment (pt (places g) s) (pt (places g) d) x) /\
  (forall i, In i es <-> (i < edge_count g')%nat /\ get_edge g' i <> get_edge g i) /\
  (forall k, In k ns <-> (node_count g <= k < node_count g')%nat).
Proof.
  intros lm e S T U dT os g g' s d u ns es HS D C R Do Cp NA Ls Ld H. destruct (drawable_ok e S HS) as (He & H1 & H2 & H3).
  destruct (fam_planar lm e He dT S (H1 lm) H2 H3 os graph_new g (new_inside _ _) (proj2 (@empty_drawn T U)) D C R) as [I W].
  destruct (fam_edge_picture lm e He dT S (H1 lm) H2 H3 g g' s d u _ I W Do Cp NA Ls Ld H) as [P Q].
  destruct (Q ns es eq_refl) as (Q1 & Q2 & _). auto.
Qed.
Print Assumptions C91_edge.

(** A node added at a grid point leaves the picture as it is; the reported node stands
    exactly there. *)
Theorem C91_node :
  forall lm e S (T U : Type) (dT : T) os (g g' : PlanarGraph (FO lm) T U) p d i ces, drawable e S ->
  draws dT (grid_le 6 e) S graph_new os -> clears dT graph_new os -> run dT graph_new os = Ok g ->
  grid_le 6 e p -> add_node g p d = Ok (g', (i, ces)) ->
  (forall x, covers (places g') (edges g') x <-> covers (places g) (edges g) x) /\
  (i < node_count g')%nat /\ pt (places g') i = real_point p.
Proof.
  intros lm e S T U dT os g g' p d i ces HS D C R Gp H. destruct (drawable_ok e S HS) as (He & H1 & H2 & H3).
  destruct (fam_planar lm e He dT S (H1 lm) H2 H3 os graph_new g (new_inside _ _) (proj2 (@empty_drawn T U)) D C R) as [I W].
  exact (fam_node_picture lm e He S (H1 lm) H3 g g' p d i ces I W Gp H).
Qed.
Print Assumptions C91_node.

Example C91_example : clears 0%nat graph_new ttt /\ clears 0%nat graph_new pleats.
Proof.
  split.
  - apply (clearsb_ok 0%nat 0 ltac:(lia)). vm_compute. reflexivity.
  - apply (clearsb_ok 0%nat (-5) ltac:(lia)). vm_compute. reflexivity.
Qed.
