(** * Properties C128-C131: the code does not depend on where in the plane a drawing lies, or
    how it is turned.

    [move_graph f g], [move_op f o], [move_poly f p] (IsoSpec.v): the same graph, call or
    polygon with every point replaced by its image under f; [move_out f], [tri_moved f]: the
    outcome of a history or of triangulate with the points in it moved, answers unchanged. *)
From Coq Require Import ZArith Reals Lia Lra List Bool Arith Psatz.
From Flocq Require Import Core.Core IEEE754.BinarySingleNaN.
From Verif Require Import Scalar Utils Polygon Graph GraphSpec PlaneSpec PolySpec SimSpec Laws F32 UtilsReal GraphDemo PolyArea PolyF32 GridSpec PolyNewF32
  IsoSpec MoveSim IsoReal SymF32 SymMove PolyMove PolyIso Properties_Polygon Properties_Grid Properties_GridGraph Properties_Simple.
Import ListNotations.
Local Open Scope R_scope.

(** ** C128: exact arithmetic, all isometries of the plane (translations, rotations,
    reflections, glide reflections: any map that keeps distances). *)
Theorem C128_histories :
  forall f, isometry f -> forall (T U : Type) (dT : T) os (g : PlanarGraph XO T U),
  calls dT (move_graph (on_reals f) g) (map (move_op (on_reals f)) os) = move_out (on_reals f) (calls dT g os).
Proof. exact iso_calls. Qed.
Print Assumptions C128_histories.

Theorem C128_calls :
  forall f, isometry f -> forall (T U : Type) (dT : T) (g : PlanarGraph XO T U),
  (forall p d, add_node (move_graph (on_reals f) g) (on_reals f p) d = move_out (on_reals f) (add_node g p d)) /\
  (forall s d u, add_edge dT (move_graph (on_reals f) g) s d u = move_out (on_reals f) (add_edge dT g s d u)) /\
  (forall i, remove_node (move_graph (on_reals f) g) i = move_out (on_reals f) (remove_node g i)) /\
  (forall i, remove_edge (move_graph (on_reals f) g) i = move_out (on_reals f) (remove_edge g i)).
Proof.
  intros f I T U dT g. pose proof (reals_dist f I) as D. pose proof (iso_cross f I) as C.
  split; [|split; [|split]]; intros.
  - now apply mv_add_node. - now apply mv_add_edge. - apply mv_remove_node. - apply mv_remove_edge.
Qed.
Print Assumptions C128_calls.

(** A turn by the angle of the 3-4-5 triangle with a reflection and a shift, of noughts and
    crosses (C90): four crossings, 12 nodes and 12 edges, then one edge removed. *)
Definition turn345 : point -> point := affine (3 / 5) (4 / 5) (4 / 5) (- 3 / 5) (1 / 7) (- 100).
Lemma run_calls : forall (O : Ops) (T U : Type) (dT : T) os (g g' : PlanarGraph O T U), run dT g os = Ok g' ->
  exists l, calls dT g os = Ok (g', l).
Proof.
  intros O T U dT. induction os as [|o os IH]; intros g g' H; cbn [run calls] in *.
  - injection H as <-. now exists [].
  - assert (E : step dT g o = match call dT g o with Ok (g1, _) => Ok g1 | Panic => Panic end).
    { destruct o as [p d|s d u|i|i]; cbn [step call].
      - now destruct (add_node g p d) as [[g1 [i es]]|]. - now destruct (add_edge dT g s d u) as [[g1 r]|].
      - now destruct (remove_node g i) as [[g1 [ns es]]|]. - now destruct (remove_edge g i) as [[g1 [ns es]]|]. }
    rewrite E in H. destruct (call dT g o) as [[g1 a]|]; cbn [bind] in *; [|discriminate].
    destruct (IH g1 g' H) as (l & ->). now exists (a :: l).
Qed.
Example C128_example : isometry turn345 /\
  exists g l, run 0%nat graph_new ttt = Ok g /\ node_count g = 11%nat /\
    calls 0%nat graph_new (map (move_op (on_reals turn345)) (map exact_op ttt)) = Ok (move_graph (on_reals turn345) (exact_graph g), l).
Proof.
  assert (I : isometry turn345).
  { intros p q. unfold dist, turn345, affine; cbn [vx vy]. f_equal. field. }
  split; [exact I|]. pose proof C90_example as (D1 & D2 & _ & S).
  pose proof (C90_histories_exact lm0 0 axis nat nat 0%nat ttt D1 D2) as E.
  destruct (run 0%nat graph_new ttt) as [g|]; [|discriminate]. cbn [size] in S. injection S as S _.
  destruct (run_calls _ _ _ _ _ _ _ E) as (l & L). exists g, l. split; [reflexivity|]. split; [exact S|].
  change graph_new with (move_graph (on_reals turn345) (graph_new (O := XO) (T := nat) (U := nat))) at 1.
  rewrite (C128_histories turn345 I), L. reflexivity.
Qed.

(** ** C129: f32, bit for bit, the eight symmetries of the square (zero coordinates become
    +0; NaN, infinities and -0 in the input allowed). *)
Theorem C129_histories :
  forall lm (s : sym8) (T U : Type) (dT : T) os (g : PlanarGraph (FO lm) T U),
  calls dT (move_graph (sym_point s : Vec2 (FO lm) -> Vec2 (FO lm)) g) (map (move_op (sym_point s : Vec2 (FO lm) -> Vec2 (FO lm))) os) =
  move_out (sym_point s : Vec2 (FO lm) -> Vec2 (FO lm)) (calls dT g os).
Proof. exact sym_calls. Qed.
Print Assumptions C129_histories.

Theorem C129_calls :
  forall lm (s : sym8) (T U : Type) (dT : T) (g : PlanarGraph (FO lm) T U),
  let f := sym_point s : Vec2 (FO lm) -> Vec2 (FO lm) in
  (forall p d, add_node (move_graph f g) (f p) d = move_out f (add_node g p d)) /\
  (forall s d u, add_edge dT (move_graph f g) s d u = move_out f (add_edge dT g s d u)) /\
  (forall i, remove_node (move_graph f g) i = move_out f (remove_node g i)) /\
  (forall i, remove_edge (move_graph f g) i = move_out f (remove_edge g i)).
Proof.
  intros lm s T U dT g f. pose proof (sym_dist lm s) as D. pose proof (sym_cross lm s) as C.
  split; [|split; [|split]]; intros.
  - now apply mv_add_node. - now apply mv_add_edge. - apply mv_remove_node. - apply mv_remove_edge.
Qed.
Print Assumptions C129_calls.

(** In particular -0 and +0 are not told apart: the identity symmetry replaces -0 by +0. *)
Theorem C129_zero_sign :
  forall lm (T U : Type) (dT : T) os (g : PlanarGraph (FO lm) T U),
  let f := sym_point (Sym8 false false false) : Vec2 (FO lm) -> Vec2 (FO lm) in
  (forall x y : f32, f (P2 x y) = P2 (match x with B754_zero _ => B754_zero false | _ => x end) (match y with B754_zero _ => B754_zero false | _ => y end)) /\
  calls dT (move_graph f g) (map (move_op f) os) = move_out f (calls dT g os).
Proof. intros lm T U dT os g f. split; [|apply sym_calls]. intros [?|?| |? ? ? ?] [?|?| |? ? ? ?]; reflexivity. Qed.
Print Assumptions C129_zero_sign.

(** Neither a translation nor a scaling is such a symmetry: moved by 2^24, or scaled by
    2^-24, two nodes become one. *)
Definition two_nodes : list (@op (FO lm0) nat nat) := [OAddNode (xy 0 0) 7%nat; OAddNode (xy 1 0) 8%nat].
Definition moved_24 (p : Vec2 (FO lm0)) : Vec2 (FO lm0) := p_add p (xy 16777216 0).
Definition scaled_24 (p : Vec2 (FO lm0)) : Vec2 (FO lm0) := p_scale p (f32_of 1 (-24)).
Definition nodes_after (os : list (@op (FO lm0) nat nat)) : nat :=
  match calls 0%nat graph_new os with Ok (g, _) => node_count g | Panic => 0%nat end.
Theorem C129_fails_at_translation_and_scaling :
  nodes_after two_nodes = 2%nat /\ nodes_after (map (move_op moved_24) two_nodes) = 1%nat /\
  nodes_after (map (move_op scaled_24) two_nodes) = 1%nat.
Proof. repeat split; vm_compute; reflexivity. Qed.

(** Two segments that cross off the grid; turned by 90 degrees (counterclockwise). *)
Definition off_grid : list (@op (FO lm0) nat nat) :=
  map (fun p : Vec2 (FO lm0) => OAddNode p 7%nat) [P2 (f32_of 1 (-3)) (f32_of 3 (-4)); P2 (f32_of 7 (-3)) (f32_of 11 (-4)); P2 (f32_of 13 (-4)) (B754_zero true); P2 (f32_of 1 (-2)) (f32_of 1 0)] ++
  [OAddEdge 0 1 1%nat; OAddEdge 2 3 2%nat].
Definition quarter : sym8 := Sym8 true true false.
Example C129_example :
  (forall x y : f32, is_finite_strict x = true -> is_finite_strict y = true -> sym_point quarter (P2 x y) = P2 (Bopp y) x) /\
  match calls 0%nat (graph_new (O := FO lm0)) (map (move_op (sym_point quarter : Vec2 (FO lm0) -> Vec2 (FO lm0))) off_grid) with
  | Ok (g, l) => (node_count g, edge_count g, match nth_error l 5 with Some (EdgeDone (AddOk ns _)) => ns | _ => [] end) = (5, 4, [4])%nat
  | Panic => False
  end.
Proof.
  split; [|vm_compute; reflexivity].
  intros [?|?| |? ? ? ?] [?|?| |? ? ? ?]; try discriminate; reflexivity.
Qed.

(** ** C130: polygons, exact arithmetic, affine maps
    [affine a b c d e h]: x -> a x + b y + e, y -> c x + d y + h, of determinant ad - bc. *)
Theorem C130_triangulate :
  forall a b c d e h, 0 < a * d - b * c -> forall fuel (p : Polygon R), NoDup (vertices p) ->
  triangulate (O := RO) fuel (move_poly (O := RO) (affine a b c d e h) p) =
  tri_moved (O := RO) (affine a b c d e h) (triangulate (O := RO) fuel p).
Proof. exact af_triangulate. Qed.
Print Assumptions C130_triangulate.

Theorem C130_new_and_area :
  forall a b c d e h (vs : list point),
  (0 < a * d - b * c -> polygon_new (O := RO) (map (affine a b c d e h) vs) =
     option_map (move_poly (O := RO) (affine a b c d e h)) (polygon_new (O := RO) vs)) /\
  (a * d - b * c < 0 -> shoelace vs <> 0 -> forall p, polygon_new (O := RO) vs = Some p ->
     polygon_new (O := RO) (map (affine a b c d e h) vs) = Some (MkPolygon (rev (map (affine a b c d e h) (vertices p))))) /\
  @eq R (polygon_area (O := RO) (MkPolygon (map (affine a b c d e h) vs))) (Rabs (a * d - b * c) * polygon_area (O := RO) (MkPolygon vs)).
Proof.
  intros a b c d e h vs. split; [|split].
  - intros D. now apply af_new.
  - intros D N p H. apply af_mirror; [exact D| |exact H]. intros Z. apply N. rewrite <- area_poly2_shoelace. exact Z.
  - unfold polygon_area. cbn [vertices]. rewrite af_area. cbn [oabs omul chalf RO]. rewrite Rabs_mult. ring.
Qed.
Print Assumptions C130_new_and_area.

(** The transforms of the crate: triangulating after translate or uniform_scale gives the
    translated or scaled triangles, for all polygons. *)
Theorem C130_transforms :
  forall fuel (p : Polygon R),
  (forall t : point, triangulate (O := RO) fuel (polygon_translate (O := RO) p t) =
     match triangulate (O := RO) fuel p with
     | Some (Ok ts) => Some (Ok (map (fun q => polygon_translate (O := RO) q t) ts))
     | r => r
     end) /\
  (forall s : R, s <> 0 -> triangulate (O := RO) fuel (polygon_uniform_scale (O := RO) p s) =
     match triangulate (O := RO) fuel p with
     | Some (Ok ts) => Some (Ok (map (fun q => polygon_uniform_scale (O := RO) q s) ts))
     | r => r
     end).
Proof.
  intros fuel p. split.
  - intros t. assert (E : forall q, polygon_translate (O := RO) q t = move_poly (O := RO) (affine 1 0 0 1 (vx t) (vy t)) q).
    { intros q. unfold polygon_translate, move_poly. f_equal. apply map_ext. intros v. unfold p_add, affine. cbn. f_equal; ring. }
    rewrite E, axis_triangulate by lra. destruct (triangulate (O := RO) fuel p) as [[ts|]|]; cbn [tri_moved]; try reflexivity.
    f_equal. f_equal. apply map_ext. intros q. symmetry. apply E.
  - intros s Hs. assert (E : forall q, polygon_uniform_scale (O := RO) q s = move_poly (O := RO) (affine s 0 0 s 0 0) q).
    { intros q. unfold polygon_uniform_scale, move_poly. f_equal. apply map_ext. intros v. unfold p_scale, affine. cbn. f_equal; ring. }
    rewrite E, axis_triangulate by nra. destruct (triangulate (O := RO) fuel p) as [[ts|]|]; cbn [tri_moved]; try reflexivity.
    f_equal. f_equal. apply map_ext. intros q. symmetry. apply E.
Qed.
Print Assumptions C130_transforms.

(** Repeated vertices can make a difference: between a and a the code compares only the
    y coordinates, so turning by 90 degrees changes the answer. *)
Theorem C130_fails_at_repeated_points :
  exists a c : point, between (O := RO) a a c = true /\
    between (O := RO) (affine 0 (-1) 1 0 0 0 a) (affine 0 (-1) 1 0 0 0 a) (affine 0 (-1) 1 0 0 0 c) = false.
Proof.
  exists (P2 0 0), (P2 1 0). unfold between, collinear, area2, affine. cbn. unfold Reqb, Rleb.
  repeat match goal with
  | |- context [Req_EM_T ?x ?y] => destruct (Req_EM_T x y); try (exfalso; lra)
  | |- context [Rle_dec ?x ?y] => destruct (Rle_dec x y); try (exfalso; lra)
  end; split; reflexivity.
Qed.

Example C130_example : NoDup arrow /\ 0 < 2 * 3 - 1 * 1 /\
  exists ts, triangulate (O := RO) 5 (MkPolygon arrow) = Some (Ok ts) /\ length ts = 3%nat /\
    triangulate (O := RO) 5 (move_poly (O := RO) (affine 2 1 1 3 (-7) 5) (MkPolygon arrow)) =
      Some (Ok (map (move_poly (O := RO) (affine 2 1 1 3 (-7) 5)) ts)).
Proof.
  assert (N : NoDup arrow).
  { unfold arrow. repeat constructor; cbn [In]; intros H; repeat (destruct H as [H|H]; [injection H; intros; lra|]); exact H. }
  split; [exact N|]. split; [lra|]. destruct C77_example as (ts & R & L & _). exists ts. split; [exact R|]. split; [exact L|].
  rewrite (C130_triangulate 2 1 1 3 (-7) 5 ltac:(lra) 5 (MkPolygon arrow) N), R. reflexivity.
Qed.

(** ** C131: polygons in f32, bit for bit *)
(** Half a turn, any polygon whatever (also NaN, repeated vertices, rounding in the
    predicates). *)
Theorem C131_half_turn :
  forall lm, let f := sym_point (Sym8 false true true) : Vec2 (FO lm) -> Vec2 (FO lm) in
  forall fuel (p : Polygon (FO lm)), triangulate fuel (move_poly f p) = tri_moved f (triangulate fuel p).
Proof. exact half_triangulate. Qed.
Print Assumptions C131_half_turn.

(** Quarter turns: the orientation predicates and Polygon::new always, triangulate on the
    grid of C39 with different vertices. *)
Theorem C131_quarter_turns :
  forall lm s, turns s = true -> let f := sym_point s : Vec2 (FO lm) -> Vec2 (FO lm) in
  (forall a b c, left (f a) (f b) (f c) = left a b c /\ left_on (f a) (f b) (f c) = left_on a b c /\
     collinear (f a) (f b) (f c) = collinear a b c) /\
  (forall a b c d, intersect_prop (f a) (f b) (f c) (f d) = intersect_prop a b c d) /\
  (forall vs, polygon_new (map f vs) = option_map (move_poly f) (polygon_new vs)) /\
  (forall e, (-74 <= e <= 51)%Z -> forall fuel (p : Polygon (FO lm)), Forall (grid e) (vertices p) -> NoDup (map toR (vertices p)) ->
     triangulate fuel (move_poly f p) = tri_moved f (triangulate fuel p)).
Proof.
  intros lm s T f. apply turns_even in T. split; [|split; [|split]].
  - intros a b c. split; [now apply turn_left|]. split; [now apply turn_left_on|now apply turn_collinear].
  - intros. now apply turn_prop.
  - now apply turn_new.
  - intros e He fuel p G N. now apply (turn_triangulate lm e He s T).
Qed.
Print Assumptions C131_quarter_turns.

(** The area is the same bit for bit under all eight symmetries. *)
Theorem C131_area :
  forall lm s (p : Polygon (FO lm)), polygon_area (move_poly (sym_point s : Vec2 (FO lm) -> Vec2 (FO lm)) p) = polygon_area p.
Proof. exact sym_polygon_area. Qed.
Print Assumptions C131_area.

(** Off the grid a quarter turn can change the answer of [between]: here the rounded area is
    0 and the code compares x coordinates before the turn, y coordinates after it. *)
Theorem C131_fails_at_between_off_the_grid :
  exists a b c : Vec2 (FO lm0), let f := sym_point quarter : Vec2 (FO lm0) -> Vec2 (FO lm0) in
  between a b c = true /\ between (f a) (f b) (f c) = false.
Proof.
  exists (xy 0 0), (P2 (f32_of 12582912 (-23)) (f32_of 12582914 (-23))), (P2 (f32_of 12582912 (-23)) (f32_of 12582915 (-23))).
  split; vm_compute; reflexivity.
Qed.

Example C131_example : turns quarter = true /\
  let p := MkPolygon [xy 0 0; xy 2 (-1); xy 4 (-2); xy 1 0; xy 4 2] : Polygon (FO lm0) in
  Forall (grid 0) (vertices p) /\ NoDup (map toR (vertices p)) /\
  exists ts, triangulate 5 p = Some (Ok ts) /\ length ts = 3%nat.
Proof.
  split; [reflexivity|]. cbv zeta. cbn [vertices].
  assert (G : Forall (grid 0) [xy 0 0; xy 2 (-1); xy 4 (-2); xy 1 0; xy 4 2]) by (repeat (apply Forall_cons; [apply (grid_le_grid 4); [lia|apply xy_grid_le; lia]|]); apply Forall_nil).
  assert (E : map toR [xy 0 0; xy 2 (-1); xy 4 (-2); xy 1 0; xy 4 2] = arrow) by (unfold arrow; cbn [map]; rewrite !toR_xy by lia; reflexivity).
  split; [exact G|]. split; [rewrite E; apply C130_example|].
  destruct (C77_tiling_f32 lm0 0 ltac:(lia) (MkPolygon [xy 0 0; xy 2 (-1); xy 4 (-2); xy 1 0; xy 4 2]) G) as (ts & R & L & _).
  - cbn [vertices]. rewrite E. exact arrow_simple.
  - cbn [vertices]. rewrite E, arrow_area. lra.
  - exists ts. split; [apply R; cbn; lia|exact L].
Qed.
