(** * C30-C39, C62-C65: geometry/polygon.rs.

    [RO] is exact real arithmetic, [FO lm] is f32. *)
From Coq Require Import List Arith Bool Lia Reals Lra ZArith Psatz.
From Flocq Require Import Core.Core IEEE754.BinarySingleNaN.
From Verif Require Import Scalar Utils Polygon ListSpec PlaneSpec PolySpec F32 Laws UtilsReal
  PolyArea PolyRegular PolyDiag PolyTri PolyConvex PolyF32 GraphDemo.
Import ListNotations.
Local Open Scope R_scope.
Local Notation cross := PlaneSpec.cross.

(** ** C30 *)
Theorem C30_orientation :
  forall a b c : point,
  @eq R (area2 (O := RO) a b c) (cross a b a c) /\
  (left (O := RO) a b c = true <-> 0 < cross a b a c) /\
  (left_on (O := RO) a b c = true <-> 0 <= cross a b a c) /\
  (collinear (O := RO) a b c = true <-> cross a b a c = 0).
Proof.
  intros a b c. split; [apply area2_cross|].
  split; [apply left_iff|]. split; [apply left_on_iff|apply collinear_iff].
Qed.
Print Assumptions C30_orientation.

(** [cross a b a c] is base times signed height: twice the area of the triangle. *)
Theorem C30_area2_is_double_area :
  forall a b c : point,
  (2 * Rabs (area2 (O := RO) a b c)) * (2 * Rabs (area2 (O := RO) a b c)) =
  (dist a b + dist b c + dist c a) * (- dist a b + dist b c + dist c a) *
  (dist a b - dist b c + dist c a) * (dist a b + dist b c - dist c a).
Proof.
  intros a b c. rewrite area2_cross.
  replace (2 * Rabs (cross a b a c) * (2 * Rabs (cross a b a c))) with (4 * (Rabs (cross a b a c) * Rabs (cross a b a c))) by ring.
  rewrite <- Rabs_mult, (Rabs_pos_eq (cross a b a c * cross a b a c)) by nra.
  pose proof (dist_sq a b) as S1. pose proof (dist_sq b c) as S2. pose proof (dist_sq c a) as S3.
  transitivity (2 * (dist a b * dist a b) * (dist b c * dist b c) + 2 * (dist b c * dist b c) * (dist c a * dist c a)
    + 2 * (dist c a * dist c a) * (dist a b * dist a b) - (dist a b * dist a b) * (dist a b * dist a b)
    - (dist b c * dist b c) * (dist b c * dist b c) - (dist c a * dist c a) * (dist c a * dist c a)); [|ring].
  rewrite S1, S2, S3. unfold PlaneSpec.cross. ring.
Qed.
Print Assumptions C30_area2_is_double_area.

Theorem C30_symmetries :
  forall (a b c t : point),
  @eq R (area2 (O := RO) (moved t a) (moved t b) (moved t c)) (area2 (O := RO) a b c) /\
  @eq R (area2 (O := RO) b c a) (area2 (O := RO) a b c) /\
  @eq R (area2 (O := RO) a c b) (- area2 (O := RO) a b c) /\
  @eq R (area2 (O := RO) b a c) (- area2 (O := RO) a b c) /\
  @eq R (area2 (O := RO) c b a) (- area2 (O := RO) a b c).
Proof. intros. rewrite !area2_cross. unfold PlaneSpec.cross, moved; simpl. repeat split; ring. Qed.
Print Assumptions C30_symmetries.

(** In f32, for all inputs (also NaN and infinities): b,c swapped gives the opposite sign. *)
Theorem C30_swap_f32 :
  forall lm (a b c : Vec2 (FO lm)),
  left a b c = olt (area2 a c b) c0 /\
  left_on a b c = ole (area2 a c b) c0 /\
  collinear a b c = collinear a c b.
Proof. exact area2_swap_f32. Qed.
Print Assumptions C30_swap_f32.

Example C30_example :
  left (xy 0 0) (xy 4 0) (xy 1 3) = true /\ left (xy 0 0) (xy 1 3) (xy 4 0) = false /\
  collinear (xy 0 0) (xy 1 3) (xy 2 6) = true /\ left_on (xy 0 0) (xy 1 3) (xy 2 6) = true.
Proof. repeat split; vm_compute; reflexivity. Qed.

(** ** C31 *)
Theorem C31_between :
  forall a b c : point, a <> b -> between (O := RO) a b c = true <-> on_segment a b c.
Proof. exact between_iff. Qed.
Print Assumptions C31_between.

Theorem C31_intersect_prop :
  forall a b c d : point, intersect_prop (O := RO) a b c d = true <-> proper_crossing a b c d.
Proof. exact intersect_prop_iff. Qed.
Print Assumptions C31_intersect_prop.

Theorem C31_intersect :
  forall a b c d : point, a <> b -> c <> d ->
  intersect (O := RO) a b c d = true <-> segments_meet a b c d.
Proof. exact intersect_iff. Qed.
Print Assumptions C31_intersect.

(** Degenerate segments: no common point is missed, but too much is reported. *)
Theorem C31_intersect_complete :
  forall a b c d : point, segments_meet a b c d -> intersect (O := RO) a b c d = true.
Proof. exact intersect_complete. Qed.
Print Assumptions C31_intersect_complete.

Theorem C31_degenerate_refuted :
  exists a c : point, between (O := RO) a a c = true /\ ~ on_segment a a c.
Proof.
  exists (P2 0 0), (P2 5 0). split.
  - unfold between, collinear, area2; simpl. unfold Reqb, Rleb.
    repeat match goal with |- context [Req_EM_T ?x ?y] => destruct (Req_EM_T x y); try lra end.
    repeat match goal with |- context [Rle_dec ?x ?y] => destruct (Rle_dec x y); try lra end; reflexivity.
  - intros (t & _ & E). unfold along in E. injection E as E _. simpl in E. lra.
Qed.
Print Assumptions C31_degenerate_refuted.

Example C31_example :
  proper_crossing (P2 0 0) (P2 2 2) (P2 0 2) (P2 2 0) /\
  intersect_prop (xy 0 0) (xy 2 2) (xy 0 2) (xy 2 0) = true /\
  intersect_prop (xy 0 0) (xy 2 2) (xy 1 1) (xy 2 0) = false /\
  intersect (xy 0 0) (xy 2 2) (xy 1 1) (xy 2 0) = true /\
  between (xy 0 0) (xy 2 2) (xy 1 1) = true /\ between (xy 0 0) (xy 2 2) (xy 3 3) = false.
Proof.
  split.
  - split; [unfold PlaneSpec.cross; simpl; lra|]. exists (/2), (/2). repeat split; try lra.
    unfold along; simpl. f_equal; lra.
  - repeat split; vm_compute; reflexivity.
Qed.

(** ** C32 and C62 *)
Theorem C32_new_exact :
  forall vs : list point,
  (polygon_new (O := RO) vs = None <-> (length vs < 3)%nat) /\
  (forall p, polygon_new (O := RO) vs = Some p ->
     (vertices p = vs \/ vertices p = rev vs) /\ 0 <= shoelace (vertices p)).
Proof.
  intros vs. split.
  - unfold polygon_new. match goal with |- context [Nat.ltb ?k 3] => destruct (Nat.ltb_spec k 3) as [L|L] end.
    + split; [intros _; exact L|reflexivity].
    + change (3 <= length vs)%nat in L. split; [|intros; lia]. destruct (olt _ _); discriminate.
  - intros p H. destruct (polygon_new_spec vs p H) as (H1 & H2 & _). now split.
Qed.
Print Assumptions C32_new_exact.

(** In f32 rounding can leave the reported signed area negative, whichever way the
    vertices are listed. *)
Theorem C32_new_f32_refuted :
  exists (vs : list (Vec2 F)) p, polygon_new vs = Some p /\
    olt (area_poly2 (vertices p)) c0 = true.
Proof.
  exists [P2 (f32_of 1023263 (-3)) (f32_of (-253343) (-1)); P2 (f32_of 7005609 (-6)) (f32_of (-16775311) (-7));
          P2 (f32_of (-6669009) (-4)) (f32_of (-8197971) (-5))].
  match goal with |- exists p, ?t = Some p /\ _ =>
    let o := constr:(match t with Some q => q | None => MkPolygon [] end) in exists o end.
  split; [|vm_compute; reflexivity].
  unfold polygon_new. cbn [length Nat.ltb Nat.leb]. destruct (olt _ _); reflexivity.
Qed.
Print Assumptions C32_new_f32_refuted.

Example C32_example :
  option_map (fun p => vertices p) (polygon_new [xy 0 0; xy 0 2; xy 2 0]) = Some [xy 2 0; xy 0 2; xy 0 0] /\
  option_map (fun p => vertices p) (polygon_new [xy 0 0; xy 2 0; xy 0 2]) = Some [xy 0 0; xy 2 0; xy 0 2] /\
  polygon_new [xy 0 0; xy 2 0] = None.
Proof.
  assert (A : forall vs : list (Vec2 F), (length vs <? 3)%nat = false -> olt (area_poly2 vs) c0 = true ->
     option_map (fun p => vertices p) (polygon_new vs) = Some (rev vs)).
  { intros vs L H. unfold polygon_new. now rewrite L, H. }
  assert (B : forall vs : list (Vec2 F), (length vs <? 3)%nat = false -> olt (area_poly2 vs) c0 = false ->
     option_map (fun p => vertices p) (polygon_new vs) = Some vs).
  { intros vs L H. unfold polygon_new. now rewrite L, H. }
  split; [|split]; [exact (A [xy 0 0; xy 0 2; xy 2 0] eq_refl eq_refl)|exact (B [xy 0 0; xy 2 0; xy 0 2] eq_refl eq_refl)|reflexivity].
Qed.

(** Whatever the arithmetic: error exactly below 3 vertices, otherwise the list is
    reversed exactly when its computed area is negative. *)
Theorem C62_new_any_arithmetic :
  forall (O : Ops) (vs : list (Vec2 O)),
  (polygon_new vs = None <-> (length vs < 3)%nat) /\
  (forall p, polygon_new vs = Some p ->
     (vertices p = vs /\ olt (area_poly2 vs) c0 = false) \/
     (vertices p = rev vs /\ olt (area_poly2 vs) c0 = true)).
Proof.
  intros O vs. unfold polygon_new. destruct (Nat.ltb_spec (length vs) 3) as [L|L].
  - split; [now split|]. discriminate.
  - destruct (olt (area_poly2 vs) c0); (split; [split; [discriminate|lia]|]); intros p H; injection H as <-; auto.
Qed.
Print Assumptions C62_new_any_arithmetic.

(** Grid triangles are normalised in f32 exactly as in exact arithmetic. *)
Theorem C62_new_triangle_grid :
  forall lm e, (-74 <= e <= 51)%Z -> forall (a b c : Vec2 f32), grid e a -> grid e b -> grid e c ->
  forall p, polygon_new (O := FO lm) [a; b; c] = Some p -> 0 <= shoelace (map toR (vertices p)).
Proof.
  intros lm e He a b c Ha Hb Hc p H.
  pose proof (new3_exact lm e He a b c Ha Hb Hc) as X. rewrite H in X. cbn [option_map] in X.
  exact (proj1 (proj2 (polygon_new_spec _ _ X))).
Qed.
Print Assumptions C62_new_triangle_grid.

Lemma xy_grid : forall x y, (Z.abs x <= 2048)%Z -> (Z.abs y <= 2048)%Z -> grid 0 (xy x y).
Proof.
  intros x y Hx Hy. destruct (f32_Z_exact x ltac:(lia)) as [F1 E1], (f32_Z_exact y ltac:(lia)) as [F2 E2].
  split; (split; [assumption|]); [exists x|exists y]; (split; [assumption|]); cbn [vx vy xy]; [rewrite E1|rewrite E2]; simpl; ring.
Qed.

Example C62_example : Forall (grid 0) [xy 0 0; xy 0 2; xy 2048 (-2048)].
Proof. repeat constructor; apply xy_grid; lia. Qed.

(** ** C33 *)
Theorem C33_area :
  forall vs : list point,
  @eq R (polygon_area (O := RO) (MkPolygon vs)) (Rabs (shoelace vs) / 2).
Proof. intros vs. exact (polygon_area_shoelace (MkPolygon vs)). Qed.
Print Assumptions C33_area.

Theorem C33_area_invariant :
  forall (l m vs : list point) (t : point) (s : R),
  let area vs := polygon_area (O := RO) (MkPolygon vs) in
  @eq R (area (l ++ m)) (area (m ++ l)) /\
  @eq R (area (rev vs)) (area vs) /\
  @eq R (area (map (moved t) vs)) (area vs) /\
  @eq R (area (map (scaled s) vs)) (s * s * area vs).
Proof.
  intros l m vs t s area. unfold area.
  rewrite !polygon_area_shoelace. cbn [vertices].
  rewrite (shoelace_rot l m), shoelace_rev, shoelace_translate, shoelace_scale, Rabs_Ropp, Rabs_mult.
  repeat split. rewrite (Rabs_pos_eq (s * s)) by nra. lra.
Qed.
Print Assumptions C33_area_invariant.

Theorem C33_triangle_area :
  forall a b c : point, @eq R (polygon_area (O := RO) (MkPolygon [a; b; c])) (Rabs (cross a b a c) / 2).
Proof.
  intros a b c. rewrite polygon_area_shoelace. cbn [vertices].
  replace (shoelace [a; b; c]) with (cross a b a c); [reflexivity|].
  unfold shoelace, PlaneSpec.cross; simpl. ring.
Qed.
Print Assumptions C33_triangle_area.

Example C33_example :
  @eq R (polygon_area (O := RO) (MkPolygon [P2 0 0; P2 4 0; P2 4 3; P2 2 1; P2 0 3])) 8.
Proof.
  rewrite polygon_area_shoelace. unfold shoelace; simpl. rewrite Rabs_pos_eq by lra. lra.
Qed.

(** ** C34 *)
Theorem C34_transforms :
  forall (p : Polygon R) (s : R) (t : point),
  vertices (polygon_uniform_scale (O := RO) p s) = map (scaled s) (vertices p) /\
  vertices (polygon_translate (O := RO) p t) = map (moved t) (vertices p).
Proof. intros. split; reflexivity. Qed.
Print Assumptions C34_transforms.

(** For every arithmetic: vertex i of the result is vertex i of the input, transformed. *)
Theorem C34_transforms_any :
  forall (O : Ops) (p : Polygon O) (s : O) (t : Vec2 O) i,
  nth_error (vertices (polygon_uniform_scale p s)) i =
    option_map (fun v => P2 (omul (vx v) s) (omul (vy v) s)) (nth_error (vertices p) i) /\
  nth_error (vertices (polygon_translate p t)) i =
    option_map (fun v => P2 (oadd (vx v) (vx t)) (oadd (vy v) (vy t))) (nth_error (vertices p) i).
Proof. intros. split; apply nth_error_map. Qed.
Print Assumptions C34_transforms_any.

Theorem C34_orientation_kept :
  forall (p : Polygon R) (s : R) (t : point), 0 <= shoelace (vertices p) ->
  0 <= shoelace (vertices (polygon_uniform_scale (O := RO) p s)) /\
  (s <> 0 -> 0 < shoelace (vertices p) -> 0 < shoelace (vertices (polygon_uniform_scale (O := RO) p s))) /\
  @eq R (shoelace (vertices (polygon_translate (O := RO) p t))) (shoelace (vertices p)).
Proof.
  intros p s t H. destruct (C34_transforms p s t) as [E1 E2].
  change (vertices (polygon_uniform_scale (O := RO) p s)) with (map (scaled s) (vertices p)).
  change (vertices (polygon_translate (O := RO) p t)) with (map (moved t) (vertices p)).
  rewrite shoelace_scale, shoelace_translate. split; [|split; [|reflexivity]].
  - apply Rmult_le_pos; [nra|exact H].
  - intros Hs Hp. apply Rmult_lt_0_compat; [now apply sq_pos|exact Hp].
Qed.
Print Assumptions C34_orientation_kept.

Theorem C34_center :
  forall p : Polygon R, vertices p <> [] ->
  @eq point (polygon_center (O := RO) p)
   (P2 (sum (map vx (vertices p)) / INR (length (vertices p)))
       (sum (map vy (vertices p)) / INR (length (vertices p)))) /\
  (forall s : R, @eq point (polygon_center (O := RO) (polygon_uniform_scale (O := RO) p s)) (scaled s (polygon_center (O := RO) p))) /\
  (forall t : point, @eq point (polygon_center (O := RO) (polygon_translate (O := RO) p t)) (moved t (polygon_center (O := RO) p))).
Proof.
  intros p N. split; [apply center_sum|].
  assert (L : INR (length (vertices p)) <> 0).
  { apply not_0_INR. destruct (vertices p); [contradiction|discriminate]. }
  assert (K : forall k c (l : list point), sum (map (fun v => vx v * k + c) l) = sum (map vx l) * k + INR (length l) * c) by
    (intros; apply sum_affine).
  assert (K' : forall k c (l : list point), sum (map (fun v => vy v * k + c) l) = sum (map vy l) * k + INR (length l) * c) by
    (intros; apply sum_affine).
  split; [intros s|intros t].
  - rewrite !center_sum.
    change (vertices (polygon_uniform_scale (O := RO) p s)) with (map (scaled s) (vertices p)).
    rewrite map_length, !map_map.
    rewrite (map_ext (fun x => vx (scaled s x)) (fun v => vx v * s + 0)) by (intros; simpl; ring).
    rewrite (map_ext (fun x => vy (scaled s x)) (fun v => vy v * s + 0)) by (intros; simpl; ring).
    rewrite K, K'. apply pt_eq; unfold scaled; cbn [vx vy]; field; exact L.
  - rewrite !center_sum.
    change (vertices (polygon_translate (O := RO) p t)) with (map (moved t) (vertices p)).
    rewrite map_length, !map_map.
    rewrite (map_ext (fun x => vx (moved t x)) (fun v => vx v * 1 + vx t)) by (intros; simpl; ring).
    rewrite (map_ext (fun x => vy (moved t x)) (fun v => vy v * 1 + vy t)) by (intros; simpl; ring).
    rewrite K, K'. apply pt_eq; unfold moved; cbn [vx vy]; field; exact L.
Qed.
Print Assumptions C34_center.

Example C34_example :
  @eq point (polygon_center (O := RO) (polygon_uniform_scale (O := RO) (MkPolygon [P2 0 0; P2 2 0; P2 1 3]) (-2))) (P2 (-2) (-2)).
Proof.
  destruct (C34_center (MkPolygon [P2 0 0; P2 2 0; P2 1 3])) as (E & S & _); [discriminate|].
  rewrite S, E. unfold scaled, sum; simpl. f_equal; lra.
Qed.

(** ** C35 *)
Theorem C35_regular :
  forall n r c, (3 <= n)%nat -> 0 < r ->
  exists p, polygon_regular (O := RO) n r c = Ok p /\
    length (vertices p) = n /\
    (forall i, (i < n)%nat ->
       @eq point (vtx (vertices p) i)
         (P2 (vx c + r * cos (INR i * (2 * PI / INR n))) (vy c + r * sin (INR i * (2 * PI / INR n)))) /\
       dist c (vtx (vertices p) i) = r) /\
    strictly_convex (vertices p) /\
    @eq R (polygon_area (O := RO) p) (INR n / 2 * (r * r) * sin (2 * PI / INR n)) /\
    0 < shoelace (vertices p) /\
    @eq point (polygon_center (O := RO) p) c.
Proof.
  intros n r c Hn Hr.
  pose proof (sin_step_pos n Hn) as Sp. pose proof (n_pos n Hn) as Np.
  assert (Ps : 0 < INR n * (r * r * sin (step n))).
  { apply Rmult_lt_0_compat; [exact Np|]. apply Rmult_lt_0_compat; [nra|exact Sp]. }
  eexists. split; [apply regular_ok; assumption|]. cbn [vertices].
  split; [now apply vs_length|]. split; [|split; [|split; [|split]]].
  - intros i Hi. rewrite vs_nth by assumption. split.
    + reflexivity.
    + rewrite regular_radius by assumption. apply Rabs_pos_eq. lra.
  - apply regular_convex; [assumption|lra].
  - rewrite polygon_area_shoelace. cbn [vertices]. rewrite regular_shoelace by assumption.
    rewrite Rabs_pos_eq by lra. unfold step. lra.
  - rewrite regular_shoelace by assumption. exact Ps.
  - now apply regular_center.
Qed.
Print Assumptions C35_regular.

Theorem C35_regular_panics :
  forall (O : Ops) n (r : O) c, (n < 3)%nat -> polygon_regular n r c = Panic.
Proof. exact regular_panics. Qed.
Print Assumptions C35_regular_panics.

Example C35_example :
  exists p, polygon_regular (O := RO) 4 2 (P2 1 1) = Ok p /\ @eq R (polygon_area (O := RO) p) 8.
Proof.
  destruct (C35_regular 4 2 (P2 1 1)) as (p & E & _ & _ & _ & A & _); [lia|lra|].
  exists p. split; [exact E|]. rewrite A. replace (2 * PI / INR 4) with (PI / 2) by (simpl; field).
  rewrite sin_PI2. simpl. field.
Qed.

(** ** C36 *)
Theorem C36_total :
  forall (O : Ops) (vs : list (Vec2 O)) i j, (i < length vs)%nat -> (j < length vs)%nat ->
  exists b, diagonal vs i j = Ok b /\ (i = j -> b = false).
Proof.
  intros O vs i j Hi Hj. exists (diag vs i j). split; [now apply diagonal_eq|].
  intros <-. unfold diag. now rewrite Nat.eqb_refl.
Qed.
Print Assumptions C36_total.

Theorem C36_symmetric :
  forall (vs : list point) i j, (i < length vs)%nat -> (j < length vs)%nat ->
  diagonal (O := RO) vs i j = diagonal vs j i.
Proof. intros vs i j Hi Hj. rewrite !diagonal_eq by assumption. now rewrite diag_sym. Qed.
Print Assumptions C36_symmetric.

Theorem C36_neighbours :
  forall (vs : list point) i, (i < length vs)%nat ->
  diagonal (O := RO) vs i (nxt (length vs) i) = Ok false /\
  diagonal (O := RO) vs (nxt (length vs) i) i = Ok false.
Proof.
  intros vs i Hi. assert (Hn : (nxt (length vs) i < length vs)%nat) by (now apply nxt_lt).
  rewrite !diagonal_eq by assumption. destruct (diag_neighbor vs i Hi) as [E1 E2].
  now split; f_equal.
Qed.
Print Assumptions C36_neighbours.

(** Stronger than the claim: the open segment meets no edge at all. *)
Theorem C36_sound :
  forall (vs : list point) i j, (i < length vs)%nat -> (j < length vs)%nat ->
  diagonal (O := RO) vs i j = Ok true ->
  let n := length vs in
  i <> j /\ j <> nxt n i /\ i <> nxt n j /\
  (forall k x, (k < n)%nat -> open_segment (vtx vs i) (vtx vs j) x ->
     ~ on_segment (vtx vs k) (vtx vs (nxt n k)) x) /\
  (forall k, (k < n)%nat -> k <> i -> k <> j -> nxt n k <> i -> nxt n k <> j ->
     ~ segments_meet (vtx vs i) (vtx vs j) (vtx vs k) (vtx vs (nxt n k))) /\
  interior_angle (vtx vs (prv n i)) (vtx vs i) (vtx vs (nxt n i)) (vtx vs j) /\
  interior_angle (vtx vs (prv n j)) (vtx vs j) (vtx vs (nxt n j)) (vtx vs i).
Proof.
  intros vs i j Hi Hj D n. rewrite diagonal_eq in D by assumption. injection D as D.
  destruct (diag_sound vs i j Hi Hj D) as (H1 & H2 & H3 & H4 & H5 & H6). fold n in H2, H3, H4, H5, H6.
  split; [exact H1|]. split; [exact H2|]. split; [exact H3|]. split; [exact H4|]. split; [|split; assumption].
  intros k Hk N1 N2 N3 N4 M. apply diag_true in D. destruct D as (_ & K & _).
  specialize (K k Hk N1 N3 N2 N4). apply intersect_complete in M.
  exact (eq_true_false_abs _ M K).
Qed.
Print Assumptions C36_sound.

(** And conversely, so [diagonal] decides exactly this. *)
Theorem C36_complete :
  forall (vs : list point) i j, (i < length vs)%nat -> (j < length vs)%nat ->
  let n := length vs in
  (forall k, (k < n)%nat -> vtx vs k <> vtx vs (nxt n k)) -> vtx vs i <> vtx vs j ->
  (forall k, (k < n)%nat -> k <> i -> k <> j -> nxt n k <> i -> nxt n k <> j ->
     ~ segments_meet (vtx vs i) (vtx vs j) (vtx vs k) (vtx vs (nxt n k))) ->
  interior_angle (vtx vs (prv n i)) (vtx vs i) (vtx vs (nxt n i)) (vtx vs j) ->
  interior_angle (vtx vs (prv n j)) (vtx vs j) (vtx vs (nxt n j)) (vtx vs i) ->
  diagonal (O := RO) vs i j = Ok true.
Proof.
  intros vs i j Hi Hj n Hd Nij K C1 C2. rewrite diagonal_eq by assumption. apply f_equal. apply diag_true.
  split; [intros ->; now apply Nij|]. split; [|split; now apply cone_iff].
  intros k Hk N1 N2 N3 N4. apply not_true_is_false. intros I.
  apply (K k Hk N1 N3 N2 N4). apply intersect_iff; [exact Nij|now apply Hd|exact I].
Qed.
Print Assumptions C36_complete.

(** An arrow shape with a reflex vertex 2: only 0-2 and its reverse are diagonals. *)
Example C36_example :
  map (fun ij => diagonal [xy 0 0; xy 4 (-2); xy 1 0; xy 4 2] (fst ij) (snd ij))
    [(0, 2); (2, 0); (1, 3); (3, 1); (0, 1); (0, 0)]%nat = [Ok true; Ok true; Ok false; Ok false; Ok false; Ok false].
Proof. vm_compute. reflexivity. Qed.

(** ** C37 and C63 *)
Theorem C37_triangles :
  forall (O : Ops) fuel (p : Polygon O) r, (3 <= length (vertices p))%nat ->
  triangulate fuel p = Some r ->
  exists ts, r = Ok ts /\ length ts = (length (vertices p) - 2)%nat /\
    (forall t, In t ts -> length (vertices t) = 3%nat /\ forall q, In q (vertices t) -> In q (vertices p)).
Proof. intros O. exact triangulate_ok. Qed.
Print Assumptions C37_triangles.

(** Self-crossing pentagon: the last triangle is clockwise and the areas add up to
    more than the area of the polygon. *)
Definition crossed : Polygon f32 := MkPolygon [xy 3 2; xy 2 3; xy 5 4; xy 0 4; xy 1 5].

Lemma toR_xy : forall x y, (Z.abs x <= 2048)%Z -> (Z.abs y <= 2048)%Z -> toR (xy x y) = P2 (IZR x) (IZR y).
Proof.
  intros x y Hx Hy. destruct (f32_Z_exact x ltac:(lia)) as [_ E1], (f32_Z_exact y ltac:(lia)) as [_ E2].
  unfold toR, xy; cbn [vx vy]. now rewrite E1, E2.
Qed.

(** Indices instead of float records, so that results can be compared by computation. *)
Definition coords (p : Polygon f32) : list (SpecFloat.spec_float * SpecFloat.spec_float) :=
  map (fun v => (B2SF (vx v), B2SF (vy v))) (vertices p).

Lemma coords_inj : forall p q, coords p = coords q -> p = q.
Proof.
  intros [vs] [ws]. unfold coords; cbn [vertices]. revert ws.
  induction vs as [|[x y] vs IH]; intros [|[x' y'] ws] H; try discriminate; [reflexivity|].
  cbn [map] in H. injection H as H1 H2 H3. apply B2SF_inj in H1, H2. cbn [vx vy] in H1, H2. subst.
  specialize (IH ws H3). injection IH as ->. reflexivity.
Qed.

Definition crossed_triangles : list (Polygon f32) :=
  [MkPolygon [xy 2 3; xy 5 4; xy 0 4]; MkPolygon [xy 3 2; xy 2 3; xy 0 4]; MkPolygon [xy 3 2; xy 0 4; xy 1 5]].

Lemma crossed_run : triangulate (O := F) 10 crossed = Some (Ok crossed_triangles).
Proof.
  assert (X : match triangulate (O := F) 10 crossed with
              | Some (Ok ts) => map coords ts = map coords crossed_triangles | _ => False end)
    by (vm_compute; reflexivity).
  destruct (triangulate (O := F) 10 crossed) as [[ts|]|]; try contradiction.
  apply (f_equal (fun t => Some (Ok t))). clear -X. revert X. generalize crossed_triangles. 
  induction ts as [|t ts IH]; intros [|u us] X; try discriminate; [reflexivity|].
  cbn [map] in X. injection X as X1 X2. f_equal; [now apply coords_inj|now apply IH].
Qed.

Lemma crossed_grid : Forall (grid 0) (vertices crossed).
Proof. repeat constructor; apply xy_grid; lia. Qed.

Theorem C37_areas_refuted :
  exists (p : Polygon R) fuel ts, (3 <= length (vertices p))%nat /\ 0 <= shoelace (vertices p) /\
    triangulate (O := RO) fuel p = Some (Ok ts) /\
    polygon_area (O := RO) p < total ts /\
    exists t, In t ts /\ shoelace (vertices t) < 0.
Proof.
  exists (polyR crossed), 10%nat, (map polyR crossed_triangles).
  pose proof (triangulate_exact lm0 0 ltac:(lia) 10 crossed crossed_grid) as X.
  rewrite crossed_run in X. cbn [option_map] in X.
  assert (V : vertices (polyR crossed) = [P2 3 2; P2 2 3; P2 5 4; P2 0 4; P2 1 5]).
  { unfold polyR, crossed; cbn [vertices map]. rewrite !toR_xy by lia. reflexivity. }
  split; [rewrite V; simpl; lia|]. split; [rewrite V; unfold shoelace; simpl; lra|]. split; [exact X|].
  assert (A1 : @eq R (polygon_area (O := RO) (polyR crossed)) (1 / 2)).
  { rewrite polygon_area_shoelace, V. unfold shoelace; simpl. rewrite Rabs_pos_eq by lra. lra. }
  split.
  - rewrite A1. unfold crossed_triangles, total, sum, polyR; cbn [map vertices fold_right].
    rewrite !toR_xy by lia. rewrite !polygon_area_shoelace. cbn [vertices]. unfold shoelace; simpl.
    unfold Rabs; repeat destruct Rcase_abs; lra.
  - exists (polyR (MkPolygon [xy 3 2; xy 0 4; xy 1 5])). split; [right; right; now left|].
    unfold polyR; cbn [vertices map]. rewrite !toR_xy by lia. unfold shoelace; simpl. lra.
Qed.
Print Assumptions C37_areas_refuted.

(** The same run in f32. *)
Example C37_f32_witness : triangulate (O := F) 10 crossed = Some (Ok crossed_triangles).
Proof. exact crossed_run. Qed.

(** What holds for every polygon: each triangle is, up to its direction, one of a family
    of triples whose signed areas add up to that of the polygon; all but the last are
    counterclockwise; and the areas add up to at least the area of the polygon. *)
Theorem C63_triangulation_areas :
  forall fuel (p : Polygon R) ts, (3 <= length (vertices p))%nat ->
  triangulate (O := RO) fuel p = Some (Ok ts) ->
  (exists trs,
     Forall2 (fun (t : Polygon R) tr => length tr = 3%nat /\ (vertices t = tr \/ vertices t = rev tr)) ts trs /\
     sum (map shoelace trs) = shoelace (vertices p)) /\
  (exists front last, ts = front ++ [last] /\ forall t, In t front -> 0 <= shoelace (vertices t)) /\
  polygon_area (O := RO) p <= total ts.
Proof.
  intros fuel p ts Hn H. destruct (triangulate_areas fuel p ts Hn H) as (trs & P & S & us0 & E & F).
  split; [exists trs; now split|]. split; [exists us0, (last ts (MkPolygon [])); now split|].
  exact (triangulate_total_ge fuel p ts Hn H).
Qed.
Print Assumptions C63_triangulation_areas.

(** The areas add up exactly when the last triangle is counterclockwise too and no
    clipped triple was clockwise: in particular for strictly convex polygons. *)
Theorem C63_partition_convex :
  forall p : Polygon R, strictly_convex (vertices p) -> (3 <= length (vertices p))%nat ->
  exists ts, (forall fuel, (length (vertices p) <= fuel)%nat -> triangulate (O := RO) fuel p = Some (Ok ts)) /\
    length ts = (length (vertices p) - 2)%nat /\
    (forall t, In t ts -> length (vertices t) = 3%nat /\ 0 < shoelace (vertices t) /\
        forall q, In q (vertices t) -> In q (vertices p)) /\
    total ts = polygon_area (O := RO) p.
Proof. exact convex_triangulate. Qed.
Print Assumptions C63_partition_convex.

Example C63_example : strictly_convex [P2 0 0; P2 4 0; P2 5 3; P2 2 5; P2 (-1) 2].
Proof.
  intros i j k H1 H2. cbn [length] in H2.
  destruct i as [|[|[|[|[|i]]]]]; try lia; destruct j as [|[|[|[|[|j]]]]]; try lia;
    destruct k as [|[|[|[|[|k]]]]]; try lia; unfold PlaneSpec.cross, vtx; simpl; lra.
Qed.

(** ** C38 *)
(** For strictly convex polygons, hence all regular ones.  All simple polygons:
    Properties_Simple.v. *)
Theorem C38_terminates_convex :
  forall p : Polygon R, strictly_convex (vertices p) -> (3 <= length (vertices p))%nat ->
  forall fuel, (length (vertices p) <= fuel)%nat -> exists ts, triangulate (O := RO) fuel p = Some (Ok ts).
Proof.
  intros p C Hn fuel Hf. destruct (convex_triangulate p C Hn) as (ts & R & _). exists ts. now apply R.
Qed.
Print Assumptions C38_terminates_convex.

Theorem C38_terminates_regular :
  forall n r c, (3 <= n)%nat -> 0 < r -> forall fuel, (n <= fuel)%nat ->
  exists p ts, polygon_regular (O := RO) n r c = Ok p /\ triangulate (O := RO) fuel p = Some (Ok ts) /\
    length ts = (n - 2)%nat.
Proof.
  intros n r c Hn Hr fuel Hf. destruct (C35_regular n r c Hn Hr) as (p & E & L & _ & C & _).
  assert (K : forall q : Polygon R, length (vertices q) = n -> strictly_convex (vertices q) ->
     exists ts, triangulate (O := RO) fuel q = Some (Ok ts) /\ length ts = (n - 2)%nat).
  { intros q Lq Cq. destruct (convex_triangulate q Cq) as (ts & R & L' & _); [lia|].
    exists ts. split; [apply R; lia|lia]. }
  destruct (K p L C) as (ts & T & L'). exists p, ts. auto.
Qed.
Print Assumptions C38_terminates_regular.

(** ** C64: a polygon accepted by Polygon::new on which triangulate never returns *)
Definition flat : list (Vec2 F) := [xy 0 0; xy 1 0; xy 2 0; xy 3 0].

Theorem C64_degenerate_hangs :
  exists p : Polygon F, polygon_new flat = Some p /\ forall fuel, triangulate fuel p = None.
Proof.
  exists (MkPolygon flat). split.
  - unfold polygon_new. change (length flat <? 3)%nat with false. cbv iota.
    replace (olt (area_poly2 flat) c0) with false by (vm_compute; reflexivity). reflexivity.
  - apply triangulate_stuck; cbn [vertices]; [simpl; lia|].
    intros i Hi. destruct i as [|[|[|[|i]]]]; [vm_compute; reflexivity..|simpl in Hi; lia].
Qed.
Print Assumptions C64_degenerate_hangs.

(** Whatever the arithmetic, a polygon of more than 3 vertices none of which is an ear is
    never triangulated, and a result does not depend on how long one waits. *)
Theorem C64_no_ear_hangs :
  forall (O : Ops) (p : Polygon O), (3 < length (vertices p))%nat ->
  (forall i, (i < length (vertices p))%nat ->
     diagonal (vertices p) (prv (length (vertices p)) i) (nxt (length (vertices p)) i) = Ok false) ->
  forall fuel, triangulate fuel p = None.
Proof.
  intros O p L H. apply triangulate_stuck; [exact L|]. intros i Hi. specialize (H i Hi).
  rewrite diagonal_eq in H by (auto using prv_lt, nxt_lt). now injection H.
Qed.
Print Assumptions C64_no_ear_hangs.

Theorem C64_result_stable :
  forall (O : Ops) fuel fuel' (p : Polygon O) r, (fuel <= fuel')%nat ->
  triangulate fuel p = Some r -> triangulate fuel' p = Some r.
Proof.
  intros O fuel fuel' p r H. unfold triangulate. destruct (Nat.eqb _ 3); [auto|].
  destruct (ear_flags _ _); [|auto]. now apply loop_mono.
Qed.
Print Assumptions C64_result_stable.

(** ** C39 *)
Theorem C39_predicates_exact :
  forall lm e, (-74 <= e <= 51)%Z -> forall a b c d, grid e a -> grid e b -> grid e c -> grid e d ->
  left (O := FO lm) a b c = left (O := RO) (toR a) (toR b) (toR c) /\
  left_on (O := FO lm) a b c = left_on (O := RO) (toR a) (toR b) (toR c) /\
  collinear (O := FO lm) a b c = collinear (O := RO) (toR a) (toR b) (toR c) /\
  between (O := FO lm) a b c = between (O := RO) (toR a) (toR b) (toR c) /\
  intersect_prop (O := FO lm) a b c d = intersect_prop (O := RO) (toR a) (toR b) (toR c) (toR d) /\
  intersect (O := FO lm) a b c d = intersect (O := RO) (toR a) (toR b) (toR c) (toR d).
Proof.
  intros lm e He a b c d Ha Hb Hc Hd. destruct (sign_exact lm e He a b c Ha Hb Hc) as (H1 & H2 & H3).
  split; [exact H1|]. split; [exact H2|]. split; [exact H3|].
  split; [now apply (between_exact lm e He)|].
  split; [now apply (intersect_prop_exact lm e He)|now apply (intersect_exact lm e He)].
Qed.
Print Assumptions C39_predicates_exact.

Theorem C39_diagonal_exact :
  forall lm e, (-74 <= e <= 51)%Z -> forall vs i j, Forall (grid e) vs ->
  (i < length vs)%nat -> (j < length vs)%nat ->
  diagonal (O := FO lm) vs i j = diagonal (O := RO) (map toR vs) i j.
Proof.
  intros lm e He vs i j G Hi Hj. rewrite (diagonal_eq (O := FO lm)) by assumption.
  rewrite (diagonal_eq (O := RO)).
  - apply f_equal. now apply (diag_exact lm e He).
  - change (i < length (map toR vs))%nat. now rewrite map_length.
  - change (j < length (map toR vs))%nat. now rewrite map_length.
Qed.
Print Assumptions C39_diagonal_exact.

Theorem C39_triangulate_exact :
  forall lm e, (-74 <= e <= 51)%Z -> forall fuel (p : Polygon f32), Forall (grid e) (vertices p) ->
  triangulate (O := RO) fuel (MkPolygon (map toR (vertices p))) =
  match triangulate (O := FO lm) fuel p with
  | None => None
  | Some Panic => Some Panic
  | Some (Ok ts) => Some (Ok (map (fun t => MkPolygon (map toR (vertices t))) ts))
  end.
Proof.
  intros lm e He fuel p G. pose proof (triangulate_exact lm e He fuel p G) as X.
  destruct (triangulate (O := FO lm) fuel p) as [[ts|]|]; exact X.
Qed.
Print Assumptions C39_triangulate_exact.

(** So in f32, on the grid, strictly convex polygons are triangulated into n-2 triangles
    of positive area that add up to the area. *)
Theorem C63_partition_convex_f32 :
  forall lm e, (-74 <= e <= 51)%Z -> forall p : Polygon f32, Forall (grid e) (vertices p) ->
  strictly_convex (map toR (vertices p)) -> (3 <= length (vertices p))%nat ->
  exists ts, (forall fuel, (length (vertices p) <= fuel)%nat -> triangulate (O := FO lm) fuel p = Some (Ok ts)) /\
    length ts = (length (vertices p) - 2)%nat /\
    (forall t, In t ts -> 0 < shoelace (map toR (vertices t))) /\
    total (map polyR ts) = polygon_area (O := RO) (polyR p).
Proof.
  intros lm e He p G C Hn.
  assert (L : length (map toR (vertices p)) = length (vertices p)) by apply map_length.
  destruct (convex_triangulate (polyR p) C) as (us & R & Lu & P & T).
  { cbn [polyR vertices]. lia. }
  assert (X : exists ts, triangulate (O := FO lm) (length (vertices p)) p = Some (Ok ts) /\ us = map polyR ts).
  { pose proof (triangulate_exact lm e He (length (vertices p)) p G) as X.
    rewrite R in X by (cbn [polyR vertices]; lia).
    destruct (triangulate (O := FO lm) (length (vertices p)) p) as [[ts|]|]; cbn [option_map] in X; try discriminate.
    exists ts. split; [reflexivity|]. now injection X. }
  destruct X as (ts & E & ->). exists ts. split; [|split; [|split]].
  - intros fuel Hf. exact (C64_result_stable (FO lm) _ fuel p _ Hf E).
  - rewrite map_length in Lu. cbn [polyR vertices] in Lu. rewrite L in Lu. exact Lu.
  - intros t Ht. destruct (P (polyR t)) as (_ & Pos & _); [now apply in_map|exact Pos].
  - exact T.
Qed.
Print Assumptions C63_partition_convex_f32.

Example C39_example :
  Forall (grid 0) (vertices crossed) /\
  triangulate (O := RO) 10 (MkPolygon (map toR (vertices crossed))) =
    Some (Ok (map (fun t => MkPolygon (map toR (vertices t))) crossed_triangles)).
Proof.
  split; [exact crossed_grid|].
  rewrite (C39_triangulate_exact lm0 0 ltac:(lia) 10 crossed crossed_grid), crossed_run. reflexivity.
Qed.
