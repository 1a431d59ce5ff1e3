(** * C20-C29, C58-C61: geometry/utils.rs.

    [XO] is exact real arithmetic with a "not finite" value; [xp] injects real points.
    [FO lm] is f32. *)
From Coq Require Import List Arith Bool Lia Reals Lra ZArith.
From Flocq Require Import Core.Core IEEE754.BinarySingleNaN.
From Verif Require Import Scalar Utils ListSpec PlaneSpec F32 Laws Closest GraphHistory UtilsReal UtilsF32 GraphDemo.
Import ListNotations.
Local Open Scope R_scope.
Local Notation cross := PlaneSpec.cross.

Lemma eps32_small : eps32 < / 8.
Proof.
  unfold eps32. replace (/ 8) with (bpow radix2 (-3)) by (simpl; lra). now apply bpow_lt.
Qed.

(** ** C20 *)
Theorem C20_find_closest_first_minimum :
  forall lm (t : Vec2 (FO lm)) ps i d, find_closest_to t ps = (i, d) ->
  (i = 0%nat /\ d = cmax /\
     forall j q, nth_error ps j = Some q -> olt (distance t q) cmax = false) \/
  (exists p, nth_error ps i = Some p /\ d = distance t p /\ olt d cmax = true /\
     (forall j q, nth_error ps j = Some q -> olt (distance t q) d = false) /\
     (forall j q, (j < i)%nat -> nth_error ps j = Some q -> ole (distance t q) d = false)).
Proof.
  intros lm t ps i d H. apply (find_closest_spec (FO_laws lm)) in H.
  destruct H as [H|(p & H1 & H2 & H3 & H4)]; [now left|right].
  exists p. repeat split; try assumption; intros j q; [apply H4|].
  intros Hj Hq. now apply (H4 j q Hq).
Qed.
Print Assumptions C20_find_closest_first_minimum.

(** In exact arithmetic the comparisons are those of the reals. *)
Theorem C20_find_closest_exact :
  forall (t : point) ps i d, find_closest_to (xp t) (map xp ps) = (i, d) ->
  (i = 0%nat /\ d = Some max32 /\ forall j q, nth_error ps j = Some q -> max32 <= dist t q) \/
  (exists p, nth_error ps i = Some p /\ d = Some (dist t p) /\
     (forall j q, nth_error ps j = Some q -> dist t p <= dist t q) /\
     (forall j q, (j < i)%nat -> nth_error ps j = Some q -> dist t p < dist t q)).
Proof.
  intros t ps i d H. apply (find_closest_spec XO_laws) in H.
  destruct H as [(-> & -> & H)|(p & H1 & H2 & H3 & H4)]; [left|right].
  - repeat split. intros j q Hq. specialize (H j (xp q)). rewrite nth_error_map, Hq, distance_xp in H.
    specialize (H eq_refl). simpl in H. now rcmp.
  - rewrite nth_error_map in H1. destruct (nth_error ps i) as [p'|] eqn:E; [|discriminate].
    simpl in H1. injection H1. intros <-. rewrite distance_xp in H2. subst d.
    exists p'. repeat split; intros j q.
    + intros Hq. specialize (H4 j (xp q)). rewrite nth_error_map, Hq, distance_xp in H4.
      destruct (H4 eq_refl) as [K _]. simpl in K. now rcmp.
    + intros Hj Hq. specialize (H4 j (xp q)). rewrite nth_error_map, Hq, distance_xp in H4.
      destruct (H4 eq_refl) as [_ K]. specialize (K Hj). simpl in K. now rcmp.
Qed.
Print Assumptions C20_find_closest_exact.

(** A NaN point, then two at the same distance: the first of the two. *)
Example C20_example :
  fst (find_closest_to (xy 0 0) [P2 (B754_nan : F) (f32_Z 0); xy 9 0; xy 3 4; xy 0 5]) = 2%nat /\
  find_closest_to (xy 0 0) [] = (0%nat, cmax).
Proof. split; [vm_compute; reflexivity|reflexivity]. Qed.

(** ** C21 *)
Theorem C21_segment_intersection :
  forall (a b c d : point) (q : Vec2 XO),
  calculate_line_segment_intersection (xp a) (xp b) (xp c) (xp d) = Some q <->
  exists p, q = xp p /\ cross a b c d <> 0 /\ on_segment a b p /\ on_segment c d p.
Proof. exact segment_intersection_spec. Qed.
Print Assumptions C21_segment_intersection.

Lemma segment_line : forall a b p, on_segment a b p -> on_line a b p.
Proof. intros a b p (t & _ & H). now exists t. Qed.

Theorem C21_intersection_unique :
  forall a b c d p q, cross a b c d <> 0 ->
  on_segment a b p -> on_segment c d p -> on_segment a b q -> on_segment c d q -> p = q.
Proof.
  intros a b c d p q H H1 H2 H3 H4.
  apply (segment_intersection_unique a b c d p q H); now apply segment_line.
Qed.
Print Assumptions C21_intersection_unique.

Theorem C21_zero_denominator_f32 :
  forall lm (a b c d : Vec2 (FO lm)),
  oeq (- (vx d - vx c) * (vy b - vy a) + (vx b - vx a) * (vy d - vy c))%ops c0 = true ->
  calculate_line_segment_intersection a b c d = None.
Proof. exact segment_intersection_zero_denominator. Qed.
Print Assumptions C21_zero_denominator_f32.

Example C21_example :
  calculate_line_segment_intersection (O := XO)
    (xp (P2 0 0)) (xp (P2 2 2)) (xp (P2 0 2)) (xp (P2 2 0)) = Some (xp (P2 1 1)).
Proof.
  apply C21_segment_intersection. exists (P2 1 1). split; [reflexivity|].
  unfold cross; simpl. split; [lra|]. split.
  - exists (/2). split; [lra|]. unfold along; simpl. f_equal; lra.
  - exists (/2). split; [lra|]. unfold along; simpl. f_equal; lra.
Qed.

Example C21_example_f32 : (* parallel segments: zero denominator *)
  oeq (- (vx (xy 5 1) - vx (xy 0 1)) * (vy (xy 5 0) - vy (xy 0 0))
       + (vx (xy 5 0) - vx (xy 0 0)) * (vy (xy 5 1) - vy (xy 0 1)))%ops c0 = true.
Proof. vm_compute. reflexivity. Qed.

(** ** C22 *)
Theorem C22_unique_points_subsequence_partial :
  forall lm (ps : list (Vec2 (FO lm))),
  exists keep, increasing keep /\
    map Some (unique_points_among ps) = map (nth_error ps) keep /\
    forall i j p q, i <> j -> nth_error (unique_points_among ps) i = Some p ->
      nth_error (unique_points_among ps) j = Some q -> ole (distance p q) ceps = false.
Proof.
  intros lm ps. destruct (unique_points_spec ps) as (keep & I & K & M).
  exists keep. split; [exact I|]. split; [exact M|].
  intros i j p q N Hi Hj.
  assert (A : forall n x, nth_error (unique_points_among ps) n = Some x ->
     exists k, nth_error keep n = Some k /\ nth_error ps k = Some x).
  { intros n x Hn. apply (map_nth_error Some) in Hn. rewrite M in Hn.
    rewrite nth_error_map in Hn. destruct (nth_error keep n) as [k|] eqn:E; [|discriminate].
    exists k. split; [reflexivity|]. cbn [option_map] in Hn. injection Hn. auto. }
  destruct (A i p Hi) as (k & Ek & Pk). destruct (A j q Hj) as (l & El & Pl).
  assert (In k keep) by (eapply nth_error_In; eassumption).
  destruct (proj1 (K k) H) as [_ Iso]. apply (Iso p l q Pk Pl).
  intros ->. apply N. eapply (NoDup_nth_error keep).
  - apply increasing_nodup, I.
  - apply nth_error_Some. congruence.
  - congruence.
Qed.
Print Assumptions C22_unique_points_subsequence_partial.
(** Missing for the full C22: every input point is close to some result.  This is false: *)

Theorem C22_every_input_represented_refuted :
  exists ps : list (Vec2 F),
    Forall (fun p => is_finite (vx p : f32) = true /\ is_finite (vy p : f32) = true) ps /\
    exists p, In p ps /\ forall q, In q (unique_points_among ps) -> ole (distance p q) ceps = false.
Proof.
  exists [xy 1 1; xy 1 1]. split.
  - repeat constructor.
  - exists (xy 1 1). split; [now left|].
    assert (E : unique_points_among [xy 1 1; xy 1 1] = []) by (vm_compute; reflexivity).
    rewrite E. intros q [].
Qed.
Print Assumptions C22_every_input_represented_refuted.

Example C22_example :
  List.length (unique_points_among [xy 1 1; xy 2 2; xy 1 1; xy 3 3]) = 2%nat.
Proof. vm_compute. reflexivity. Qed.

(** ** C58: which points unique_points_among keeps *)
Theorem C58_unique_points_keeps_isolated :
  forall lm (ps : list (Vec2 (FO lm))),
  exists keep, increasing keep /\ map Some (unique_points_among ps) = map (nth_error ps) keep /\
    forall k p, nth_error ps k = Some p ->
      (In k keep <-> forall j q, j <> k -> nth_error ps j = Some q -> ole (distance p q) ceps = false).
Proof.
  intros lm ps. destruct (unique_points_spec ps) as (keep & I & K & M).
  exists keep. split; [exact I|]. split; [exact M|].
  intros k p Hp. rewrite (K k). unfold isolated. split.
  - intros [_ H] j q Hj Hq. exact (H p j q Hp Hq Hj).
  - intros H. split; [apply nth_error_Some; congruence|].
    intros p' j q Hp' Hq Hj. assert (p' = p) by congruence. subst. now apply (H j q).
Qed.
Print Assumptions C58_unique_points_keeps_isolated.

Example C58_example :
  map (fun p : Vec2 F => B2SF (vx p : f32)) (unique_points_among [xy 1 1; xy 2 2; xy 1 1; xy 3 3]) =
  map (fun p : Vec2 F => B2SF (vx p : f32)) [xy 2 2; xy 3 3].
Proof. vm_compute. reflexivity. Qed.

(** ** C23 *)
Theorem C23_on_segment_accepts_partial :
  forall a b p incl, on_segment a b p -> eps32 < dist a p -> eps32 < dist p b ->
  is_on_line_segment (xp a) (xp b) (xp p) incl = true.
Proof.
  intros a b p incl H H1 H2. apply on_segment_test. split; [|tauto].
  rewrite (on_segment_dist a b p H). pose proof eps32_pos. lra.
Qed.
Print Assumptions C23_on_segment_accepts_partial.

Theorem C23_on_segment_only_partial :
  forall a b p incl, is_on_line_segment (xp a) (xp b) (xp p) incl = true ->
  Rabs (dist a p + dist p b - dist a b) < eps32 /\ p <> a /\ p <> b.
Proof.
  intros a b p incl H. apply on_segment_test in H. destruct H as (H & H1 & H2).
  split; [apply Rabs_def1; pose proof (UtilsReal.triangle a p b); pose proof eps32_pos; lra|].
  pose proof eps32_pos.
  split; intros ->; rewrite dist_self0 in *; lra.
Qed.
Print Assumptions C23_on_segment_only_partial.

Theorem C23_rejects_ends_f32_partial :
  forall lm (a b : Vec2 (FO lm)) incl,
  is_on_line_segment a b a incl = false /\ is_on_line_segment a b b incl = false.
Proof.
  intros lm a b incl. unfold is_on_line_segment. rewrite !(dist_self _ (FO_laws lm)).
  now rewrite !andb_false_r.
Qed.
Print Assumptions C23_rejects_ends_f32_partial.

Theorem C23_symmetric_f32_partial :
  forall lm (a b p : Vec2 (FO lm)) incl,
  is_on_line_segment a b p incl = is_on_line_segment b a p incl.
Proof.
  intros lm a b p incl. unfold is_on_line_segment.
  rewrite (distance_sym (FO_laws lm) b a), (distance_sym (FO_laws lm) b p), (distance_sym (FO_laws lm) p a).
  rewrite (add_comm _ (FO_laws lm) (distance p b)).
  now rewrite <- !andb_assoc, (andb_comm (olt ceps (oabs (distance a p)))).
Qed.
Print Assumptions C23_symmetric_f32_partial.
(** Missing for the full C23: include_endpoints.  It is ignored, so it is not honoured: *)

Theorem C23_include_endpoints_refuted :
  exists a b : Vec2 F, (olt ceps (distance a b) = true) /\
    is_on_line_segment a b a true = false.
Proof.
  exists (xy 0 0), (xy 5 0). split; [vm_compute; reflexivity|].
  apply C23_rejects_ends_f32_partial.
Qed.
Print Assumptions C23_include_endpoints_refuted.

(** ** C59: the exact acceptance region, and the parameter that has no effect *)
Theorem C59_on_segment_iff :
  forall a b p incl, is_on_line_segment (xp a) (xp b) (xp p) incl = true <->
  dist a p + dist p b < dist a b + eps32 /\ eps32 < dist a p /\ eps32 < dist p b.
Proof. exact on_segment_test. Qed.
Print Assumptions C59_on_segment_iff.

Theorem C59_include_endpoints_ignored :
  forall (O : Ops) (a b p : Vec2 O) i j, is_on_line_segment a b p i = is_on_line_segment a b p j.
Proof. reflexivity. Qed.
Print Assumptions C59_include_endpoints_ignored.

Example C23_C59_example :
  is_on_line_segment (O := XO) (xp (P2 0 0)) (xp (P2 4 0)) (xp (P2 1 0)) false = true.
Proof.
  apply C23_on_segment_accepts_partial.
  - exists (/4). split; [lra|]. unfold along; simpl. f_equal; lra.
  - pose proof eps32_small. unfold dist; simpl. replace ((1 - 0) * (1 - 0) + (0 - 0) * (0 - 0)) with 1 by ring.
    rewrite sqrt_1. lra.
  - pose proof eps32_small. unfold dist; simpl.
    replace ((4 - 1) * (4 - 1) + (0 - 0) * (0 - 0)) with (3 * 3) by ring.
    rewrite sqrt_square; lra.
Qed.

(** ** C24 *)
Theorem C24_incenter :
  forall a b c, ~ collinear3 a b c ->
  exists i r, calculate_triangle_incenter (xp a) (xp b) (xp c) = Some (xp i, Some r : XO) /\
    0 < r /\ inside_triangle a b c i /\
    line_dist a b i = r /\ line_dist b c i = r /\ line_dist c a i = r.
Proof. exact incenter_spec. Qed.
Print Assumptions C24_incenter.

Theorem C24_incenter_none_iff_degenerate :
  forall a b c, calculate_triangle_incenter (xp a) (xp b) (xp c) = None <-> collinear3 a b c.
Proof.
  intros a b c. rewrite <- degenerate_iff. unfold calculate_triangle_incenter.
  destruct (is_degenerate_triangle _ _ _); split; try easy.
Qed.
Print Assumptions C24_incenter_none_iff_degenerate.

Example C24_example : ~ collinear3 (P2 0 0) (P2 4 0) (P2 0 3).
Proof. unfold collinear3, PlaneSpec.cross; simpl. lra. Qed.

(** ** C25 *)
Theorem C25_degenerate_iff_collinear :
  forall a b c, is_degenerate_triangle (xp a) (xp b) (xp c) = true <-> collinear3 a b c.
Proof. exact degenerate_iff. Qed.
Print Assumptions C25_degenerate_iff_collinear.

Example C25_example :
  is_degenerate_triangle (xp (P2 0 0)) (xp (P2 1 2)) (xp (P2 3 6)) = true /\
  is_degenerate_triangle (xp (P2 0 0)) (xp (P2 1 2)) (xp (P2 3 7)) = false.
Proof.
  split.
  - apply C25_degenerate_iff_collinear. unfold collinear3, PlaneSpec.cross; simpl. lra.
  - apply not_true_is_false. rewrite C25_degenerate_iff_collinear.
    unfold collinear3, PlaneSpec.cross; simpl. lra.
Qed.

(** ** C26 *)
Theorem C26_perpendicular_foot :
  forall a b p, a <> b ->
  exists f, calculate_perpendicular_point (xp a) (xp b) (xp p) = xp f /\
    on_line a b f /\ dot a b f p = 0 /\ (forall q, on_line a b q -> dist f p <= dist q p).
Proof. exact perpendicular_foot. Qed.
Print Assumptions C26_perpendicular_foot.

Theorem C26_degenerate_nan_f32 :
  forall lm (a p : Vec2 (FO lm)),
  vx (calculate_perpendicular_point a a p) = (B754_nan : f32) /\
  vy (calculate_perpendicular_point a a p) = (B754_nan : f32).
Proof. exact perpendicular_point_degenerate. Qed.
Print Assumptions C26_degenerate_nan_f32.

Example C26_example : exists f,
  calculate_perpendicular_point (xp (P2 0 0)) (xp (P2 1 1)) (xp (P2 2 0)) = xp f /\ f = P2 1 1.
Proof.
  eexists. split; [|reflexivity]. unfold calculate_perpendicular_point, powf2, xp; simpl.
  destruct (Req_EM_T _ 0); [lra|]. unfold lift2. f_equal; f_equal; lra.
Qed.

(** ** C27 *)
Theorem C27_midpoint :
  forall a b, exists m, calculate_midpoint (xp a) (xp b) = xp m /\
    m = along a b (/2) /\ dist a m = dist m b.
Proof. exact midpoint_spec. Qed.
Print Assumptions C27_midpoint.

Theorem C27_midpoint_symmetric_f32 :
  forall lm (a b : Vec2 (FO lm)), calculate_midpoint a b = calculate_midpoint b a.
Proof.
  intros lm a b. unfold calculate_midpoint, p_add.
  now rewrite (add_comm _ (FO_laws lm) (vx a)), (add_comm _ (FO_laws lm) (vy a)).
Qed.
Print Assumptions C27_midpoint_symmetric_f32.

Theorem C27_bisector_equidistant_partial :
  forall a b off, vx a <> vx b -> vy a <> vy b ->
  exists m s, calculate_perpendicular_bisector (xp a) (xp b) (Some off : XO) = (xp m, xp s) /\
    dist a m = dist m b /\ dist a s = dist s b.
Proof.
  intros a b off Hx Hy. destruct (bisector_spec a b off Hx Hy) as (m & s & H & _ & H1 & H2 & _).
  now exists m, s.
Qed.
Print Assumptions C27_bisector_equidistant_partial.
(** Missing for the full C27: axis-parallel segments, and the distance of the second point. *)

Theorem C27_offset_distance_refuted :
  exists a b off m s, vx a <> vx b /\ vy a <> vy b /\
    calculate_perpendicular_bisector (xp a) (xp b) (Some off : XO) = (xp m, xp s) /\
    line_dist a b s <> Rabs off.
Proof.
  destruct (bisector_spec (P2 0 0) (P2 1 1) 1) as (m & s & H & _ & _ & _ & _ & D); simpl; try lra.
  exists (P2 0 0), (P2 1 1), 1, m, s. simpl. repeat split; try lra; [exact H|].
  rewrite D. simpl. rewrite Rminus_0_r, Rabs_R1. unfold dist; simpl. intros E.
  replace ((1 - 0) * (1 - 0) + (1 - 0) * (1 - 0)) with 2 in E by ring.
  pose proof (sqrt_sqrt 2 ltac:(lra)) as Q. assert (sqrt 2 = 1) by lra. rewrite H0 in Q. lra.
Qed.
Print Assumptions C27_offset_distance_refuted.

Theorem C27_horizontal_not_finite :
  forall lm (a b : Vec2 (FO lm)) off,
  oeq (vy b - vy a)%ops c0 = true -> is_finite (vx b - vx a : f32)%ops = true ->
  oeq (vx b - vx a)%ops c0 = false ->
  is_finite (vy (snd (calculate_perpendicular_bisector a b off)) : f32) = false.
Proof. exact bisector_horizontal. Qed.
Print Assumptions C27_horizontal_not_finite.

Example C27_example :
  oeq (vy (xy 4 1) - vy (xy 0 1))%ops c0 = true /\
  is_finite (vx (xy 4 1) - vx (xy 0 1) : f32)%ops = true /\
  oeq (vx (xy 4 1) - vx (xy 0 1))%ops c0 = false.
Proof. repeat split; vm_compute; reflexivity. Qed.

(** ** C60: where the second bisector point is *)
Theorem C60_bisector_second_point :
  forall a b off, vx a <> vx b -> vy a <> vy b ->
  exists m s, calculate_perpendicular_bisector (xp a) (xp b) (Some off : XO) = (xp m, xp s) /\
    m = along a b (/2) /\ dist a s = dist s b /\ vx s = vx m + off /\
    line_dist a b s = Rabs off * dist a b / Rabs (vy b - vy a).
Proof.
  intros a b off Hx Hy. destruct (bisector_spec a b off Hx Hy) as (m & s & H & H0 & _ & H2 & H3 & H4).
  now exists m, s.
Qed.
Print Assumptions C60_bisector_second_point.

Example C60_example : vx (P2 0 0) <> vx (P2 4 2) /\ vy (P2 0 0) <> vy (P2 4 2).
Proof. simpl. lra. Qed.

(** ** C28 *)
Theorem C28_result_on_both_lines_partial :
  forall a b c d q, calculate_line_intersection (xp a) (xp b) (xp c) (xp d) = Some q ->
  exists p, q = xp p /\ on_line a b p /\ on_line c d p.
Proof.
  intros a b c d q H. apply line_intersection_spec in H. destruct H as (p & H & _ & H1 & H2).
  exists p. repeat split; try assumption; now apply segment_line.
Qed.
Print Assumptions C28_result_on_both_lines_partial.
(** Missing for the full C28: a result whenever the lines are not parallel.  False: *)

Theorem C28_lines_beyond_segments_refuted :
  exists a b c d p, eps32 < Rabs (cross a b c d) /\ on_line a b p /\ on_line c d p /\
    calculate_line_intersection (xp a) (xp b) (xp c) (xp d) = None.
Proof.
  exists (P2 0 0), (P2 1 0), (P2 5 (-1)), (P2 5 1), (P2 5 0).
  unfold PlaneSpec.cross; simpl. split; [|split; [|split]].
  - pose proof eps32_small. rewrite Rabs_pos_eq; lra.
  - exists 5. unfold along; simpl. f_equal; lra.
  - exists (/2). unfold along; simpl. f_equal; lra.
  - destruct (calculate_line_intersection _ _ _ _) as [q|] eqn:E; [|reflexivity]. exfalso.
    apply line_intersection_spec in E. destruct E as (p & _ & _ & (t & Ht & P1) & (s & Hs & P2')).
    rewrite P1 in P2'. unfold along in P2'; simpl in P2'. inversion P2'. lra.
Qed.
Print Assumptions C28_lines_beyond_segments_refuted.

(** ** C61: calculate_line_intersection is the intersection of the segments *)
Theorem C61_line_intersection_iff :
  forall a b c d q, calculate_line_intersection (xp a) (xp b) (xp c) (xp d) = Some q <->
  exists p, q = xp p /\ eps32 < Rabs (cross a b c d) /\ on_segment a b p /\ on_segment c d p.
Proof. exact line_intersection_spec. Qed.
Print Assumptions C61_line_intersection_iff.

Theorem C61_agrees_with_segment_intersection :
  forall a b c d, eps32 < Rabs (cross a b c d) ->
  calculate_line_intersection (xp a) (xp b) (xp c) (xp d) =
  calculate_line_segment_intersection (xp a) (xp b) (xp c) (xp d).
Proof.
  intros a b c d H.
  assert (N : cross a b c d <> 0).
  { intros Z. rewrite Z, Rabs_R0 in H. pose proof eps32_pos. lra. }
  destruct (calculate_line_intersection _ _ _ _) as [q|] eqn:E.
  - symmetry. apply segment_intersection_spec. apply line_intersection_spec in E.
    destruct E as (p & E1 & _ & E2). now exists p.
  - destruct (calculate_line_segment_intersection _ _ _ _) as [q|] eqn:E'; [|reflexivity].
    apply segment_intersection_spec in E'. destruct E' as (p & E1 & _ & E2).
    rewrite <- E. apply line_intersection_spec. now exists p.
Qed.
Print Assumptions C61_agrees_with_segment_intersection.

Example C61_example : eps32 < Rabs (cross (P2 0 0) (P2 2 2) (P2 0 2) (P2 2 0)).
Proof.
  pose proof eps32_small. unfold PlaneSpec.cross; simpl.
  rewrite Rabs_minus_sym, Rabs_pos_eq; lra.
Qed.

(** ** C29 *)
Theorem C29_parallel_complete :
  forall a b c d, a <> b -> c <> d -> cross a b c d = 0 ->
  parallel (xp a) (xp b) (xp c) (xp d) = true.
Proof. exact parallel_complete. Qed.
Print Assumptions C29_parallel_complete.

(** The sine of the angle is |cross| / (|ab| |cd|). *)
Theorem C29_parallel_sound :
  forall a b c d, parallel (xp a) (xp b) (xp c) (xp d) = true ->
  a <> b /\ c <> d /\ Rabs (cross a b c d) < sqrt (2 * eps32) * (dist a b * dist c d).
Proof. exact parallel_sound. Qed.
Print Assumptions C29_parallel_sound.

(** Reversal (k = -1), scaling and translation at once: a segment whose vector is a
    nonzero multiple of that of [a b] is as parallel to [c d] as [a b] is. *)
Theorem C29_parallel_invariant :
  forall a b a' b' c d k, k <> 0 ->
  vx b' - vx a' = k * (vx b - vx a) -> vy b' - vy a' = k * (vy b - vy a) ->
  parallel (xp a') (xp b') (xp c) (xp d) = parallel (xp a) (xp b) (xp c) (xp d).
Proof.
  intros a b a' b' c d k Hk Hx Hy.
  assert (D : dist a' b' = Rabs k * dist a b).
  { apply sq_eq; [apply dist_nonneg|apply Rmult_le_pos; [apply Rabs_pos|apply dist_nonneg]|].
    replace (Rabs k * dist a b * (Rabs k * dist a b)) with ((Rabs k * Rabs k) * (dist a b * dist a b)) by ring.
    rewrite <- Rabs_mult, (Rabs_pos_eq (k * k)) by (pose proof (sq_pos k Hk); lra).
    rewrite !dist_sq, Hx, Hy. ring. }
  assert (E : dot a' b' c d = k * dot a b c d) by (unfold dot; rewrite Hx, Hy; ring).
  assert (Q : a' = b' <-> a = b).
  { split; intros ->.
    - rewrite dist_self0 in D. symmetry in D. apply Rmult_integral in D. destruct D as [D|D].
      + apply Rabs_no_R0 in Hk. contradiction.
      + now apply dist_zero.
    - rewrite dist_self0, Rmult_0_r in D. now apply dist_zero. }
  apply eq_true_iff_eq. rewrite !parallel_iff, Q.
  destruct (Req_dec (dist a b) 0) as [Z|Z].
  { apply dist_zero in Z. tauto. }
  destruct (Req_dec (dist c d) 0) as [Z'|Z'].
  { apply dist_zero in Z'. tauto. }
  assert (K : Rabs (cosine a' b' c d) = Rabs (cosine a b c d)).
  { unfold cosine. rewrite D, E. pose proof (Rabs_no_R0 k Hk).
    replace (k * dot a b c d / (Rabs k * dist a b * dist c d))
      with (k / Rabs k * (dot a b c d / (dist a b * dist c d))) by (field; auto).
    rewrite Rabs_mult. unfold Rdiv at 1. rewrite Rabs_mult, Rabs_inv, Rabs_Rabsolu.
    field_simplify; auto. }
  rewrite K. tauto.
Qed.
Print Assumptions C29_parallel_invariant.

Theorem C29_parallel_symmetric_f32 :
  forall lm (a b c d : Vec2 (FO lm)), parallel a b c d = parallel c d a b.
Proof. exact parallel_symmetric. Qed.
Print Assumptions C29_parallel_symmetric_f32.

Theorem C29_parallel_symmetric :
  forall a b c d, parallel (xp a) (xp b) (xp c) (xp d) = parallel (xp c) (xp d) (xp a) (xp b).
Proof.
  intros. apply eq_true_iff_eq. rewrite !parallel_iff.
  replace (cosine c d a b) with (cosine a b c d); [tauto|].
  unfold cosine, dot. rewrite (Rmult_comm (dist c d)). apply (f_equal (fun x => x / _)). ring.
Qed.
Print Assumptions C29_parallel_symmetric.

Theorem C29_degenerate_false_f32 :
  forall lm (a c d : Vec2 (FO lm)), parallel a a c d = false /\ parallel c d a a = false.
Proof. exact parallel_degenerate. Qed.
Print Assumptions C29_degenerate_false_f32.

Example C29_example : parallel (xp (P2 0 0)) (xp (P2 1 2)) (xp (P2 5 5)) (xp (P2 3 1)) = true.
Proof.
  apply C29_parallel_complete; unfold PlaneSpec.cross; simpl; try lra; intros H; inversion H; lra.
Qed.
