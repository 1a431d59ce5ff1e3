(** * Proofs about geometry/utils.rs in exact arithmetic. *)
From Coq Require Import Reals List Bool Lra Lia Psatz.
From Flocq Require Import Core.Core.
From Verif Require Import Scalar Utils Graph GraphSpec PlaneSpec Laws ListSpec Closest.
Import ListNotations.
Local Open Scope R_scope.

(** ** Distances *)
Lemma sumsq_nonneg : forall x y, 0 <= x * x + y * y.
Proof. intros. nra. Qed.

Lemma sq_pos : forall x : R, x <> 0 -> 0 < x * x.
Proof. intros x H. destruct (Rtotal_order x 0) as [L|[E|G]]; [nra|contradiction|nra]. Qed.

Lemma dist_nonneg : forall p q, 0 <= dist p q.
Proof. intros. apply sqrt_pos. Qed.

Lemma dist_sq : forall p q, dist p q * dist p q =
  (vx q - vx p) * (vx q - vx p) + (vy q - vy p) * (vy q - vy p).
Proof. intros. unfold dist. apply sqrt_sqrt, sumsq_nonneg. Qed.

Lemma dist_sym : forall p q, dist p q = dist q p.
Proof. intros. unfold dist. f_equal. ring. Qed.

Lemma dist_self0 : forall p, dist p p = 0.
Proof.
  intros. unfold dist. replace (_ + _) with 0 by ring. apply sqrt_0.
Qed.

Lemma dist_zero : forall p q, dist p q = 0 -> p = q.
Proof.
  intros [px py] [qx qy] H. pose proof (dist_sq (P2 px py) (P2 qx qy)) as S.
  rewrite H in S. cbn [vx vy] in S.
  destruct (Rplus_sqr_eq_0 (qx - px) (qy - py)) as [E1 E2]; [unfold Rsqr; lra|].
  f_equal; lra.
Qed.

Lemma dist_pos : forall p q, p <> q -> 0 < dist p q.
Proof.
  intros p q H. destruct (dist_nonneg p q) as [P|P]; [exact P|].
  symmetry in P. apply dist_zero in P. contradiction.
Qed.

Lemma sq_le : forall x y, 0 <= y -> x * x <= y * y -> x <= y.
Proof. intros x y H K. apply Rnot_lt_le. intros L. nra. Qed.
Lemma sq_eq : forall x y, 0 <= x -> 0 <= y -> x * x = y * y -> x = y.
Proof. intros x y H K E. apply Rle_antisym; apply sq_le; lra. Qed.

(** Cauchy-Schwarz and the triangle inequality. *)
Lemma lagrange : forall a b c d : point,
  dot a b c d * dot a b c d + cross a b c d * cross a b c d =
  (dist a b * dist a b) * (dist c d * dist c d).
Proof. intros. rewrite !dist_sq. unfold dot, cross. ring. Qed.

Lemma dot_le : forall a b c d, dot a b c d <= dist a b * dist c d.
Proof.
  intros. apply sq_le.
  - apply Rmult_le_pos; apply dist_nonneg.
  - pose proof (lagrange a b c d). nra.
Qed.

Lemma triangle : forall a b c, dist a c <= dist a b + dist b c.
Proof.
  intros a b c. apply sq_le.
  - pose proof (dist_nonneg a b). pose proof (dist_nonneg b c). lra.
  - pose proof (dot_le a b b c) as D.
    assert (E : dist a c * dist a c = dist a b * dist a b + dist b c * dist b c + 2 * dot a b b c).
    { rewrite !dist_sq. unfold dot. ring. }
    rewrite E. lra.
Qed.

(** ** The model computes these *)
Lemma distance_xp : forall a b, distance (O := XO) (xp a) (xp b) = Some (dist a b).
Proof.
  intros a b. unfold distance, p_norm, p_dot, p_sub, xp, dist; simpl.
  match goal with |- context [Rlt_dec ?e 0] => destruct (Rlt_dec e 0) as [C|C] end.
  - exfalso. pose proof (sumsq_nonneg (vx b - vx a) (vy b - vy a)). lra.
  - reflexivity.
Qed.

(** ** Heron *)
Lemma heron : forall a b c,
  let A := dist b c in let B := dist a c in let C := dist a b in
  (A + B + C) * (A + B - C) * (A + C - B) * (B + C - A) = 4 * (cross a b a c * cross a b a c).
Proof.
  intros a b c A B C.
  replace ((A + B + C) * (A + B - C) * (A + C - B) * (B + C - A))
    with (2 * ((A * A) * (B * B) + (B * B) * (C * C) + (A * A) * (C * C))
          - (A * A) * (A * A) - (B * B) * (B * B) - (C * C) * (C * C)) by ring.
  unfold A, B, C. rewrite !dist_sq. unfold cross. ring.
Qed.

Lemma degenerate_iff : forall a b c,
  is_degenerate_triangle (O := XO) (xp a) (xp b) (xp c) = true <-> collinear3 a b c.
Proof.
  intros a b c. unfold is_degenerate_triangle. rewrite !distance_xp. simpl.
  pose proof (heron a b c) as H. simpl in H.
  pose proof (dist_nonneg b c). pose proof (dist_nonneg a c). pose proof (dist_nonneg a b).
  pose proof (triangle a b c) as T1. pose proof (triangle a c b) as T2.
  pose proof (triangle b a c) as T3. rewrite (dist_sym b a) in T3. rewrite (dist_sym c b) in T2.
  unfold collinear3. set (A := dist b c) in *. set (B := dist a c) in *. set (C := dist a b) in *.
  set (X := cross a b a c) in *.
  match goal with |- (if ?b then true else false) = true <-> _ => assert (E : b = true <-> X = 0) end.
  { rewrite !orb_true_iff, !Rleb_true. split.
    - intros K. assert (X * X = 0); [|nra].
      assert (P : (A + B + C) * (A + B - C) * (A + C - B) * (B + C - A) = 0); [|lra].
      destruct K as [[K|K]|K].
      + replace (A + B - C) with 0 by lra. ring.
      + replace (A + C - B) with 0 by lra. ring.
      + replace (B + C - A) with 0 by lra. ring.
    - intros X0. rewrite X0 in H.
      destruct (Rle_dec (A + B) C) as [|N1]; [tauto|].
      destruct (Rle_dec (A + C) B) as [|N2]; [tauto|].
      destruct (Rle_dec (B + C) A) as [|N3]; [tauto|].
      exfalso.
      assert (0 < (A + B + C) * (A + B - C) * (A + C - B) * (B + C - A)); [|lra].
      repeat apply Rmult_lt_0_compat; lra. }
  destruct (_ || _); intuition congruence.
Qed.

Lemma cross_perm : forall a b c, cross b c b a = cross a b a c /\ cross c a c b = cross a b a c.
Proof. intros. unfold cross. split; ring. Qed.

Theorem incenter_spec : forall a b c, ~ collinear3 a b c ->
  exists i r, calculate_triangle_incenter (O := XO) (xp a) (xp b) (xp c) = Some (xp i, Some r) /\
    0 < r /\ inside_triangle a b c i /\
    line_dist a b i = r /\ line_dist b c i = r /\ line_dist c a i = r.
Proof.
  intros a b c Hn. unfold calculate_triangle_incenter.
  destruct (is_degenerate_triangle _ _ _) eqn:E; [apply degenerate_iff in E; contradiction|].
  rewrite !distance_xp.
  assert (Nab : a <> b) by (intros ->; apply Hn; unfold collinear3, cross; ring).
  assert (Nac : a <> c) by (intros ->; apply Hn; unfold collinear3, cross; ring).
  assert (Nbc : b <> c) by (intros ->; apply Hn; unfold collinear3, cross; ring).
  pose proof (dist_pos _ _ Nab) as PC. pose proof (dist_pos _ _ Nac) as PB.
  pose proof (dist_pos _ _ Nbc) as PA.
  pose proof (heron a b c) as H. simpl in H. unfold collinear3 in Hn.
  assert (Xpos : 0 < Rabs (cross a b a c)) by (now apply Rabs_pos_lt).
  assert (Ec : dist c a = dist a c) by apply dist_sym.
  set (A := dist b c) in *. set (B := dist a c) in *. set (C := dist a b) in *.
  set (X := cross a b a c) in *.
  set (P := A + B + C). assert (PP : 0 < P) by (unfold P; lra).
  set (i := P2 ((A * vx a + B * vx b + C * vx c) * (1 / P)) ((A * vy a + B * vy b + C * vy c) * (1 / P))).
  exists i, (Rabs X / P).
  assert (SQ : sqrt (P * / 2 * (P * / 2 - A) * (P * / 2 - B) * (P * / 2 - C)) = Rabs X / 2).
  { replace (P * / 2 * (P * / 2 - A) * (P * / 2 - B) * (P * / 2 - C))
      with ((A + B + C) * (A + B - C) * (A + C - B) * (B + C - A) / 16) by (unfold P; field).
    rewrite H. replace (4 * (X * X) / 16) with (Rsqr (X / 2)) by (unfold Rsqr; field).
    rewrite sqrt_Rsqr_abs. unfold Rdiv. rewrite Rabs_mult, (Rabs_pos_eq (/ 2)); [reflexivity|lra]. }
  split; [|split; [|split]].
  - simpl. unfold xdiv.
    destruct (Req_EM_T (A + B + C) 0) as [Z|_]; [unfold P in PP; lra|]. simpl.
    fold P. unfold xsqrt.
    destruct (Rlt_dec _ 0) as [L|_].
    { exfalso.
      replace (P * / 2 * (P * / 2 - A) * (P * / 2 - B) * (P * / 2 - C))
        with ((A + B + C) * (A + B - C) * (A + C - B) * (B + C - A) / 16) in L by (unfold P; field).
      rewrite H in L. nra. }
    destruct (Req_EM_T (P * / 2) 0) as [Z|_]; [lra|].
    rewrite SQ. f_equal. f_equal. f_equal. field. lra.
  - apply Rdiv_lt_0_compat; assumption.
  - exists (A / P), (B / P), (C / P).
    split; [apply Rdiv_lt_0_compat; assumption|]. split; [apply Rdiv_lt_0_compat; assumption|].
    split; [apply Rdiv_lt_0_compat; assumption|]. split; [unfold P; field; unfold P in PP; lra|].
    unfold i. f_equal; field; lra.
  - assert (K : forall p q l, 0 < l -> cross p q p i = l / P * X -> dist p q = l -> line_dist p q i = Rabs X / P).
    { intros p q l Hl Hc Hd. unfold line_dist. rewrite Hc, Hd, Rabs_mult.
      rewrite (Rabs_pos_eq (l / P)) by (apply Rlt_le, Rdiv_lt_0_compat; assumption).
      field. lra. }
    assert (I : forall p q, cross p q p i =
       (A * cross p q p a + B * cross p q p b + C * cross p q p c) / P).
    { intros p q. unfold i, cross; simpl. unfold P. field. unfold P in PP. lra. }
    split; [|split].
    + apply (K a b C); auto. rewrite I. unfold X, cross. field. lra.
    + apply (K b c A); auto. rewrite I. unfold X, cross. field. lra.
    + apply (K c a B); auto. rewrite I. unfold X, cross. field. lra.
Qed.

(** ** Segment intersection *)
Lemma quot : forall t n d, d <> 0 -> t * d = n -> t = n / d.
Proof. intros t n d H <-. field. exact H. Qed.

Lemma cramer_t : forall ax ay ux uy cx cy vx vy s t : R,
  ax + t * ux = cx + s * vx -> ay + t * uy = cy + s * vy ->
  t * (ux * vy - uy * vx) = vx * (ay - cy) - vy * (ax - cx).
Proof.
  intros until t. intros Hx Hy.
  replace (t * (ux * vy - uy * vx)) with ((ax + t * ux) * vy - (ay + t * uy) * vx - ax * vy + ay * vx) by ring.
  rewrite Hx, Hy. ring.
Qed.
Lemma cramer_s : forall ax ay ux uy cx cy vx vy s t : R,
  ax + t * ux = cx + s * vx -> ay + t * uy = cy + s * vy ->
  s * (ux * vy - uy * vx) = ux * (ay - cy) - uy * (ax - cx).
Proof.
  intros until t. intros Hx Hy.
  replace (s * (ux * vy - uy * vx)) with ((cy + s * vy) * ux - (cx + s * vx) * uy - cy * ux + cx * uy) by ring.
  rewrite <- Hx, <- Hy. ring.
Qed.

Theorem segment_intersection_spec : forall a b c d q,
  calculate_line_segment_intersection (O := XO) (xp a) (xp b) (xp c) (xp d) = Some q <->
  exists p, q = xp p /\ cross a b c d <> 0 /\ on_segment a b p /\ on_segment c d p.
Proof.
  intros [ax ay] [bx by_] [cx cy] [dx dy] q.
  unfold calculate_line_segment_intersection, on_segment, along, cross, xp; simpl.
  set (den := - (dx - cx) * (by_ - ay) + (bx - ax) * (dy - cy)).
  set (sn := - (by_ - ay) * (ax - cx) + (bx - ax) * (ay - cy)).
  set (tn := (dx - cx) * (ay - cy) - (dy - cy) * (ax - cx)).
  assert (Ed : (bx - ax) * (dy - cy) - (by_ - ay) * (dx - cx) = den) by (unfold den; ring).
  rewrite Ed.
  destruct (Req_EM_T den 0) as [Z|NZ]; simpl.
  { split; [discriminate|]. intros (p & _ & N & _). contradiction. }
  assert (SX : cx + sn / den * (dx - cx) = ax + tn / den * (bx - ax)).
  { unfold sn, tn, den in *. field. exact NZ. }
  assert (SY : cy + sn / den * (dy - cy) = ay + tn / den * (by_ - ay)).
  { unfold sn, tn, den in *. field. exact NZ. }
  destruct (Rleb 0 (sn / den)) eqn:E1, (Rleb (sn / den) 1) eqn:E2,
           (Rleb 0 (tn / den)) eqn:E3, (Rleb (tn / den) 1) eqn:E4; simpl; rcmp; split;
    try discriminate;
    try (intros (p & _ & _ & (t & Ht & Hp) & (s & Hs & Hp')); exfalso; rewrite Hp in Hp'; injection Hp'; intros Qy Qx;
         assert (t = tn / den) by (apply (quot _ _ _ NZ); rewrite <- Ed; exact (cramer_t _ _ _ _ _ _ _ _ _ _ Qx Qy));
         assert (s = sn / den) by (apply (quot _ _ _ NZ); rewrite <- Ed, (cramer_s _ _ _ _ _ _ _ _ _ _ Qx Qy); unfold sn; ring); lra).
  - intros Hq. inversion Hq; subst. exists (P2 (ax + tn / den * (bx - ax)) (ay + tn / den * (by_ - ay))).
    simpl. split; [reflexivity|]. split; [exact NZ|]. split.
    + exists (tn / den). split; [lra|reflexivity].
    + exists (sn / den). split; [lra|]. now rewrite SX, SY.
  - intros (p & -> & _ & (t & Ht & Hp) & (s & Hs & Hp')). rewrite Hp in Hp'. injection Hp'. intros Qy Qx.
    assert (t = tn / den) by (apply (quot _ _ _ NZ); rewrite <- Ed; exact (cramer_t _ _ _ _ _ _ _ _ _ _ Qx Qy)).
    rewrite Hp. simpl. now subst t.
Qed.

Theorem segment_intersection_unique : forall a b c d p q, cross a b c d <> 0 ->
  on_line a b p -> on_line c d p -> on_line a b q -> on_line c d q -> p = q.
Proof.
  intros [ax ay] [bx by_] [cx cy] [dx dy] p q N (t & ->) (s & Hs) (t' & ->) (s' & Hs').
  unfold along, cross in *; simpl in *. inversion Hs as [[X1 Y1]]. inversion Hs' as [[X2 Y2]].
  pose proof (cramer_t _ _ _ _ _ _ _ _ _ _ X1 Y1) as C1. pose proof (cramer_t _ _ _ _ _ _ _ _ _ _ X2 Y2) as C2.
  assert (E : (t - t') * ((bx - ax) * (dy - cy) - (by_ - ay) * (dx - cx)) = 0) by lra.
  apply Rmult_integral in E. destruct E as [E|E]; [|contradiction].
  replace t with t' by lra. reflexivity.
Qed.

(** ** calculate_line_intersection *)
Theorem line_intersection_spec : forall a b c d q,
  calculate_line_intersection (O := XO) (xp a) (xp b) (xp c) (xp d) = Some q <->
  exists p, q = xp p /\ eps32 < Rabs (cross a b c d) /\ on_segment a b p /\ on_segment c d p.
Proof.
  intros [ax ay] [bx by_] [cx cy] [dx dy] q.
  unfold calculate_line_intersection, on_segment, along, cross, xp; simpl.
  set (den := (dy - cy) * (bx - ax) - (dx - cx) * (by_ - ay)).
  assert (Ed : (bx - ax) * (dy - cy) - (by_ - ay) * (dx - cx) = den) by (unfold den; ring).
  rewrite Ed.
  set (tn := (dx - cx) * (ay - cy) - (dy - cy) * (ax - cx)).
  set (sn := (bx - ax) * (ay - cy) - (by_ - ay) * (ax - cx)).
  destruct (Rltb eps32 (Rabs den)) eqn:E0; rcmp.
  2:{ split; [discriminate|]. intros (p & _ & N & _). lra. }
  assert (NZ : den <> 0).
  { intros Z. rewrite Z, Rabs_R0 in E0. pose proof eps32_pos. lra. }
  destruct (Req_EM_T den 0) as [Z|_]; [contradiction|]. simpl.
  assert (SX : cx + sn / den * (dx - cx) = ax + tn / den * (bx - ax)).
  { unfold sn, tn, den in *. field. exact NZ. }
  assert (SY : cy + sn / den * (dy - cy) = ay + tn / den * (by_ - ay)).
  { unfold sn, tn, den in *. field. exact NZ. }
  destruct (Rleb 0 (sn / den)) eqn:E1, (Rleb (sn / den) 1) eqn:E2,
           (Rleb 0 (tn / den)) eqn:E3, (Rleb (tn / den) 1) eqn:E4; simpl; rcmp; split;
    try discriminate;
    try (intros (p & _ & _ & (t & Ht & Hp) & (s & Hs & Hp')); exfalso; rewrite Hp in Hp'; injection Hp'; intros Qy Qx;
         assert (t = tn / den) by (apply (quot _ _ _ NZ); rewrite <- Ed; exact (cramer_t _ _ _ _ _ _ _ _ _ _ Qx Qy));
         assert (s = sn / den) by (apply (quot _ _ _ NZ); rewrite <- Ed, (cramer_s _ _ _ _ _ _ _ _ _ _ Qx Qy); unfold sn; ring); lra).
  - intros Hq. inversion Hq; subst. exists (P2 (ax + tn / den * (bx - ax)) (ay + tn / den * (by_ - ay))).
    simpl. split; [reflexivity|]. split; [exact E0|]. split.
    + exists (tn / den). split; [lra|reflexivity].
    + exists (sn / den). split; [lra|]. now rewrite SX, SY.
  - intros (p & -> & _ & (t & Ht & Hp) & (s & Hs & Hp')). rewrite Hp in Hp'. injection Hp'. intros Qy Qx.
    assert (t = tn / den) by (apply (quot _ _ _ NZ); rewrite <- Ed; exact (cramer_t _ _ _ _ _ _ _ _ _ _ Qx Qy)).
    rewrite Hp. simpl. now subst t.
Qed.

(** ** is_on_line_segment *)
Theorem on_segment_test : forall a b p incl,
  is_on_line_segment (O := XO) (xp a) (xp b) (xp p) incl = true <->
  dist a p + dist p b < dist a b + eps32 /\ eps32 < dist a p /\ eps32 < dist p b.
Proof.
  intros a b p incl. unfold is_on_line_segment. rewrite !distance_xp. simpl.
  rewrite !andb_true_iff, !Rltb_true.
  rewrite (Rabs_pos_eq (dist a p)), (Rabs_pos_eq (dist p b)) by apply dist_nonneg.
  rewrite (Rabs_pos_eq (_ - _)) by (pose proof (triangle a p b); lra).
  split; intros; lra.
Qed.

Lemma on_segment_dist : forall a b p, on_segment a b p -> dist a p + dist p b = dist a b.
Proof.
  intros a b p (t & Ht & ->).
  assert (E1 : dist a (along a b t) = t * dist a b).
  { apply sq_eq; [apply dist_nonneg|apply Rmult_le_pos; [lra|apply dist_nonneg]|].
    rewrite dist_sq. replace (t * dist a b * (t * dist a b)) with (t * t * (dist a b * dist a b)) by ring.
    rewrite dist_sq. unfold along; simpl. ring. }
  assert (E2 : dist (along a b t) b = (1 - t) * dist a b).
  { apply sq_eq; [apply dist_nonneg|apply Rmult_le_pos; [lra|apply dist_nonneg]|].
    rewrite dist_sq. replace ((1 - t) * dist a b * ((1 - t) * dist a b)) with ((1 - t) * (1 - t) * (dist a b * dist a b)) by ring.
    rewrite dist_sq. unfold along; simpl. ring. }
  rewrite E1, E2. ring.
Qed.

(** ** Perpendicular foot *)
Theorem perpendicular_foot : forall a b p, a <> b ->
  exists f, calculate_perpendicular_point (O := XO) (xp a) (xp b) (xp p) = xp f /\
    on_line a b f /\ dot a b f p = 0 /\
    (forall q, on_line a b q -> dist f p <= dist q p).
Proof.
  intros [ax ay] [bx by_] [px py] N.
  assert (D : 0 < (by_ - ay) * (by_ - ay) + (bx - ax) * (bx - ax)).
  { destruct (Req_dec bx ax) as [->|Nx]; [destruct (Req_dec by_ ay) as [->|Ny]|].
    - contradiction.
    - assert (0 < (by_ - ay) * (by_ - ay)) by (apply sq_pos; lra). nra.
    - assert (0 < (bx - ax) * (bx - ax)) by (apply sq_pos; lra).
      pose proof (sumsq_nonneg (by_ - ay) 0). lra. }
  set (den := (by_ - ay) * (by_ - ay) + (bx - ax) * (bx - ax)) in *.
  set (num := (by_ - ay) * (px - ax) - (bx - ax) * (py - ay)).
  set (f := P2 (px - num / den * (by_ - ay)) (py + num / den * (bx - ax))).
  exists f.
  assert (L : on_line (P2 ax ay) (P2 bx by_) f).
  { exists (((bx - ax) * (px - ax) + (by_ - ay) * (py - ay)) / den).
    unfold f, along, num; simpl. f_equal; unfold den in *; field; lra. }
  assert (P : dot (P2 ax ay) (P2 bx by_) f (P2 px py) = 0).
  { unfold dot, f; simpl. ring. }
  split; [|split; [exact L|split; [exact P|]]].
  - unfold calculate_perpendicular_point, powf2, xp; simpl. fold num den.
    destruct (Req_EM_T den 0); [lra|]. reflexivity.
  - intros q Hq. destruct L as (t & Lt), Hq as (s & Hs).
    apply sq_le; [apply dist_nonneg|].
    assert (E : dist q (P2 px py) * dist q (P2 px py) =
      dist f (P2 px py) * dist f (P2 px py) + (t - s) * (t - s) * den
      + 2 * (t - s) * dot (P2 ax ay) (P2 bx by_) f (P2 px py)).
    { rewrite !dist_sq, Hs, Lt. unfold along, dot, den; simpl. ring. }
    rewrite E, P.
    assert (0 <= (t - s) * (t - s) * den) by (apply Rmult_le_pos; [pose proof (sumsq_nonneg (t - s) 0)|]; lra).
    lra.
Qed.

(** ** Midpoint and bisector *)
Theorem midpoint_spec : forall a b,
  exists m, calculate_midpoint (O := XO) (xp a) (xp b) = xp m /\ m = along a b (/2) /\
    dist a m = dist m b.
Proof.
  intros [ax ay] [bx by_].
  exists (P2 ((ax + bx) * /2) ((ay + by_) * /2)). split; [reflexivity|]. split.
  - unfold along; simpl. f_equal; lra.
  - unfold dist; simpl. f_equal. field.
Qed.

Theorem bisector_spec : forall a b off, vx a <> vx b -> vy a <> vy b ->
  exists m s, calculate_perpendicular_bisector (O := XO) (xp a) (xp b) (Some off) = (xp m, xp s) /\
    m = along a b (/2) /\ dist a m = dist m b /\ dist a s = dist s b /\
    vx s = vx m + off /\
    line_dist a b s = Rabs off * dist a b / Rabs (vy b - vy a).
Proof.
  intros [ax ay] [bx by_] off Nx Ny; simpl in Nx, Ny.
  set (sl := (by_ - ay) / (bx - ax)).
  set (m := P2 ((ax + bx) * /2) ((ay + by_) * /2)).
  set (s := P2 (vx m + off) (vy m + off * ((ax - bx) / (by_ - ay)))).
  assert (Hsl : sl <> 0).
  { unfold sl. intros H. apply Rmult_integral in H. destruct H as [H|H]; [lra|].
    apply Rinv_neq_0_compat in H; [contradiction|lra]. }
  exists m, s. split.
  - unfold calculate_perpendicular_bisector, xp; simpl.
    destruct (Req_EM_T (bx - ax) 0); [lra|]. simpl. fold sl.
    destruct (Req_EM_T sl 0); [contradiction|]. simpl.
    unfold s, m; cbn [vx vy]. apply f_equal. apply f_equal. apply f_equal.
    unfold sl. field. split; lra.
  - split; [unfold m, along; simpl; f_equal; lra|].
    split; [unfold dist, m; simpl; f_equal; field|].
    split; [unfold dist, s, m; simpl; f_equal; field; lra|].
    split; [reflexivity|].
    unfold line_dist.
    assert (Ec : cross (P2 ax ay) (P2 bx by_) (P2 ax ay) s =
       - off / (by_ - ay) * (dist (P2 ax ay) (P2 bx by_) * dist (P2 ax ay) (P2 bx by_))).
    { rewrite dist_sq. unfold cross, s, m; simpl. field. lra. }
    assert (Dp : 0 < dist (P2 ax ay) (P2 bx by_)) by (apply dist_pos; intros H; inversion H; lra).
    rewrite Ec. unfold Rdiv. rewrite !Rabs_mult, Rabs_Ropp, Rabs_inv, (Rabs_pos_eq (dist _ _)) by lra.
    cbn [vx vy]. assert (Rabs (by_ - ay) <> 0) by (apply Rabs_no_R0; lra).
    set (D := dist _ _) in *. field. split; lra.
Qed.

(** ** parallel *)
Lemma p_norm_xp : forall a b, p_norm (O := XO) (p_sub (xp b) (xp a)) = Some (dist a b).
Proof. exact distance_xp. Qed.

Definition cosine (a b c d : point) : R := dot a b c d / (dist a b * dist c d).

Lemma parallel_iff : forall a b c d,
  parallel (O := XO) (xp a) (xp b) (xp c) (xp d) = true <->
  a <> b /\ c <> d /\ Rabs (Rabs (cosine a b c d) - 1) < eps32.
Proof.
  intros a b c d. unfold parallel, normalize_dot.
  rewrite !p_norm_xp. unfold p_div, p_dot, p_sub, xp; simpl. unfold xdiv.
  destruct (Req_EM_T (dist a b) 0) as [Z1|Z1].
  { apply dist_zero in Z1. subst. simpl. split; [discriminate|]. intros (H & _). now destruct H. }
  destruct (Req_EM_T (dist c d) 0) as [Z2|Z2].
  { apply dist_zero in Z2. subst. simpl. split; [discriminate|]. intros (_ & H & _). now destruct H. }
  simpl.
  match goal with |- context [Rabs (Rabs ?e - 1)] => replace e with (cosine a b c d) end.
  2:{ unfold cosine, dot. field. split; assumption. }
  destruct (Rltb _ _) eqn:E; rcmp.
  - split; [intros _|reflexivity]. split; [intros ->; now rewrite dist_self0 in Z1|].
    split; [intros ->; now rewrite dist_self0 in Z2|]. exact E.
  - split; [discriminate|]. intros (_ & _ & H). lra.
Qed.

Lemma cosine_bound : forall a b c d, a <> b -> c <> d -> Rabs (cosine a b c d) <= 1 /\
  cross a b c d * cross a b c d =
  (1 - Rabs (cosine a b c d)) * (1 + Rabs (cosine a b c d)) * ((dist a b * dist a b) * (dist c d * dist c d)).
Proof.
  intros a b c d H1 H2. pose proof (dist_pos _ _ H1). pose proof (dist_pos _ _ H2).
  pose proof (lagrange a b c d) as L.
  assert (Pp : 0 < dist a b * dist c d) by (now apply Rmult_lt_0_compat).
  assert (E : dot a b c d = cosine a b c d * (dist a b * dist c d)).
  { unfold cosine. field. split; lra. }
  rewrite E in L. set (k := cosine a b c d) in *. set (D := dist a b * dist c d) in *.
  assert (L' : k * k * (D * D) + cross a b c d * cross a b c d = D * D) by (unfold D in *; nra).
  assert (K : Rabs k * Rabs k = k * k).
  { rewrite <- Rabs_mult. apply Rabs_pos_eq. nra. }
  split.
  - apply sq_le; [lra|]. rewrite K. assert (0 < D * D) by nra.
    assert (k * k * (D * D) <= 1 * (D * D)) by nra. nra.
  - replace ((1 - Rabs k) * (1 + Rabs k)) with (1 - Rabs k * Rabs k) by ring. rewrite K.
    unfold D in *. nra.
Qed.

Theorem parallel_sound : forall a b c d,
  parallel (O := XO) (xp a) (xp b) (xp c) (xp d) = true ->
  a <> b /\ c <> d /\
  Rabs (cross a b c d) < sqrt (2 * eps32) * (dist a b * dist c d).
Proof.
  intros a b c d H. apply parallel_iff in H. destruct H as (H1 & H2 & H3).
  split; [exact H1|]. split; [exact H2|].
  pose proof (dist_pos _ _ H1). pose proof (dist_pos _ _ H2).
  destruct (cosine_bound a b c d H1 H2) as [B C].
  pose proof (Rabs_pos (cosine a b c d)).
  rewrite Rabs_minus_sym, Rabs_pos_eq in H3 by lra.
  set (k := Rabs (cosine a b c d)) in *. set (D := dist a b * dist c d) in *.
  assert (Dp : 0 < D) by (now apply Rmult_lt_0_compat).
  assert (S : sqrt (2 * eps32) * sqrt (2 * eps32) = 2 * eps32) by (apply sqrt_sqrt; pose proof eps32_pos; lra).
  pose proof (sqrt_pos (2 * eps32)) as Sp.
  set (r := sqrt (2 * eps32)) in *.
  assert (K : Rabs (cross a b c d) * Rabs (cross a b c d) < (r * D) * (r * D)).
  { rewrite <- Rabs_mult, Rabs_pos_eq by nra. rewrite C.
    replace (r * D * (r * D)) with (2 * eps32 * (D * D)) by (rewrite <- S; ring).
    replace (dist a b * dist a b * (dist c d * dist c d)) with (D * D) by (unfold D; ring).
    apply Rmult_lt_compat_r; [nra|]. nra. }
  pose proof (Rabs_pos (cross a b c d)).
  assert (0 <= r * D) by (apply Rmult_le_pos; lra). nra.
Qed.

Theorem parallel_complete : forall a b c d, a <> b -> c <> d -> cross a b c d = 0 ->
  parallel (O := XO) (xp a) (xp b) (xp c) (xp d) = true.
Proof.
  intros a b c d H1 H2 Hc. apply parallel_iff. split; [exact H1|]. split; [exact H2|].
  pose proof (dist_pos _ _ H1). pose proof (dist_pos _ _ H2).
  destruct (cosine_bound a b c d H1 H2) as [B C]. rewrite Hc in C.
  pose proof (Rabs_pos (cosine a b c d)).
  assert (E : Rabs (cosine a b c d) = 1).
  { assert (0 < (dist a b * dist a b) * (dist c d * dist c d)) by (repeat apply Rmult_lt_0_compat; assumption).
    assert ((1 - Rabs (cosine a b c d)) * (1 + Rabs (cosine a b c d)) = 0) by nra. nra. }
  rewrite E, Rminus_diag_eq, Rabs_R0 by reflexivity. apply eps32_pos.
Qed.
