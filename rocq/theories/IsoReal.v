(** * Isometries of the real plane are affine, and the exact graph code commutes with them. *)
From Coq Require Import Reals List Bool Lra Psatz.
From Verif Require Import Scalar Utils Polygon Graph GraphSpec PlaneSpec SimSpec UtilsReal IsoSpec MoveSim.
Import ListNotations.
Local Open Scope R_scope.

Lemma sq2_zero : forall x y : R, x * x + y * y = 0 -> x = 0 /\ y = 0.
Proof. intros x y H. split; nra. Qed.

Lemma iso_sq : forall f, isometry f -> forall p q,
  (vx (f q) - vx (f p)) * (vx (f q) - vx (f p)) + (vy (f q) - vy (f p)) * (vy (f q) - vy (f p)) =
  (vx q - vx p) * (vx q - vx p) + (vy q - vy p) * (vy q - vy p).
Proof. intros f I p q. rewrite <- !dist_sq. now rewrite I. Qed.

Theorem isometry_affine : forall f, isometry f -> exists a b c d e h,
  (forall p, f p = affine a b c d e h p) /\ a * a + c * c = 1 /\ b * b + d * d = 1 /\ a * b + c * d = 0.
Proof.
  intros f I. pose proof (iso_sq f I) as S.
  set (o := f (P2 0 0)). set (u := f (P2 1 0)). set (v := f (P2 0 1)).
  exists (vx u - vx o), (vx v - vx o), (vy u - vy o), (vy v - vy o), (vx o), (vy o).
  pose proof (S (P2 0 0) (P2 1 0)) as S1. pose proof (S (P2 0 0) (P2 0 1)) as S2. pose proof (S (P2 1 0) (P2 0 1)) as S3.
  fold o u v in S1, S2, S3. cbn [vx vy] in S1, S2, S3.
  split; [|split; [|split]]; try nra.
  intros p. pose proof (S (P2 0 0) p) as T1. pose proof (S (P2 1 0) p) as T2. pose proof (S (P2 0 1) p) as T3.
  fold o u v in T1, T2, T3. destruct p as [x y]. cbn [vx vy] in *. set (q := f (P2 x y)) in *.
  unfold affine; cbn [vx vy].
  assert (QU : (vx q - vx o) * (vx u - vx o) + (vy q - vy o) * (vy u - vy o) = x) by nra.
  assert (QV : (vx q - vx o) * (vx v - vx o) + (vy q - vy o) * (vy v - vy o) = y) by nra.
  assert (UU : (vx u - vx o) * (vx u - vx o) + (vy u - vy o) * (vy u - vy o) = 1) by nra.
  assert (VV : (vx v - vx o) * (vx v - vx o) + (vy v - vy o) * (vy v - vy o) = 1) by nra.
  assert (UV : (vx u - vx o) * (vx v - vx o) + (vy u - vy o) * (vy v - vy o) = 0) by nra.
  assert (QQ : (vx q - vx o) * (vx q - vx o) + (vy q - vy o) * (vy q - vy o) = x * x + y * y) by nra.
  revert QU QV UU VV UV QQ. generalize (vx u - vx o), (vy u - vy o), (vx v - vx o), (vy v - vy o).
  intros a c b d QU QV UU VV UV QQ.
  destruct (sq2_zero (vx q - vx o - x * a - y * b) (vy q - vy o - x * c - y * d)) as [E1 E2].
  { replace ((vx q - vx o - x * a - y * b) * (vx q - vx o - x * a - y * b) + (vy q - vy o - x * c - y * d) * (vy q - vy o - x * c - y * d))
      with (((vx q - vx o) * (vx q - vx o) + (vy q - vy o) * (vy q - vy o)) + x * x * (a * a + c * c) + y * y * (b * b + d * d)
        - 2 * x * ((vx q - vx o) * a + (vy q - vy o) * c) - 2 * y * ((vx q - vx o) * b + (vy q - vy o) * d) + 2 * x * y * (a * b + c * d)) by ring.
    rewrite QQ, UU, VV, QU, QV, UV. ring. }
  destruct q as [qx qy]. cbn [vx vy] in *. f_equal; lra.
Qed.

Lemma on_reals_xp : forall f p, on_reals f (xp p) = xp (f p).
Proof. intros f [x y]. reflexivity. Qed.

Lemma on_reals_ext : forall f g, (forall p, f p = g p) -> forall p, on_reals f p = on_reals g p.
Proof. intros f g E [[x|] [y|]]; cbn [on_reals vx vy]; try reflexivity. now rewrite E. Qed.

Lemma reals_dist : forall f, isometry f -> forall a b, distance (O := XO) (on_reals f a) (on_reals f b) = distance (O := XO) a b.
Proof.
  intros f I [[ax|] [ay|]] [[bx|] [by'|]]; try reflexivity;
    try (cbn [on_reals vx vy]; unfold distance, p_norm, p_dot, p_sub, xp; cbn; reflexivity).
  change (P2 (Some ax) (Some ay)) with (xp (P2 ax ay)). change (P2 (Some bx) (Some by')) with (xp (P2 bx by')).
  rewrite !on_reals_xp, !distance_xp. now rewrite I.
Qed.

(** *** Crossings commute with every invertible affine map *)
Definition sden (a b c d : point) : R := - (vx d - vx c) * (vy b - vy a) + (vx b - vx a) * (vy d - vy c).
Definition snum (a b c d : point) : R := - (vy b - vy a) * (vx a - vx c) + (vx b - vx a) * (vy a - vy c).
Definition tnum (a b c d : point) : R := (vx d - vx c) * (vy a - vy c) - (vy d - vy c) * (vx a - vx c).
Lemma calc_xp : forall a b c d : point,
  calculate_line_segment_intersection (O := XO) (xp a) (xp b) (xp c) (xp d) =
  if Req_EM_T (sden a b c d) 0 then None
  else if Rleb 0 (snum a b c d / sden a b c d) && Rleb (snum a b c d / sden a b c d) 1 &&
          Rleb 0 (tnum a b c d / sden a b c d) && Rleb (tnum a b c d / sden a b c d) 1
  then Some (xp (P2 (vx a + tnum a b c d / sden a b c d * (vx b - vx a)) (vy a + tnum a b c d / sden a b c d * (vy b - vy a))))
  else None.
Proof.
  intros [ax ay] [bx by'] [cx cy] [dx dy]. unfold calculate_line_segment_intersection, xp, sden, snum, tnum.
  cbn [vx vy]. cbn. destruct (Req_EM_T (- (dx - cx) * (by' - ay) + (bx - ax) * (dy - cy)) 0) as [E|E]; [reflexivity|].
  cbn. reflexivity.
Qed.

Lemma affine_calc : forall al be ga de e h, al * de - be * ga <> 0 -> forall a b c d,
  let f := affine al be ga de e h in
  calculate_line_segment_intersection (O := XO) (xp (f a)) (xp (f b)) (xp (f c)) (xp (f d)) =
  option_map (on_reals f) (calculate_line_segment_intersection (O := XO) (xp a) (xp b) (xp c) (xp d)).
Proof.
  intros al be ga de e h D a b c d f. rewrite !calc_xp.
  set (D' := al * de - be * ga) in *.
  assert (E0 : sden (f a) (f b) (f c) (f d) = D' * sden a b c d) by (unfold sden, f, D', affine; cbn [vx vy]; ring).
  assert (E1 : snum (f a) (f b) (f c) (f d) = D' * snum a b c d) by (unfold snum, f, D', affine; cbn [vx vy]; ring).
  assert (E2 : tnum (f a) (f b) (f c) (f d) = D' * tnum a b c d) by (unfold tnum, f, D', affine; cbn [vx vy]; ring).
  rewrite E0, E1, E2.
  destruct (Req_EM_T (sden a b c d) 0) as [Z|Z].
  - destruct (Req_EM_T (D' * sden a b c d) 0) as [Z'|Z']; [reflexivity|]. exfalso. apply Z'. rewrite Z. ring.
  - destruct (Req_EM_T (D' * sden a b c d) 0) as [Z'|Z'].
    { exfalso. apply Rmult_integral in Z'. tauto. }
    replace (D' * snum a b c d / (D' * sden a b c d)) with (snum a b c d / sden a b c d) by (field; tauto).
    replace (D' * tnum a b c d / (D' * sden a b c d)) with (tnum a b c d / sden a b c d) by (field; tauto).
    destruct (Rleb 0 (snum a b c d / sden a b c d) && Rleb (snum a b c d / sden a b c d) 1 &&
      Rleb 0 (tnum a b c d / sden a b c d) && Rleb (tnum a b c d / sden a b c d) 1); [|reflexivity].
    cbn [option_map]. rewrite on_reals_xp. f_equal. f_equal. unfold f, affine; cbn [vx vy].
    f_equal; ring.
Qed.

Lemma calc_undefined : forall a b c d : Vec2 XO,
  (exists p q r s, a = xp p /\ b = xp q /\ c = xp r /\ d = xp s) \/
  ((forall p, a <> xp p) \/ (forall p, b <> xp p) \/ (forall p, c <> xp p) \/ (forall p, d <> xp p)) /\
  forall f, calculate_line_segment_intersection (O := XO) (on_reals f a) (on_reals f b) (on_reals f c) (on_reals f d) = None /\
    calculate_line_segment_intersection (O := XO) a b c d = None.
Proof.
  intros [ax ay] [bx by'] [cx cy] [dx dy].
  destruct ax as [ax|], ay as [ay|], bx as [bx|], by' as [by'|], cx as [cx|], cy as [cy|], dx as [dx|], dy as [dy|];
    try (left; exists (P2 ax ay), (P2 bx by'), (P2 cx cy), (P2 dx dy); repeat split; reflexivity);
    right; (split; [first [left; intros [? ?]; discriminate|right; left; intros [? ?]; discriminate
      |right; right; left; intros [? ?]; discriminate|right; right; right; intros [? ?]; discriminate]|]);
    intros f; split; reflexivity.
Qed.

Theorem reals_cross : forall al be ga de e h, al * de - be * ga <> 0 -> forall a b c d,
  calculate_line_segment_intersection (O := XO) (on_reals (affine al be ga de e h) a) (on_reals (affine al be ga de e h) b)
    (on_reals (affine al be ga de e h) c) (on_reals (affine al be ga de e h) d) =
  option_map (on_reals (affine al be ga de e h)) (calculate_line_segment_intersection (O := XO) a b c d).
Proof.
  intros al be ga de e h D a b c d.
  destruct (calc_undefined a b c d) as [(p & q & r & s & -> & -> & -> & ->)|[_ N]].
  - rewrite !on_reals_xp. now apply affine_calc.
  - destruct (N (affine al be ga de e h)) as [-> ->]. reflexivity.
Qed.

Lemma iso_cross : forall f, isometry f -> forall a b c d,
  calculate_line_segment_intersection (O := XO) (on_reals f a) (on_reals f b) (on_reals f c) (on_reals f d) =
  option_map (on_reals f) (calculate_line_segment_intersection (O := XO) a b c d).
Proof.
  intros f I a b c d. destruct (isometry_affine f I) as (al & be & ga & de & e & h & E & N1 & N2 & N3).
  rewrite !(on_reals_ext f (affine al be ga de e h) E).
  rewrite reals_cross.
  - destruct (calculate_line_segment_intersection (O := XO) a b c d) as [q|]; cbn [option_map]; [|reflexivity].
    now rewrite (on_reals_ext f (affine al be ga de e h) E).
  - assert ((al * de - be * ga) * (al * de - be * ga) = 1).
    { replace ((al * de - be * ga) * (al * de - be * ga)) with
        ((al * al + ga * ga) * (be * be + de * de) - (al * be + ga * de) * (al * be + ga * de)) by ring. rewrite N1, N2, N3. ring. }
    nra.
Qed.

Theorem iso_calls : forall f, isometry f -> forall (T U : Type) (dT : T) os (g : PlanarGraph XO T U),
  calls dT (move_graph (on_reals f) g) (map (move_op (on_reals f)) os) = move_out (on_reals f) (calls dT g os).
Proof. intros f I T U dT os g. apply mv_calls; [now apply reals_dist|now apply iso_cross]. Qed.
