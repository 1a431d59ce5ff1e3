(** * C99-C105: src/geometry and the graph's thresholds in f32, with rounding, off any grid.

    u = [u32] = 2^-24 is the unit roundoff and [eps32] = 2^-23 is f32::EPSILON, the tolerance
    of the code.  [pfin p]: the coordinates of p are finite; [inbox p]: finite and at most
    2^60 in magnitude.  [real_point p]: the point with the same coordinates as real numbers;
    [dist], [cross], [along], [on_segment], [shoelace]: the exact plane (PlaneSpec.v,
    PolySpec.v).  [within e x r]: x is finite and |x - r| <= e.  The error terms are those of
    GeoSpec.v. *)
From Coq Require Import List Arith Bool Lia Reals Lra ZArith Psatz.
From Flocq Require Import Core.Core IEEE754.BinarySingleNaN.
From Verif Require Import Scalar Utils Polygon Graph ListSpec GraphSpec PlaneSpec PolySpec F32 Laws UtilsReal
  GraphAddProps GraphHistory PolyArea PolyDiag PolyTri PolyF32 GraphDemo Format RoundSpec
  SimpleSpec SimplePoly SimpleTri Properties_Polygon Properties_Simple
  GridGraph GridOn GeoSpec GeoRound GeoOn GeoPoly GeoArea GeoSeg GeoGraph.
Import ListNotations.
Local Open Scope R_scope.
Local Notation cross := PlaneSpec.cross.
Local Notation rp := real_point.

(** ** C99: distances *)
Theorem C99_distance :
  forall lm (a b : Vec2 (FO lm)), pfin a -> pfin b -> let d := dist (rp a) (rp b) in
  (d <= bpow radix2 63 -> within (32 / 10 * u32 * d + bpow radix2 (-73)) (distance a b : f32) d) /\
  (bpow radix2 63 <= d -> (distance a b : f32) = B754_infinity false \/
     (is_finite (distance a b : f32) = true /\ bpow radix2 62 <= B2R (distance a b : f32))).
Proof.
  intros lm a b Fa Fb d. split; [exact (distance_error lm a b Fa Fb)|].
  intros H. pose proof (distance_far lm a b Fa Fb H) as X. unfold atleast in X.
  destruct X as [X|[X Y]]; [left|right]; auto.
Qed.
Print Assumptions C99_distance.

(** (0,0) to (1,1): the result is a neighbour of sqrt 2, which is no f32. *)
Example C99_example : pfin (xy 0 0) /\ pfin (xy 1 1) /\ dist (P2 0 0) (P2 1 1) = sqrt 2 /\
  B2SF (distance (xy 0 0) (xy 1 1) : f32) = SpecFloat.S754_finite false 11863283 (-23).
Proof.
  split; [split; reflexivity|]. split; [split; reflexivity|]. split; [|vm_compute; reflexivity].
  unfold dist; cbn [vx vy]. f_equal. ring.
Qed.

(** ** C100: the tolerance of the graph *)

(** Two nodes of any graph ever built are further apart than the tolerance, up to a
    relative rounding of 4u. *)
Theorem C100_nodes_apart :
  forall lm (T U : Type) (dT : T) (g : PlanarGraph (FO lm) T U), reachable dT g ->
  forall i j ni nj, i <> j -> nth_error (nodes g) i = Some ni -> nth_error (nodes g) j = Some nj ->
  pfin (position ni) -> pfin (position nj) ->
  eps32 * (1 - 4 * u32) < dist (rp (position ni)) (rp (position nj)).
Proof.
  intros lm T U dT g R i j ni nj N Hi Hj Fi Fj.
  pose proof (reachable_separated (FO_laws lm) dT g R i j ni nj N Hi Hj) as S.
  exact (proj2 (lt_eps_real lm _ _ Fi Fj) S).
Qed.
Print Assumptions C100_nodes_apart.

(** add_node returns an old node nearer than the tolerance or makes a new one. *)
Theorem C100_add_node :
  forall lm (T U : Type) (g : PlanarGraph (FO lm) T U) (p : Vec2 (FO lm)) (d : T), valid g -> pfin p ->
  (forall n, In n (nodes g) -> pfin (position n)) ->
  exists g' i ces, add_node g p d = Ok (g', (i, ces)) /\
    ((g' = g /\ exists n, nth_error (nodes g) i = Some n /\ dist (rp p) (rp (position n)) < eps32 * (1 + 4 * u32)) \/
     (i = length (nodes g) /\ nodes g' = nodes g ++ [MkNode p d DEFAULT_LABEL] /\
      forall n, In n (nodes g) -> eps32 * (1 - 4 * u32) < dist (rp p) (rp (position n)))).
Proof.
  intros lm T U g p d V Fp Fn. destruct (add_node_cases (FO_laws lm) g p d V) as (g' & i & ces & E & H).
  exists g', i, ces. split; [exact E|]. destruct H as [(_ & -> & _ & n & Hn & H)|(H & -> & Hn)]; [left|right].
  - split; [reflexivity|]. exists n. split; [exact Hn|].
    exact (proj1 (lt_eps_real lm _ _ Fp (Fn n (nth_error_In _ _ Hn))) H).
  - split; [reflexivity|]. split; [exact Hn|]. intros n Hin.
    apply (proj2 (lt_eps_real lm _ _ Fp (Fn n Hin))).
    apply not_true_is_false. intros Eq. apply H.
    apply In_nth_error in Hin. destruct Hin as [k Hk]. exists k, n. split; assumption.
Qed.
Print Assumptions C100_add_node.

(** find_closest_to returns a nearest point, up to rounding. *)
Theorem C100_closest :
  forall lm (t : Vec2 (FO lm)) ps i d, pfin t -> Forall pfin ps -> find_closest_to t ps = (i, d) ->
  forall j q, nth_error ps j = Some q -> dist (rp t) (rp q) <= bpow radix2 61 ->
  exists p, nth_error ps i = Some p /\ d = distance t p /\
    dist (rp t) (rp p) <= (1 + 7 * u32) * dist (rp t) (rp q) + bpow radix2 (-71).
Proof. exact closest_real. Qed.
Print Assumptions C100_closest.

(** close_to, and with it what unique_points_among keeps. *)
Theorem C100_close_to :
  forall lm (a b : Vec2 (FO lm)), pfin a -> pfin b -> let d := dist (rp a) (rp b) in
  (d <= eps32 * (1 - 4 * u32) -> close_to a b = true) /\ (eps32 * (1 + 4 * u32) <= d -> close_to a b = false).
Proof.
  intros lm a b Fa Fb d. destruct (le_eps_real lm a b Fa Fb) as [H1 H2]. fold d in H1, H2. unfold close_to.
  destruct (ole (distance a b) ceps); split; intros H; try reflexivity; [specialize (H1 eq_refl)|specialize (H2 eq_refl)]; lra.
Qed.
Print Assumptions C100_close_to.

(** Two nodes half the tolerance apart are merged, two at twice the tolerance are not. *)
Example C100_example :
  let p k := P2 (f32_of 1 k) (f32_of 0 0) : Vec2 F in
  pfin (p (-24)%Z) /\ dist (rp (xy 0 0)) (rp (p (-24)%Z)) = u32 /\
  node_count (build [N 0 0; OAddNode (p (-24)%Z) 7%nat]) = 1%nat /\
  node_count (build [N 0 0; OAddNode (p (-22)%Z) 7%nat]) = 2%nat.
Proof.
  cbv zeta. split; [split; reflexivity|]. split; [|split; vm_compute; reflexivity].
  assert (Z0 : B2R (f32_Z 0) = 0) by reflexivity.
  assert (Z1 : B2R (f32_of 0 0) = 0) by reflexivity.
  assert (X : B2R (f32_of 1 (-24)) = u32).
  { unfold u32. destruct (f32_of_exact 1 (-24)) as [_ ->]; [lia|lia|]. cbn. lra. }
  unfold dist, real_point, xy; cbn [vx vy]. rewrite Z0, Z1, X.
  replace ((u32 - 0) * (u32 - 0) + (0 - 0) * (0 - 0)) with (u32 * u32) by ring.
  apply sqrt_square. unfold u32. lra.
Qed.

(** ** C101: points on segments *)

(** A point that is accepted is near the segment: the detour over it is at most about
    EPSILON + 8 u |ab|, so that its distance to the segment is at most about
    sqrt (|ab| (EPSILON + 8 u |ab|) / 2); and it keeps the distance EPSILON from the ends. *)
Theorem C101_accepted_is_near :
  forall lm (a b p : Vec2 (FO lm)) incl, inbox a -> inbox b -> inbox p -> is_on_line_segment a b p incl = true ->
  let L := dist (rp a) (rp b) in let e := eps32 * (1 + 6 * u32) + 8 * u32 * L in
  dist (rp a) (rp p) + dist (rp p) (rp b) <= L + e /\
  (exists x, on_segment (rp a) (rp b) x /\ dist (rp p) x <= sqrt (e * (2 * L + e)) / 2) /\
  eps32 * (1 - 4 * u32) < dist (rp a) (rp p) /\ eps32 * (1 - 4 * u32) < dist (rp p) (rp b).
Proof.
  intros lm a b p incl Ba Bb Bp H L e.
  destruct (on_sound lm a b p incl Ba Bb Bp H) as (H1 & H2 & H3). fold L in H1. fold e in H1.
  split; [exact H1|]. split; [|split; assumption]. apply detour_close; [|exact H1].
  assert (0 <= L) by apply dist_nonneg. unfold e, u32. unfold eps32. pose proof (bpow_gt_0 radix2 (-23)). nra.
Qed.
Print Assumptions C101_accepted_is_near.

(** A point of a segment no longer than 1/8, not nearer than EPSILON to the ends, is
    accepted; more generally one whose detour is less than about EPSILON - 8 u |ab|. *)
Theorem C101_on_is_accepted :
  forall lm (a b p : Vec2 (FO lm)) incl, inbox a -> inbox b -> inbox p ->
  let A := dist (rp a) (rp p) in let B := dist (rp p) (rp b) in let L := dist (rp a) (rp b) in
  A + B - L + 8 * u32 * (A + B) < eps32 * (1 - 6 * u32) ->
  eps32 * (1 + 4 * u32) < A -> eps32 * (1 + 4 * u32) < B -> is_on_line_segment a b p incl = true.
Proof. exact on_complete. Qed.
Print Assumptions C101_on_is_accepted.

Theorem C101_short_segments :
  forall lm (a b p : Vec2 (FO lm)) incl, inbox a -> inbox b -> inbox p ->
  on_segment (rp a) (rp b) (rp p) -> dist (rp a) (rp b) <= / 5 ->
  eps32 * (1 + 4 * u32) < dist (rp a) (rp p) -> eps32 * (1 + 4 * u32) < dist (rp p) (rp b) ->
  is_on_line_segment a b p incl = true.
Proof.
  intros lm a b p incl Ba Bb Bp (t & Ht & E) HL HA HB. apply on_complete; try assumption.
  set (A := rp a) in *. set (B := rp b) in *. rewrite E in *.
  destruct (dist_along A B t) as [D1 D2]. rewrite Rabs_pos_eq in D1, D2 by lra.
  rewrite D1, D2. assert (X : eps32 = 2 * u32) by (unfold eps32, u32; cbn; lra). rewrite X. unfold u32. lra.
Qed.
Print Assumptions C101_short_segments.

(** A point 2^-13 beside the middle of a unit segment is accepted: the square root in
    C101_accepted_is_near is real.  The middle of a segment of length 1/8 is accepted. *)
Example C101_example :
  is_on_line_segment (xy 0 0) (xy 1 0) (P2 (f32_of 1 (-1)) (f32_of 1 (-13)) : Vec2 F) true = true /\
  is_on_line_segment (xy 0 0) (P2 (f32_of 1 (-3)) (f32_of 0 0) : Vec2 F) (P2 (f32_of 1 (-4)) (f32_of 0 0) : Vec2 F) true = true.
Proof. split; vm_compute; reflexivity. Qed.

(** ** C102: orientation *)
Theorem C102_area2_error :
  forall lm (a b c : Vec2 f32), inbox a -> inbox b -> inbox c ->
  let A := rp a in let B := rp b in let C := rp c in
  is_finite (area2 (O := FO lm) a b c) = true /\
  Rabs (B2R (area2 (O := FO lm) a b c) - cross A B A C) <=
    31 / 10 * u32 * (area_terms A B C + bpow radix2 (-125)) + 11 / 10 * u32 * Rabs (cross A B A C).
Proof. exact area2_error. Qed.
Print Assumptions C102_area2_error.

(** The predicates give the exact answer for points in robust position. *)
Theorem C102_predicates :
  forall lm (vs : list (Vec2 f32)), Forall inbox vs -> robust_position (map rp vs) ->
  forall a b c d, In a vs -> In b vs -> In c vs -> In d vs ->
  let A := rp a in let B := rp b in let C := rp c in let D := rp d in
  (left (O := FO lm) a b c = true <-> 0 < cross A B A C) /\
  (left_on (O := FO lm) a b c = true <-> 0 <= cross A B A C) /\
  (collinear (O := FO lm) a b c = true <-> cross A B A C = 0) /\
  (A <> B -> between (O := FO lm) a b c = true <-> on_segment A B C) /\
  (intersect_prop (O := FO lm) a b c d = true <-> proper_crossing A B C D) /\
  (A <> B -> C <> D -> intersect (O := FO lm) a b c d = true <-> segments_meet A B C D).
Proof.
  intros lm vs H R a b c d Ha Hb Hc Hd A B C D.
  pose proof (robust_fin _ H) as Fi. pose proof (robust_area lm _ H R) as Si.
  destruct (GeoPoly.sign_exact lm _ Si a b c Ha Hb Hc) as (H1 & H2 & H3).
  pose proof (GeoPoly.between_exact lm _ Fi Si a b c Ha Hb Hc) as H4.
  pose proof (GeoPoly.intersect_prop_exact lm _ Si a b c d Ha Hb Hc Hd) as H5.
  pose proof (GeoPoly.intersect_exact lm _ Fi Si a b c d Ha Hb Hc Hd) as H6.
  rewrite H1, H2, H3, H4, H5, H6. split; [apply left_iff|]. split; [apply left_on_iff|]. split; [apply collinear_iff|].
  split; [apply between_iff|]. split; [apply intersect_prop_iff|apply intersect_iff].
Qed.
Print Assumptions C102_predicates.

(** Outside of robust position the answer can be wrong (this triple has cross product 1
    and products of magnitude 4097 * 4097). *)
Theorem C102_predicates_fail_at_flat_triples :
  let a := xy (-2049) (-2048) in let b := xy 2048 2048 in let c := xy 2049 2049 in
  inbox a /\ inbox b /\ inbox c /\ left (O := FO lm0) a b c = false /\ 0 < cross (rp a) (rp b) (rp a) (rp c).
Proof.
  cbv zeta.
  assert (X : forall x, (Z.abs x <= 4096)%Z -> is_finite (f32_Z x) = true /\ B2R (f32_Z x) = IZR x) by (intros x Hx; apply f32_Z_exact; lia).
  assert (I : forall x y, (Z.abs x <= 4096)%Z -> (Z.abs y <= 4096)%Z -> inbox (xy x y)).
  { intros x y Hx Hy. destruct (X x Hx) as [F1 E1], (X y Hy) as [F2 E2]. split; [split; assumption|].
    assert (forall z, (Z.abs z <= 4096)%Z -> Rabs (IZR z) <= bpow radix2 60).
    { intros z Hz. rewrite <- abs_IZR. change (bpow radix2 60) with (IZR (2 ^ 60)). apply IZR_le. lia. }
    unfold xy; cbn [vx vy]. rewrite E1, E2. split; auto. }
  split; [apply I; lia|]. split; [apply I; lia|]. split; [apply I; lia|]. split; [vm_compute; reflexivity|].
  unfold cross, real_point, xy; cbn [vx vy].
  rewrite (proj2 (X (-2049)%Z ltac:(lia))), (proj2 (X (-2048)%Z ltac:(lia))), (proj2 (X 2048%Z ltac:(lia))), (proj2 (X 2049%Z ltac:(lia))). lra.
Qed.
Print Assumptions C102_predicates_fail_at_flat_triples.

(** ** C103: polygons in robust position *)
Theorem C103_area :
  forall lm (p : Polygon f32), let n := length (vertices p) in let M := fan_terms (map rp (vertices p)) in
  Forall inbox (vertices p) -> (3 <= n)%nat -> (1 + u32) ^ (n + 3) * M < bpow radix2 128 ->
  within (gam (n + 3) * (M / 2 + bpow radix2 (-126))) (polygon_area (O := FO lm) p : f32)
    (Rabs (shoelace (map rp (vertices p))) / 2).
Proof. intros lm p n M. exact (polygon_area_near lm p). Qed.
Print Assumptions C103_area.

(** Polygon::new orients the polygon rightly unless its area is within the rounding
    errors. *)
Theorem C103_new :
  forall lm (vs : list (Vec2 f32)), let n := length vs in let M := fan_terms (map rp vs) in
  Forall inbox vs -> (3 <= n)%nat -> (1 + u32) ^ (n + 3) * M < bpow radix2 128 ->
  gam (n + 2) * M < Rabs (shoelace (map rp vs)) ->
  exists p, polygon_new (O := FO lm) vs = Some p /\ (vertices p = vs \/ vertices p = rev vs) /\
    0 < shoelace (map rp (vertices p)).
Proof. intros lm vs n M. exact (new_orient lm vs). Qed.
Print Assumptions C103_new.

(** The triangulation of a simple polygon in robust position is found and tiles it. *)
Theorem C103_tiling :
  forall lm (vs : list (Vec2 f32)), let n := length vs in let M := fan_terms (map rp vs) in
  Forall inbox vs -> simple (map rp vs) -> robust_position (map rp vs) ->
  (1 + u32) ^ (n + 3) * M < bpow radix2 128 -> gam (n + 2) * M < Rabs (shoelace (map rp vs)) ->
  exists p ts, polygon_new (O := FO lm) vs = Some p /\
    (forall fuel, (n <= fuel)%nat -> triangulate (O := FO lm) fuel p = Some (Ok ts)) /\
    length ts = (n - 2)%nat /\
    (forall t, In t ts -> length (vertices t) = 3%nat /\ 0 < shoelace (map rp (vertices t)) /\
        forall q, In q (vertices t) -> In q vs) /\
    tiling (map rp (vertices p)) (map (fun t => map rp (vertices t)) ts).
Proof.
  intros lm vs n M H S Rob Room Big. pose proof S as (Hn & _). rewrite map_length in Hn.
  destruct (new_orient lm vs H Hn Room Big) as (p & E & V & Pos). exists p.
  assert (L : @length (Vec2 f32) (vertices p) = n) by (destruct V as [-> | ->]; [reflexivity|apply rev_length]).
  assert (Inc : forall q, In q (vertices p) -> In q vs) by (intros q Hq; destruct V as [V|V]; rewrite V in Hq; [exact Hq|now apply in_rev]).
  assert (H' : Forall inbox (vertices p)) by (destruct V as [-> | ->]; [exact H|now apply Forall_rev]).
  assert (S' : simple (map rp (vertices p))).
  { destruct V as [-> | ->]; [exact S|]. rewrite map_rev. now apply simple_rev. }
  assert (Rob' : robust_position (map rp (vertices p))).
  { intros a b c Ha Hb Hc. apply Rob; [revert Ha|revert Hb|revert Hc]; intros Hq; apply in_map_iff in Hq;
      destruct Hq as (q & <- & Hq); apply in_map; now apply Inc. }
  destruct (simple_triangulate (polyR p) S' ltac:(change (0 <= shoelace (map rp (vertices p))); lra)) as (us & Run & Lu & P & T & Ti).
  assert (X : exists ts, triangulate (O := FO lm) n p = Some (Ok ts) /\ us = map polyR ts).
  { pose proof (robust_run lm n p H' Rob') as X.
    assert (L' : length (@vertices R (polyR p)) = n) by (cbn [polyR vertices]; rewrite map_length; exact L).
    rewrite Run in X by (change (length (@vertices R (polyR p)) <= n)%nat; lia).
    destruct (triangulate (O := FO lm) n p) as [[ts|]|]; cbn [option_map] in X; try discriminate.
    exists ts. split; [reflexivity|]. now injection X. }
  destruct X as (ts & E2 & ->). exists ts. split; [exact E|].
  split; [intros fuel Hf; exact (C64_result_stable (FO lm) _ fuel p _ Hf E2)|].
  split; [rewrite map_length in Lu; cbn [polyR vertices] in Lu; rewrite map_length in Lu; rewrite <- L; exact Lu|]. split.
  - assert (Hn' : (3 <= @length (Vec2 f32) (vertices p))%nat) by (rewrite L; exact Hn).
    destruct (triangulate_ok (O := FO lm) _ p _ Hn' E2) as (ts' & E' & _ & W). injection E' as <-.
    intros t Ht. destruct (W t Ht) as [W1 W2]. split; [exact W1|]. split.
    + destruct (P (polyR t)) as (_ & Q & _); [now apply in_map|exact Q].
    + intros q Hq. apply Inc, W2, Hq.
  - rewrite map_map in Ti. exact Ti.
Qed.
Print Assumptions C103_tiling.

(** A dart with no two coordinates on a common coarse grid: (0,0), (4/3, 1/10), the reflex
    vertex (4/10, 35/100) and (2/10, 13/10), each rounded to f32, given clockwise. *)
Definition dart : list (Vec2 f32) :=
  [P2 (f32_of 13421773 (-26)) (f32_of 10905190 (-23)); P2 (f32_of 13421773 (-25)) (f32_of 11744051 (-25));
   P2 (f32_of 11184811 (-23)) (f32_of 13421773 (-27)); P2 (f32_of 0 0) (f32_of 0 0)].
Definition dartR : list point :=
  [P2 (13421773 / 67108864) (10905190 / 8388608); P2 (13421773 / 33554432) (11744051 / 33554432);
   P2 (11184811 / 8388608) (13421773 / 134217728); P2 0 0].

Lemma dart_real : map rp dart = dartR.
Proof.
  unfold dart, dartR, real_point. cbn [map vx vy].
  repeat match goal with |- context [B2R (f32_of ?m ?e)] => rewrite (proj2 (f32_of_exact m e ltac:(lia) ltac:(lia))) end.
  cbn [bpow]. unfold Z.pow_pos; simpl. repeat f_equal; lra.
Qed.

Lemma dart_box : Forall inbox dart.
Proof.
  assert (X : forall m e n k, (Z.abs m <= 16777216)%Z -> (-149 <= e <= 0)%Z -> (Z.abs n <= 16777216)%Z -> (-149 <= k <= 0)%Z -> inbox (P2 (f32_of m e) (f32_of n k))).
  { assert (Y : forall m e, (Z.abs m <= 16777216)%Z -> (-149 <= e <= 0)%Z -> Rabs (IZR m * bpow radix2 e) <= bpow radix2 60).
    { intros m e Hm He. rewrite Rabs_mult, <- abs_IZR, (Rabs_pos_eq (bpow _ _)) by apply bpow_ge_0.
      apply Rle_trans with (bpow radix2 24 * bpow radix2 0).
      - apply Rmult_le_compat; [apply IZR_le; lia|apply bpow_ge_0| |apply bpow_le; lia].
        change (bpow radix2 24) with (IZR 16777216). apply IZR_le. exact Hm.
      - rewrite <- bpow_plus. apply bpow_le. lia. }
    intros m e n k Hm He Hn Hk. destruct (f32_of_exact m e Hm ltac:(lia)) as [F1 E1], (f32_of_exact n k Hn ltac:(lia)) as [F2 E2].
    split; [split; assumption|]. cbn [vx vy]. rewrite E1, E2. split; now apply Y. }
  unfold dart. repeat (apply Forall_cons; [apply X; lia|]). apply Forall_nil.
Qed.

Lemma dart_simple : simple dartR.
Proof.
  split; [unfold dartR; simpl; lia|]. split.
  - unfold dartR. repeat constructor; simpl; intros H;
      repeat match goal with H : _ \/ _ |- _ => destruct H as [H|H] | H : False |- _ => destruct H
        | H : P2 _ _ = P2 _ _ |- _ => injection H; intros; lra end.
  - intros a b c d x H1 H2 (t & Ht & X1) (s & Hs & X2). unfold dartR in H1, H2. simpl in H1, H2.
    repeat match goal with H : _ \/ _ |- _ => destruct H as [H|H] | H : False |- _ => destruct H end;
      injection H1; intros <- <-; injection H2; intros <- <-; try (left; reflexivity); right;
      subst x; unfold along in *; cbn [vx vy] in *; injection X2; intros E2 E1;
      first [exfalso; lra | left; split; [apply pt_eq; cbn [vx vy]; lra|reflexivity] | right; split; [apply pt_eq; cbn [vx vy]; lra|reflexivity]].
Qed.

Lemma unit_terms : forall a b c : point, 0 <= vx a <= 2 -> 0 <= vy a <= 2 -> 0 <= vx b <= 2 -> 0 <= vy b <= 2 ->
  0 <= vx c <= 2 -> 0 <= vy c <= 2 -> area_terms a b c + bpow radix2 (-125) <= 9.
Proof.
  intros a b c A1 A2 B1 B2 C1 C2. unfold area_terms.
  assert (T : bpow radix2 (-125) <= bpow radix2 0) by (apply bpow_le; lia). change (bpow radix2 0) with 1 in T.
  assert (D : forall x y, 0 <= x <= 2 -> 0 <= y <= 2 -> 0 <= Rabs (y - x) <= 2).
  { intros x y Hx Hy. split; [apply Rabs_pos|]. apply Rabs_le. lra. }
  pose proof (D _ _ A1 B1). pose proof (D _ _ A2 C2). pose proof (D _ _ A1 C1). pose proof (D _ _ A2 B2).
  assert (Rabs (vx b - vx a) * Rabs (vy c - vy a) <= 2 * 2) by (apply Rmult_le_compat; lra).
  assert (Rabs (vx c - vx a) * Rabs (vy b - vy a) <= 2 * 2) by (apply Rmult_le_compat; lra). lra.
Qed.

Lemma dart_robust : robust_position dartR.
Proof.
  assert (E : forall a b c : point, 0 <= vx a <= 2 -> 0 <= vy a <= 2 -> 0 <= vx b <= 2 -> 0 <= vy b <= 2 ->
    0 <= vx c <= 2 -> 0 <= vy c <= 2 -> cross a b a c <= - / 100 \/ / 100 <= cross a b a c -> robust a b c).
  { intros a b c A1 A2 B1 B2 C1 C2 H. unfold robust. pose proof (unit_terms a b c A1 A2 B1 B2 C1 C2).
    assert (/ 100 <= Rabs (cross a b a c)) by (unfold Rabs; destruct (Rcase_abs _); lra).
    apply Rlt_le_trans with (/ 100); [|assumption]. unfold u32. lra. }
  intros a b c Ha Hb Hc. unfold dartR in Ha, Hb, Hc. simpl in Ha, Hb, Hc.
  repeat match goal with H : _ \/ _ |- _ => destruct H as [H|H] | H : False |- _ => destruct H end; subst a b c;
    first [left; reflexivity | right; left; reflexivity | right; right; left; reflexivity | right; right; right];
    apply E; cbn [vx vy]; try lra; unfold cross; cbn [vx vy]; first [left; lra | right; lra].
Qed.

Example C103_example : Forall inbox dart /\ simple (map rp dart) /\ robust_position (map rp dart) /\
  (1 + u32) ^ (4 + 3) * fan_terms (map rp dart) < bpow radix2 128 /\
  gam (4 + 2) * fan_terms (map rp dart) < Rabs (shoelace (map rp dart)) /\ shoelace (map rp dart) < 0.
Proof.
  split; [exact dart_box|]. rewrite dart_real. split; [exact dart_simple|]. split; [exact dart_robust|].
  assert (Fan : 0 <= fan_terms dartR <= 18).
  { unfold fan_terms, dartR, fan. split.
    - repeat apply Rplus_le_le_0_compat; try apply bpow_ge_0; try apply Rmult_le_pos; try apply Rabs_pos; lra.
    - match goal with |- ?x + (?y + 0) <= _ => assert (x <= 9) by (apply unit_terms; cbn [vx vy]; lra); assert (y <= 9) by (apply unit_terms; cbn [vx vy]; lra) end. lra. }
  assert (Sh : shoelace dartR <= - / 100) by (unfold shoelace, dartR; simpl; lra).
  assert (G6 : 0 <= gam (4 + 2) <= / 10000) by (unfold gam, u32; simpl; lra).
  assert (G7 : 0 <= (1 + u32) ^ (4 + 3) <= 2) by (unfold u32; simpl; lra).
  assert (B : bpow radix2 10 <= bpow radix2 128) by (apply bpow_le; lia). change (bpow radix2 10) with 1024 in B.
  split; [nra|]. split; [|lra]. rewrite Rabs_left1 by lra. nra.
Qed.

(** ** C104: crossings of segments *)

(** Whatever the angle: a point that is returned lies on the first segment, up to the
    rounding errors of its coordinates. *)
Theorem C104_on_first_segment :
  forall lm (a b c d p : Vec2 (FO lm)), inbox a -> inbox b ->
  calculate_line_segment_intersection a b c d = Some p ->
  exists x, on_segment (rp a) (rp b) x /\
    within (lerp_err (vx (rp a)) (vx (rp b))) (vx p : f32) (vx x) /\
    within (lerp_err (vy (rp a)) (vy (rp b))) (vy p : f32) (vy x).
Proof.
  intros lm a b c d p Ba Bb H. destruct (seg_on lm a b c d p Ba Bb H) as (F & T & X & Y).
  exists (along (rp a) (rp b) (B2R (seg_param lm a b c d))). split; [|split; assumption].
  eexists. split; [exact T|reflexivity].
Qed.
Print Assumptions C104_on_first_segment.

(** Well conditioned segments: a crossing that is not too near to an end is reported; what
    is reported is near the exact crossing of the two lines, which lies on both segments or
    just beyond their ends. *)
Theorem C104_crossing :
  forall lm (a b c d : Vec2 f32), inbox a -> inbox b -> inbox c -> inbox d ->
  let A := rp a in let B := rp b in let C := rp c in let D := rp d in
  cross A B C D <> 0 -> 100 * u32 * cond A B C D <= 1 ->
  forall t s, along A B t = along C D s ->
  let et := par_err A B C D in let es := par_err C D A B in
  (et <= t <= 1 - et -> es <= s <= 1 - es -> exists p, calculate_line_segment_intersection (O := FO lm) a b c d = Some p) /\
  (forall p, calculate_line_segment_intersection (O := FO lm) a b c d = Some p ->
     - et <= t <= 1 + et /\ - es <= s <= 1 + es /\
     within (lerp_err (vx A) (vx B) + et * Rabs (vx B - vx A)) (vx p : f32) (vx (along A B t)) /\
     within (lerp_err (vy A) (vy B) + et * Rabs (vy B - vy A)) (vy p : f32) (vy (along A B t))).
Proof. exact seg_accurate. Qed.
Print Assumptions C104_crossing.

(** (0,0)-(2,1) and (1,0)-(0,1) cross at (2/3, 1/3), which is no f32 point. *)
Example C104_example :
  let a := xy 0 0 in let b := xy 2 1 in let c := xy 1 0 in let d := xy 0 1 in
  let A := P2 0 0 in let B := P2 2 1 in let C := P2 1 0 in let D := P2 0 1 in
  rp a = A /\ rp b = B /\ rp c = C /\ rp d = D /\ inbox a /\ inbox b /\ inbox c /\ inbox d /\
  cross A B C D = 3 /\ 100 * u32 * cond A B C D <= 1 /\ along A B (/ 3) = along C D (/ 3) /\
  par_err A B C D <= / 3 <= 1 - par_err A B C D /\ par_err C D A B <= / 3 <= 1 - par_err C D A B.
Proof.
  cbv zeta.
  assert (X : forall x, (Z.abs x <= 4096)%Z -> is_finite (f32_Z x) = true /\ B2R (f32_Z x) = IZR x) by (intros x Hx; apply f32_Z_exact; lia).
  assert (P : forall x y, (Z.abs x <= 4096)%Z -> (Z.abs y <= 4096)%Z -> rp (xy x y) = P2 (IZR x) (IZR y)).
  { intros x y Hx Hy. unfold real_point, xy; cbn [vx vy]. now rewrite (proj2 (X x Hx)), (proj2 (X y Hy)). }
  assert (I : forall x y, (Z.abs x <= 4096)%Z -> (Z.abs y <= 4096)%Z -> inbox (xy x y)).
  { intros x y Hx Hy. destruct (X x Hx) as [F1 E1], (X y Hy) as [F2 E2]. split; [split; assumption|].
    assert (forall z, (Z.abs z <= 4096)%Z -> Rabs (IZR z) <= bpow radix2 60).
    { intros z Hz. rewrite <- abs_IZR. change (bpow radix2 60) with (IZR (2 ^ 60)). apply IZR_le. lia. }
    unfold xy; cbn [vx vy]. rewrite E1, E2. split; auto. }
  split; [apply P; lia|]. split; [apply P; lia|]. split; [apply P; lia|]. split; [apply P; lia|].
  split; [apply I; lia|]. split; [apply I; lia|]. split; [apply I; lia|]. split; [apply I; lia|].
  assert (Cr : cross (P2 0 0) (P2 2 1) (P2 1 0) (P2 0 1) = 3) by (unfold cross; cbn [vx vy]; ring).
  assert (Cr' : cross (P2 1 0) (P2 0 1) (P2 0 0) (P2 2 1) = -3) by (unfold cross; cbn [vx vy]; ring).
  assert (D1 : 1 <= dist (P2 0 0) (P2 2 1) <= 3).
  { unfold dist; cbn [vx vy]. split.
    - apply Rle_trans with (sqrt 1); [rewrite sqrt_1; lra|apply sqrt_le_1_alt; lra].
    - apply Rle_trans with (sqrt (3 * 3)); [apply sqrt_le_1_alt; lra|rewrite sqrt_square; lra]. }
  assert (D2 : 1 <= dist (P2 1 0) (P2 0 1) <= 3).
  { unfold dist; cbn [vx vy]. split.
    - apply Rle_trans with (sqrt 1); [rewrite sqrt_1; lra|apply sqrt_le_1_alt; lra].
    - apply Rle_trans with (sqrt (3 * 3)); [apply sqrt_le_1_alt; lra|rewrite sqrt_square; lra]. }
  assert (D3 : dist (P2 0 0) (P2 1 0) = 1).
  { unfold dist; cbn [vx vy]. replace ((1 - 0) * (1 - 0) + (0 - 0) * (0 - 0)) with 1 by ring. apply sqrt_1. }
  assert (D4 : dist (P2 1 0) (P2 0 0) = 1).
  { unfold dist; cbn [vx vy]. replace ((0 - 1) * (0 - 1) + (0 - 0) * (0 - 0)) with 1 by ring. apply sqrt_1. }
  set (d1 := dist (P2 0 0) (P2 2 1)) in *. set (d2 := dist (P2 1 0) (P2 0 1)) in *.
  assert (T : 0 <= bpow radix2 (-100) <= 1).
  { split; [apply bpow_ge_0|]. change 1 with (bpow radix2 0). apply bpow_le. lia. }
  assert (M : 0 <= d1 * d2 <= 9) by nra.
  assert (K1 : 0 <= cond (P2 0 0) (P2 2 1) (P2 1 0) (P2 0 1) <= 10).
  { unfold cond. fold d1 d2. rewrite Cr, Rabs_pos_eq by lra. lra. }
  assert (K2 : 0 <= cond (P2 1 0) (P2 0 1) (P2 0 0) (P2 2 1) <= 10).
  { unfold cond. fold d1 d2. rewrite Cr'. replace (Rabs (-3)) with 3 by (rewrite Rabs_left by lra; lra). lra. }
  assert (Q : forall y, 1 <= y <= 3 -> 0 <= 1 / y <= 1).
  { intros y Hy. unfold Rdiv. rewrite Rmult_1_l. split; [apply Rlt_le, Rinv_0_lt_compat; lra|]. rewrite <- Rinv_1. apply Rinv_le_contravar; lra. }
  assert (E1 : 0 <= par_err (P2 0 0) (P2 2 1) (P2 1 0) (P2 0 1) <= / 3).
  { unfold par_err. fold d1. rewrite D3. pose proof (Q d1 D1). set (k := cond _ _ _ _) in *. unfold u32. nra. }
  assert (E2 : 0 <= par_err (P2 1 0) (P2 0 1) (P2 0 0) (P2 2 1) <= / 3).
  { unfold par_err. fold d2. rewrite D4. pose proof (Q d2 D2). set (k := cond _ _ _ _) in *. unfold u32. nra. }
  split; [exact Cr|]. split; [unfold u32; lra|]. split; [unfold along; cbn [vx vy]; f_equal; lra|]. split; lra.
Qed.

(** ** C105: crossings in a drawing *)

(** Every node that add_edge makes lies on an old edge, up to the rounding errors of its
    coordinates; and near the exact crossing with the new edge if that is well conditioned. *)
Theorem C105_new_nodes :
  forall lm (T U : Type) (dT : T) (g : PlanarGraph (FO lm) T U) s d u g' r,
  (forall n, In n (nodes g) -> inbox (position n)) -> add_edge dT g s d u = Ok (g', r) ->
  exists new, nodes g' = nodes g ++ new /\ forall n, In n new ->
  exists e, In e (edges g) /\
    let A := rp (pos_at (nodes g) (src e)) in let B := rp (pos_at (nodes g) (dst e)) in
    let C := rp (pos_at (nodes g) s) in let D := rp (pos_at (nodes g) d) in
    (exists x, on_segment A B x /\
       within (lerp_err (vx A) (vx B)) (vx (position n) : f32) (vx x) /\
       within (lerp_err (vy A) (vy B)) (vy (position n) : f32) (vy x)) /\
    (cross A B C D <> 0 -> 100 * u32 * cond A B C D <= 1 -> forall t v, along A B t = along C D v ->
       let et := par_err A B C D in
       within (lerp_err (vx A) (vx B) + et * Rabs (vx B - vx A)) (vx (position n) : f32) (vx (along A B t)) /\
       within (lerp_err (vy A) (vy B) + et * Rabs (vy B - vy A)) (vy (position n) : f32) (vy (along A B t))).
Proof.
  intros lm T U dT g s d u g' r Box H.
  destruct (new_node_source lm dT g s d u g' r H) as (new & Hn & Src). exists new. split; [exact Hn|].
  intros n Hin. destruct (Src n Hin) as (e & He & Hc). exists e. split; [exact He|]. intros A B C D.
  pose proof (fun i => pos_inbox lm g i Box) as Bx. split.
  - exact (C104_on_first_segment lm _ _ _ _ _ (Bx (src e)) (Bx (dst e)) Hc).
  - intros HX HC t v E et. destruct (seg_accurate lm _ _ _ _ (Bx (src e)) (Bx (dst e)) (Bx s) (Bx d) HX HC t v E) as [_ Acc].
    destruct (Acc _ Hc) as (_ & _ & Wx & Wy). split; [exact Wx|exact Wy].
Qed.
Print Assumptions C105_new_nodes.

(** No crossing is missed: if the new edge crosses an old one, well conditioned and not too
    near to the ends, and no other crossing is reported near by, then afterwards there is a
    node at the crossing, up to rounding and the tolerance. *)
Theorem C105_crossing_gets_node :
  forall lm (T U : Type) (dT : T) (g : PlanarGraph (FO lm) T U) s d u g' r,
  (forall n, In n (nodes g) -> inbox (position n)) -> add_edge dT g s d u = Ok (g', r) ->
  ~ adjacent g s d -> (s < length (nodes g))%nat -> (d < length (nodes g))%nat ->
  forall k e, nth_error (edges g) k = Some e ->
  let A := rp (pos_at (nodes g) (src e)) in let B := rp (pos_at (nodes g) (dst e)) in
  let C := rp (pos_at (nodes g) s) in let D := rp (pos_at (nodes g) d) in
  cross A B C D <> 0 -> 100 * u32 * cond A B C D <= 1 ->
  forall t v, along A B t = along C D v ->
  let et := par_err A B C D in let ev := par_err C D A B in
  et <= t <= 1 - et -> ev <= v <= 1 - ev ->
  let err := lerp_err (vx A) (vx B) + et * Rabs (vx B - vx A) + (lerp_err (vy A) (vy B) + et * Rabs (vy B - vy A)) in
  (forall k' e' q, k' <> k -> nth_error (edges g) k' = Some e' ->
     calculate_line_segment_intersection (pos_at (nodes g) (src e')) (pos_at (nodes g) (dst e'))
       (pos_at (nodes g) s) (pos_at (nodes g) d) = Some q ->
     eps32 * (1 + 4 * u32) + err <= dist (along A B t) (rp q)) ->
  exists n, In n (nodes g') /\ dist (along A B t) (rp (position n)) < err + eps32 * (1 + 4 * u32).
Proof. exact (@crossing_node). Qed.
Print Assumptions C105_crossing_gets_node.

(** The segments of C104_example as a drawing, at a scale of 1/16: the second edge makes a
    node whose coordinates are the f32 neighbours of 2/48 and 1/48, and both edges are split. *)
Definition sketch (e : Z) : list (@op F nat nat) :=
  let N x y := OAddNode (P2 (f32_of x e) (f32_of y e) : Vec2 F) 7%nat in
  [N 0%Z 0%Z; N 2%Z 1%Z; N 1%Z 0%Z; N 0%Z 1%Z; E 0 1 10].

Example C105_example :
  let g := build (sketch (-4)) in let h := build (sketch (-4) ++ [E 2 3 20]) in
  edge_count g = 1%nat /\ shape h = [(0, 4, 10); (2, 4, 20); (1, 4, 10); (3, 4, 20)]%nat /\
  where_is h 4 = Some (SpecFloat.S754_finite false 11184811 (-28), SpecFloat.S754_finite false 11184811 (-29)).
Proof. cbv zeta. split; [vm_compute; reflexivity|]. split; vm_compute; reflexivity. Qed.

(** A node at the crossing is all there is in general: at scale 1 the new node is as near to
    the crossing as f32 allows, but is_on_line_segment does not see it on the edges, which
    are of lengths 2.24 and 1.42; they are not split. *)
Theorem C105_splitting_fails_at_scale_1 :
  let h := build (sketch 0 ++ [E 2 3 20]) in
  reachable 0%nat h /\ where_is h 4 = Some (SpecFloat.S754_finite false 11184811 (-24), SpecFloat.S754_finite false 11184811 (-25)) /\
  shape h = [(0, 1, 10); (2, 3, 20)]%nat.
Proof.
  cbv zeta. split; [apply build_reachable; vm_compute; reflexivity|]. split; vm_compute; reflexivity.
Qed.
Print Assumptions C105_splitting_fails_at_scale_1.
