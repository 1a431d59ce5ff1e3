(** * C39 (sharpness), C85, C86: integer polygons in f32, from Polygon::new on.

    [grid_le K e p]: both coordinates of p are k*2^e with |k| <= K.  [small K n]: K <= 2048
    and 4*K*K*(n-2) <= 2^24 (for instance K = 100 and up to 421 vertices).  [toR] gives the
    point with the same coordinates as real numbers. *)
From Coq Require Import List Arith Bool Lia Reals Lra ZArith Psatz.
From Flocq Require Import Core.Core IEEE754.BinarySingleNaN.
From Verif Require Import Scalar Utils Polygon ListSpec PlaneSpec PolySpec F32 Laws UtilsReal
  PolyArea PolyDiag PolyTri PolyF32 PolyNewF32 GraphDemo
  SimpleSpec SimplePoly SimpleTri Properties_Polygon Properties_Simple.
Import ListNotations.
Local Open Scope R_scope.
Local Notation cross := PlaneSpec.cross.

(** ** C39: the bound 2048 cannot be raised *)
Theorem C39_bound_sharp :
  let a := xy (-2049) (-2048) in let b := xy 2048 2048 in let c := xy 2049 2049 in
  collinear (O := FO lm0) a b c = true /\ left (O := FO lm0) a b c = false /\
  cross (P2 (-2049) (-2048)) (P2 2048 2048) (P2 (-2049) (-2048)) (P2 2049 2049) = 1.
Proof.
  cbv zeta. split; [vm_compute; reflexivity|]. split; [vm_compute; reflexivity|].
  unfold cross; cbn [vx vy]. ring.
Qed.
Print Assumptions C39_bound_sharp.

(** ** C85 *)
Theorem C85_new_exact :
  forall lm e K vs, (-74 <= e <= 51)%Z -> small K (length vs) -> Forall (grid_le K e) vs ->
  match polygon_new (O := FO lm) vs with
  | Some p => polygon_new (O := RO) (map toR vs) = Some (MkPolygon (map toR (vertices p)))
  | None => polygon_new (O := RO) (map toR vs) = None
  end.
Proof.
  intros lm e K vs He [HK B] G. pose proof (new_exact lm e He K HK vs G B) as X.
  destruct (polygon_new (O := FO lm) vs) as [p|]; exact X.
Qed.
Print Assumptions C85_new_exact.

Theorem C85_new_ccw :
  forall lm e K vs p, (-74 <= e <= 51)%Z -> small K (length vs) -> Forall (grid_le K e) vs ->
  polygon_new (O := FO lm) vs = Some p ->
  (vertices p = vs \/ vertices p = rev vs) /\ 0 <= shoelace (map toR (vertices p)).
Proof.
  intros lm e K vs p He S G H. split.
  - unfold polygon_new in H. destruct (Nat.ltb _ 3); [discriminate|].
    destruct (olt _ _) in H; injection H as <-; [now right|now left].
  - pose proof (C85_new_exact lm e K vs He S G) as X. rewrite H in X.
    exact (proj1 (proj2 (polygon_new_spec _ _ X))).
Qed.
Print Assumptions C85_new_ccw.

(** A simple polygon given in either direction is accepted, and its triangulation is
    found and tiles it. *)
Theorem C85_tiling :
  forall lm e K vs, (-74 <= e <= 51)%Z -> small K (length vs) -> Forall (grid_le K e) vs ->
  simple (map toR vs) ->
  exists p ts, polygon_new (O := FO lm) vs = Some p /\
    (forall fuel, (length vs <= fuel)%nat -> triangulate (O := FO lm) fuel p = Some (Ok ts)) /\
    length ts = (length vs - 2)%nat /\
    (forall t, In t ts -> length (vertices t) = 3%nat /\ 0 < shoelace (map toR (vertices t)) /\
        forall q, In q (vertices t) -> In q vs) /\
    tiling (map toR (vertices p)) (map (fun t => map toR (vertices t)) ts).
Proof.
  intros lm e K vs He S G Hs. pose proof Hs as (Hn & _). rewrite map_length in Hn.
  assert (N : exists p, polygon_new (O := FO lm) vs = Some p).
  { unfold polygon_new. change (@length (Vec2 (FO lm)) vs) with (length vs).
    destruct (Nat.ltb_spec (length vs) 3); [lia|].
    destruct (olt (area_poly2 (O := FO lm) vs) c0); eexists; reflexivity. }
  destruct N as (p & E). exists p.
  destruct (C85_new_ccw lm e K vs p He S G E) as (V & A).
  assert (G' : Forall (grid e) (vertices p)).
  { assert (F : Forall (grid e) vs).
    { eapply Forall_impl; [|exact G]. intros q. apply grid_le_grid. apply S. }
    destruct V as [-> | ->]; [exact F|now apply Forall_rev]. }
  assert (S' : simple (map toR (vertices p))).
  { destruct V as [-> | ->]; [exact Hs|]. rewrite map_rev. now apply simple_rev. }
  assert (L : length (vertices p) = length vs) by (destruct V as [-> | ->]; [reflexivity|apply rev_length]).
  destruct (C77_tiling_f32 lm e He p G' S' A) as (ts & Run & Lt & P & _ & Ti).
  exists ts. split; [exact E|].
  split; [intros fuel Hf; apply Run; rewrite <- L in Hf; exact Hf|].
  split; [rewrite <- L; exact Lt|]. split; [|exact Ti].
  intros t Ht. destruct (P t Ht) as (P1 & P2 & P3). split; [exact P1|]. split; [exact P2|].
  intros q Hq. specialize (P3 q Hq). change (In q (@vertices f32 p)) in P3.
  destruct V as [V|V]; [change (@vertices f32 p = vs) in V|change (@vertices f32 p = rev vs) in V];
    rewrite V in P3; [exact P3|now apply in_rev].
Qed.
Print Assumptions C85_tiling.

(** The arrow of Properties_Simple.v, given clockwise. *)
Definition warra : list (Vec2 f32) := [xy 4 2; xy 1 0; xy 4 (-2); xy 2 (-1); xy 0 0].

Lemma xy_grid_le : forall K x y, (K <= 2048)%Z -> (Z.abs x <= K)%Z -> (Z.abs y <= K)%Z -> grid_le K 0 (xy x y).
Proof.
  intros K x y HK Hx Hy. destruct (f32_Z_exact x ltac:(lia)) as [F1 E1], (f32_Z_exact y ltac:(lia)) as [F2 E2].
  split; (split; [assumption|]); [exists x|exists y]; (split; [assumption|]); cbn [vx vy xy]; [rewrite E1|rewrite E2]; simpl; ring.
Qed.

Example C85_example :
  small 4 (length warra) /\ Forall (grid_le 4 0) warra /\ simple (map toR warra) /\ small 100 421.
Proof.
  split; [split; cbn; lia|]. split.
  { repeat constructor; apply xy_grid_le; lia. }
  split; [|split; lia].
  replace (map toR warra) with (rev arrow); [apply simple_rev, arrow_simple|].
  unfold warra. cbn [map]. rewrite !toR_xy by lia. reflexivity.
Qed.

(** ** C86: area exact, center correctly rounded *)
Theorem C86_area_exact :
  forall lm e K p, (-74 <= e <= 51)%Z -> (3 <= length (vertices p))%nat -> small K (length (vertices p)) ->
  Forall (grid_le K e) (vertices p) ->
  is_finite (polygon_area (O := FO lm) p) = true /\
  B2R (polygon_area (O := FO lm) p) = Rabs (shoelace (map toR (vertices p))) / 2.
Proof. intros lm e K [vs] He L [HK B] G. exact (area_exact lm e He K HK vs G L B). Qed.
Print Assumptions C86_area_exact.

Theorem C86_center_rounded :
  forall lm e K p, (-74 <= e <= 51)%Z -> (0 < length (vertices p))%nat -> (1 <= K <= 2048)%Z ->
  (K * Z.of_nat (length (vertices p)) <= 16777216)%Z -> Forall (grid_le K e) (vertices p) ->
  let c := polygon_center (O := FO lm) p in
  let mean f := fold_right Rplus 0 (map f (map toR (vertices p))) / INR (length (vertices p)) in
  is_finite (vx c) = true /\ is_finite (vy c) = true /\
  B2R (vx c) = rnd32 (mean vx) /\ B2R (vy c) = rnd32 (mean vy).
Proof.
  intros lm e K [vs] He L HK B G c mean.
  pose proof (center_rounded lm e He K HK vs G L B) as X. cbv zeta in X.
  change (polygon_center (O := FO lm) (MkPolygon vs)) with c in X.
  rewrite center_sum in X. cbn [vx vy vertices] in X. rewrite map_length in X. exact X.
Qed.
Print Assumptions C86_center_rounded.

(** Half a square: the area 1/2 is exact; the center (1/3, 1/3) is rounded. *)
Example C86_example :
  let t := MkPolygon [xy 0 0; xy 1 0; xy 0 1] in
  Forall (grid_le 1 0) (vertices t) /\ small 1 3 /\ B2R (polygon_area (O := FO lm0) t) = / 2.
Proof.
  cbv zeta. assert (G : Forall (grid_le 1 0) [xy 0 0; xy 1 0; xy 0 1]) by (repeat constructor; apply xy_grid_le; lia).
  split; [exact G|]. split; [split; lia|].
  destruct (C86_area_exact lm0 0 1 (MkPolygon [xy 0 0; xy 1 0; xy 0 1]) ltac:(lia)) as (_ & E).
  - cbn; lia.
  - split; cbn; lia.
  - exact G.
  - rewrite E. cbn [vertices map]. rewrite !toR_xy by lia. unfold shoelace; cbn.
    match goal with |- Rabs ?x / 2 = _ => replace x with 1 by ring end.
    rewrite Rabs_R1. lra.
Qed.
