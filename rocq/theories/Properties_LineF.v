(** * C116: Line::contains in f32 with rounding errors.

    u32 = 2^-24 (GeoSpec.v); [within e x r]: x is finite and |x - r| <= e. *)
From Coq Require Import List Bool Reals Lra ZArith Lia.
From Flocq Require Import Core.Core IEEE754.BinarySingleNaN.
From Verif Require Import Scalar GA Approx F32 Laws GraphDemo Line GASpec GARing GAReal GAF32 LineProofs GeoSpec RoundSpec GeoRound LineRound GridGraph.
Local Open Scope R_scope.
Local Notation "x =r y" := (@eq R x y) (at level 70).

Lemma contains_comps : forall lm (p1 p2 p3 d1 d2 d3 x1 x2 x3 : f32),
  let sub := Bminus mode_NE in let mul := Bmult mode_NE in
  let small (z : f32) := Bleb (Babs z) (f32_of 1 (-23)) = true in
  line_contains lm (line_new (V3 p1 p2 p3) (V3 d1 d2 d3)) (V3 x1 x2 x3) = true <->
  small (sub (mul (sub x1 p1) d2) (mul (sub x2 p2) d1)) /\
  small (sub (mul (sub x1 p1) d3) (mul (sub x3 p3) d1)) /\
  small (sub (mul (sub x2 p2) d3) (mul (sub x3 p3) d2)).
Proof. intros. apply contains_f32. Qed.

(** W12, W13, W23 are the exact components of (x - p) ^ d, and T12, T13, T23 the sums of
    the magnitudes of their terms. *)
Theorem C116_contains_rounding :
  forall lm (p1 p2 p3 d1 d2 d3 x1 x2 x3 : f32),
  Forall (fun z : f32 => is_finite z = true /\ Rabs (B2R z) <= bpow radix2 60) (p1 :: p2 :: p3 :: d1 :: d2 :: d3 :: x1 :: x2 :: x3 :: nil) ->
  let W (x p d x' p' d' : f32) := (B2R x - B2R p) * B2R d' - (B2R x' - B2R p') * B2R d in
  let T (x p d x' p' d' : f32) := Rabs (B2R x - B2R p) * Rabs (B2R d') + Rabs (B2R x' - B2R p') * Rabs (B2R d) in
  let e (t : R) := 301 / 100 * u32 * (t + bpow radix2 (-125)) in
  let W12 := W x1 p1 d1 x2 p2 d2 in let W13 := W x1 p1 d1 x3 p3 d3 in let W23 := W x2 p2 d2 x3 p3 d3 in
  let T12 := T x1 p1 d1 x2 p2 d2 in let T13 := T x1 p1 d1 x3 p3 d3 in let T23 := T x2 p2 d2 x3 p3 d3 in
  (line_contains lm (line_new (V3 p1 p2 p3) (V3 d1 d2 d3)) (V3 x1 x2 x3) = true ->
   Rabs W12 <= / 2 ^ 23 + e T12 /\ Rabs W13 <= / 2 ^ 23 + e T13 /\ Rabs W23 <= / 2 ^ 23 + e T23) /\
  (Rabs W12 + e T12 <= / 2 ^ 23 -> Rabs W13 + e T13 <= / 2 ^ 23 -> Rabs W23 + e T23 <= / 2 ^ 23 ->
   line_contains lm (line_new (V3 p1 p2 p3) (V3 d1 d2 d3)) (V3 x1 x2 x3) = true).
Proof.
  intros lm p1 p2 p3 d1 d2 d3 x1 x2 x3 H W T e W12 W13 W23 T12 T13 T23. rewrite contains_comps, <- eps32_val.
  repeat match goal with H : Forall _ (_ :: _) |- _ => apply Forall_cons_iff in H; destruct H as [? H] end.
  pose proof (comp_small lm x1 p1 x2 p2 d1 d2 ltac:(repeat apply Forall_cons; auto)) as [A1 A2]. pose proof (comp_small lm x1 p1 x3 p3 d1 d3 ltac:(repeat apply Forall_cons; auto)) as [B1 B2].
  pose proof (comp_small lm x2 p2 x3 p3 d2 d3 ltac:(repeat apply Forall_cons; auto)) as [C1 C2]. split.
  - intros (K1 & K2 & K3). split; [exact (A1 K1)|]. split; [exact (B1 K2)|exact (C1 K3)].
  - intros K1 K2 K3. split; [exact (A2 K1)|]. split; [exact (B2 K2)|exact (C2 K3)].
Qed.
Print Assumptions C116_contains_rounding.

(** An accepted point is close to the line: with all terms at most T, some point p + t d has
    squared distance at most 3 (2^-23 + 3.01 u (T + 2^-125))^2 / |d|^2. *)
Theorem C116_accepted_close :
  forall lm (p1 p2 p3 d1 d2 d3 x1 x2 x3 : f32) (T : R),
  Forall (fun z : f32 => is_finite z = true /\ Rabs (B2R z) <= bpow radix2 60) (p1 :: p2 :: p3 :: d1 :: d2 :: d3 :: x1 :: x2 :: x3 :: nil) ->
  let P := V3 (B2R p1) (B2R p2) (B2R p3) in let D := V3 (B2R d1) (B2R d2) (B2R d3) in let X := V3 (B2R x1) (B2R x2) (B2R x3) in
  let term (x p d x' p' d' : f32) := Rabs (B2R x - B2R p) * Rabs (B2R d') + Rabs (B2R x' - B2R p') * Rabs (B2R d) in
  term x1 p1 d1 x2 p2 d2 <= T -> term x1 p1 d1 x3 p3 d3 <= T -> term x2 p2 d2 x3 p3 d3 <= T ->
  D <> V3 0 0 0 ->
  line_contains lm (line_new (V3 p1 p2 p3) (V3 d1 d2 d3)) (V3 x1 x2 x3) = true ->
  exists t : R, let Q := V3 (a1 P + t * a1 D) (a2 P + t * a2 D) (a3 P + t * a3 D) in
  ((a1 X - a1 Q) ^ 2 + (a2 X - a2 Q) ^ 2 + (a3 X - a3 Q) ^ 2) * (a1 D ^ 2 + a2 D ^ 2 + a3 D ^ 2) <= 3 * (/ 2 ^ 23 + 301 / 100 * u32 * (T + bpow radix2 (-125))) ^ 2.
Proof.
  intros lm p1 p2 p3 d1 d2 d3 x1 x2 x3 T H P D X term T1 T2 T3 ND C.
  destruct (C116_contains_rounding lm p1 p2 p3 d1 d2 d3 x1 x2 x3 H) as [K _]. specialize (K C). clear C. cbv zeta in K. destruct K as (K1 & K2 & K3).
  set (k := / 2 ^ 23 + 301 / 100 * u32 * (T + bpow radix2 (-125))) in *.
  assert (U : 0 <= 301 / 100 * u32) by (unfold u32; lra).
  assert (G : forall t, t <= T -> / 2 ^ 23 + 301 / 100 * u32 * (t + bpow radix2 (-125)) <= k).
  { intros t Ht. unfold k. apply Rplus_le_compat_l, Rmult_le_compat_l; lra. }
  pose proof (Rle_trans _ _ _ K1 (G _ T1)) as L1. pose proof (Rle_trans _ _ _ K2 (G _ T2)) as L2. pose proof (Rle_trans _ _ _ K3 (G _ T3)) as L3. clear K1 K2 K3 G.
  destruct (line_dist2_attained (line_new P D) X ND) as [t Et]. exists t. cbv zeta.
  pose proof (line_dist2_wedge (line_new P D) X ND) as E. rewrite Et in E. clear Et.
  revert E. unfold line_bivector, line_new, P, D, X. cbn [lpoint ldirection]. ga. intros E.
  assert (PK : 0 <= k) by (pose proof (Rabs_pos ((B2R x1 - B2R p1) * B2R d2 - (B2R x2 - B2R p2) * B2R d1)); lra).
  apply abs_sqr_le in L1, L2, L3; try exact PK. cbv [car RO] in *. 
  match type of E with ?l = ?r => match goal with |- ?g <= _ => replace g with r by ring; rewrite <- E end end. lra.
Qed.
Print Assumptions C116_accepted_close.

(** Points computed as p + d * t in f32 are accepted as long as the coordinates, times the
    direction, stay below 3/16 (C51_computed_points_f32_refuted is a rejected one). *)
Theorem C116_computed_points :
  forall lm (p1 p2 p3 d1 d2 d3 t : f32) (M D : R),
  Forall (fun z : f32 => is_finite z = true) (p1 :: p2 :: p3 :: d1 :: d2 :: d3 :: t :: nil) ->
  M <= bpow radix2 50 -> D <= bpow radix2 50 -> M * D <= 3 / 16 ->
  (forall p d, In (p, d) ((p1, d1) :: (p2, d2) :: (p3, d3) :: nil) -> Rabs (B2R p) + Rabs (B2R d * B2R t) <= M /\ Rabs (B2R d) <= D) ->
  let p := V3 p1 p2 p3 in let d := V3 d1 d2 d3 in
  line_contains lm (line_new p d) (vec_add (O := FO lm) p (vec_scale (O := FO lm) d t)) = true.
Proof.
  intros lm p1 p2 p3 d1 d2 d3 t M D F HM HD HMD B p d.
  repeat match goal with H : Forall _ (_ :: _) |- _ => apply Forall_cons_iff in H; destruct H as [? H] end.
  destruct (B p1 d1) as [M1 D1]; [cbn; tauto|]. destruct (B p2 d2) as [M2 D2]; [cbn; tauto|]. destruct (B p3 d3) as [M3 D3]; [cbn; tauto|]. clear B.
  pose proof (Rabs_pos (B2R p1)). pose proof (Rabs_pos (B2R p2)). pose proof (Rabs_pos (B2R p3)). pose proof (Rabs_pos (B2R d1 * B2R t)). pose proof (Rabs_pos (B2R d2 * B2R t)). pose proof (Rabs_pos (B2R d3 * B2R t)). pose proof (Rabs_pos (B2R d1)).
  destruct (comp_point lm p1 d1 t) as [F1 E1]; try assumption; try lra. destruct (comp_point lm p2 d2 t) as [F2 E2]; try assumption; try lra. destruct (comp_point lm p3 d3 t) as [F3 E3]; try assumption; try lra.
  unfold vec_add, vec_scale, p, d. cbn [a1 a2 a3]. cbn [oadd omul FO].
  set (x1 := Bplus mode_NE p1 (Bmult mode_NE d1 t)) in *. set (x2 := Bplus mode_NE p2 (Bmult mode_NE d2 t)) in *. set (x3 := Bplus mode_NE p3 (Bmult mode_NE d3 t)) in *.
  set (tt := bpow radix2 (-126)) in *. assert (Ptt : 0 < tt) by apply bpow_gt_0.
  assert (U : 0 <= 201 / 100 * u32) by (unfold u32; lra).
  assert (L : forall a b, a + b <= M -> 201 / 100 * u32 * (a + b + tt) <= 201 / 100 * u32 * (M + tt)) by (intros; apply Rmult_le_compat_l; lra).
  apply (fun h => Rle_trans _ _ _ h (L _ _ M1)) in E1. apply (fun h => Rle_trans _ _ _ h (L _ _ M2)) in E2. apply (fun h => Rle_trans _ _ _ h (L _ _ M3)) in E3. clear L.
  assert (B50 : bpow radix2 50 * 4 <= bpow radix2 60) by (change 4 with (bpow radix2 2); rewrite <- bpow_plus; apply bpow_le; lia).
  assert (O50 : 1 <= bpow radix2 50) by (change 1 with (bpow radix2 0); apply bpow_le; lia).
  assert (T1 : tt <= / 1000000) by (unfold tt; apply Rle_trans with (bpow radix2 (-20)); [apply bpow_le; lia|change (bpow radix2 (-20)) with (/ IZR 1048576); lra]).
  assert (PM : 0 <= M) by lra. assert (PD : 0 <= D) by lra.
  assert (X : forall x a b, Rabs (x - (a + b)) <= 201 / 100 * u32 * (M + tt) -> Rabs a + Rabs b <= M -> Rabs x <= bpow radix2 60).
  { intros x a b G1 G2. replace x with (x - (a + b) + (a + b)) by ring. eapply Rle_trans; [apply Rabs_triang|]. pose proof (Rabs_triang a b).
    apply Rle_trans with (2 * (M + tt)); [|lra]. unfold u32 in G1. lra. }
  pose proof (X _ _ _ E1 M1) as X1. pose proof (X _ _ _ E2 M2) as X2. pose proof (X _ _ _ E3 M3) as X3. clear X.
  assert (TD : (M + tt) * D <= 3 / 16 + / 1000000).
  { rewrite Rmult_plus_distr_r. apply Rplus_le_compat; [exact HMD|]. apply Rle_trans with (tt * bpow radix2 50); [apply Rmult_le_compat_l; lra|].
    unfold tt. rewrite <- bpow_plus. apply Rle_trans with (bpow radix2 (-20)); [apply bpow_le; lia|change (bpow radix2 (-20)) with (/ IZR 1048576); lra]. }
  assert (PMD : 0 <= (M + tt) * D) by (apply Rmult_le_pos; lra).
  assert (T125 : 0 < bpow radix2 (-125) <= / 1000000) by (split; [apply bpow_gt_0|apply Rle_trans with (bpow radix2 (-20)); [apply bpow_le; lia|change (bpow radix2 (-20)) with (/ IZR 1048576); lra]]).
  assert (FIN : forall W T, Rabs W <= 402 / 100 * u32 * ((M + tt) * D) /\ T <= 201 / 100 * ((M + tt) * D) -> Rabs W + 301 / 100 * u32 * (T + bpow radix2 (-125)) <= eps32).
  { intros W T [G1 G2]. rewrite eps_num. unfold u32 in *. lra. }
  assert (I1 : is_finite p1 = true /\ Rabs (B2R p1) <= bpow radix2 60) by (split; [assumption|lra]).
  assert (I2 : is_finite p2 = true /\ Rabs (B2R p2) <= bpow radix2 60) by (split; [assumption|lra]).
  assert (I3 : is_finite p3 = true /\ Rabs (B2R p3) <= bpow radix2 60) by (split; [assumption|lra]).
  assert (J1 : is_finite d1 = true /\ Rabs (B2R d1) <= bpow radix2 60) by (split; [assumption|lra]).
  assert (J2 : is_finite d2 = true /\ Rabs (B2R d2) <= bpow radix2 60) by (split; [assumption|lra]).
  assert (J3 : is_finite d3 = true /\ Rabs (B2R d3) <= bpow radix2 60) by (split; [assumption|lra]).
  pose proof (comp_small lm x1 p1 x2 p2 d1 d2 ltac:(repeat apply Forall_cons; auto)) as [_ A].
  pose proof (comp_small lm x1 p1 x3 p3 d1 d3 ltac:(repeat apply Forall_cons; auto)) as [_ B].
  pose proof (comp_small lm x2 p2 x3 p3 d2 d3 ltac:(repeat apply Forall_cons; auto)) as [_ C].
  pose proof (FIN _ _ (point_comp (B2R x1) (B2R p1) (B2R x2) (B2R p2) (B2R d1) (B2R d2) (B2R t) M D PM PD M1 M2 D1 D2 E1 E2)) as GA.
  pose proof (FIN _ _ (point_comp (B2R x1) (B2R p1) (B2R x3) (B2R p3) (B2R d1) (B2R d3) (B2R t) M D PM PD M1 M3 D1 D3 E1 E3)) as GB.
  pose proof (FIN _ _ (point_comp (B2R x2) (B2R p2) (B2R x3) (B2R p3) (B2R d2) (B2R d3) (B2R t) M D PM PD M2 M3 D2 D3 E2 E3)) as GC.
  apply contains_comps. cbv zeta. split; [exact (A GA)|]. split; [exact (B GB)|exact (C GC)].
Qed.
Print Assumptions C116_computed_points.

(** Base (1/8,1/8,1/8), direction (1/2,1/4,3/8), t = 0.3 rounded: the hypotheses hold with
    M = 3/8, D = 1/2. *)
Example C116_example :
  let t := f32_of 10066330 (-25) in let p := f32_of 1 (-3) in
  Forall (fun z : f32 => is_finite z = true) (p :: p :: p :: f32_of 1 (-1) :: f32_of 1 (-2) :: f32_of 3 (-3) :: t :: nil) /\
  (3 / 8) * (1 / 2) <= 3 / 16 /\
  forall q d, In (q, d) ((p, f32_of 1 (-1)) :: (p, f32_of 1 (-2)) :: (p, f32_of 3 (-3)) :: nil) -> Rabs (B2R q) + Rabs (B2R d * B2R t) <= 3 / 8 /\ Rabs (B2R d) <= 1 / 2.
Proof.
  intros t p. split; [repeat constructor|]. split; [lra|].
  destruct (f32_of_exact 10066330 (-25) ltac:(lia) ltac:(lia)) as [_ Vt]. destruct (f32_of_exact 1 (-3) ltac:(lia) ltac:(lia)) as [_ Vp].
  destruct (f32_of_exact 1 (-1) ltac:(lia) ltac:(lia)) as [_ V1]. destruct (f32_of_exact 1 (-2) ltac:(lia) ltac:(lia)) as [_ V2]. destruct (f32_of_exact 3 (-3) ltac:(lia) ltac:(lia)) as [_ V3'].
  change (bpow radix2 (-25)) with (/ IZR 33554432) in Vt. change (bpow radix2 (-3)) with (/ IZR 8) in Vp, V3'. change (bpow radix2 (-1)) with (/ IZR 2) in V1. change (bpow radix2 (-2)) with (/ IZR 4) in V2.
  fold t in Vt. fold p in Vp. intros q d [E|[E|[E|[]]]]; assert (Q := f_equal fst E); assert (Q' := f_equal snd E); cbn [fst snd] in Q, Q'; rewrite <- Q, <- Q'; rewrite Vp, Vt, ?V1, ?V2, ?V3', !Rabs_pos_eq by lra; lra.
Qed.
