(** * Moving and scaling polygons in f32. *)
From Coq Require Import ZArith Reals List Bool Lia Lra Psatz.
From Flocq Require Import Core.Core IEEE754.BinarySingleNaN.
From Verif Require Import Scalar Utils PlaneSpec Polygon F32 GeoSpec Format RoundSpec Rounding GeoRound GridGraph.
Import ListNotations.
Local Open Scope R_scope.

Section T.
Variable lm : Libm.
Local Notation f := (single lm).

Lemma plus_within : forall x y : f32, is_finite x = true -> is_finite y = true -> (1 + u32) * Rabs (B2R x + B2R y) < bpow radix2 128 ->
  within (u32 * Rabs (B2R x + B2R y)) (Bplus mode_NE x y : f32) (B2R x + B2R y).
Proof.
  intros x y Fx Fy H. destruct (add_ok f x y Fx Fy) as (F & d & Hd & E); [rewrite u_eq, huge_eq, Rmult_comm; exact H|].
  split; [exact F|]. rewrite u_eq in Hd. match goal with |- Rabs (?z - _) <= _ => replace z with ((B2R x + B2R y) * (1 + d)) by (symmetry; exact E) end.
  replace ((B2R x + B2R y) * (1 + d) - (B2R x + B2R y)) with (d * (B2R x + B2R y)) by ring. rewrite Rabs_mult. apply Rmult_le_compat_r; [apply Rabs_pos|exact Hd].
Qed.
Lemma mult_within : forall x y : f32, is_finite x = true -> is_finite y = true -> (1 + u32) * Rabs (B2R x * B2R y) + bpow radix2 (-150) < bpow radix2 128 ->
  within (u32 * Rabs (B2R x * B2R y) + bpow radix2 (-150)) (Bmult mode_NE x y : f32) (B2R x * B2R y).
Proof.
  intros x y Fx Fy H. assert (UT : u32 * tiny f = bpow radix2 (-150)) by (rewrite tiny_eq; change u32 with (bpow radix2 (-24)); rewrite <- bpow_plus; reflexivity).
  destruct (mul_ok f x y Fx Fy) as (F & d & e & Hd & He & E); [rewrite u_eq, huge_eq, UT, Rmult_comm; exact H|].
  split; [exact F|]. rewrite u_eq in Hd, He. rewrite UT in He. match goal with |- Rabs (?z - _) <= _ => replace z with (B2R x * B2R y * (1 + d) + e) by (symmetry; exact E) end.
  replace (B2R x * B2R y * (1 + d) + e - B2R x * B2R y) with (d * (B2R x * B2R y) + e) by ring. eapply Rle_trans; [apply Rabs_triang|]. rewrite Rabs_mult.
  apply Rplus_le_compat; [|exact He]. apply Rmult_le_compat_r; [apply Rabs_pos|exact Hd].
Qed.
(** Powers of two. *)
Lemma mult_pow2 : forall (x : f32) k, is_finite x = true -> (-149 <= k <= 103)%Z -> (B2R x = 0 \/ bpow radix2 (-126) <= Rabs (B2R x) * bpow radix2 k < bpow radix2 128) ->
  is_finite (Bmult mode_NE x (f32_of 1 k) : f32) = true /\ B2R (Bmult mode_NE x (f32_of 1 k) : f32) = B2R x * bpow radix2 k.
Proof.
  intros x k Fx Hk H. destruct (f32_of_exact 1 k ltac:(lia) Hk) as [Fk Ek]. rewrite Rmult_1_l in Ek.
  pose proof (Bmult_correct 24 128 _ _ mode_NE x (f32_of 1 k)) as C. rewrite Ek in C.
  assert (A : Rabs (B2R x * bpow radix2 k) = Rabs (B2R x) * bpow radix2 k) by (rewrite Rabs_mult, (Rabs_pos_eq (bpow radix2 k)) by apply bpow_ge_0; reflexivity).
  assert (G : generic_format radix2 (SpecFloat.fexp 24 128) (B2R x * bpow radix2 k)).
  { destruct H as [H|[H _]]; [rewrite H, Rmult_0_l; apply generic_format_0|].
    pose proof (generic_format_B2R 24 128 x) as G. change (SpecFloat.fexp 24 128) with (FLT_exp (-149) 24) in *.
    apply FLT_format_generic in G; [|reflexivity]. destruct G as [[m e] E Hm He]. cbn [Fnum Fexp] in Hm, He.
    assert (E2 : B2R x * bpow radix2 k = F2R (Float radix2 m (e + k))) by (rewrite E; unfold F2R; cbn [Fnum Fexp]; rewrite bpow_plus; ring).
    destruct (Z_le_gt_dec (-149) (e + k)) as [L|L].
    - apply generic_format_FLT. exists (Float radix2 m (e + k)); [exact E2|exact Hm|exact L].
    - (* normal: the mantissa can be made a multiple of the missing power *)
      apply generic_format_FLT_FLX; [rewrite A; exact H|]. rewrite E2. apply generic_format_FLX. exists (Float radix2 m (e + k)); [reflexivity|exact Hm]. }
  rewrite (round_generic radix2 _ _ _ G) in C. rewrite Rlt_bool_true in C.
  - destruct C as (C1 & C2 & _). rewrite Fx, Fk in C2. split; [exact C2|exact C1].
  - rewrite A. destruct H as [H|[_ H]]; [rewrite H, Rabs_R0, Rmult_0_l; apply bpow_gt_0|exact H].
Qed.
End T.

(** Triples that turn by more than the rounding errors: D bounds the coordinate differences,
    e the errors of the new coordinates. *)
Lemma moved_orientation :
  forall (a b c a' b' c' s : point) (D e : R), 0 <= e ->
  (forall p q, In p [a; b; c] -> In q [a; b; c] -> Rabs (vx q - vx p) <= D /\ Rabs (vy q - vy p) <= D) ->
  (forall p p', In (p, p') [(a, a'); (b, b'); (c, c')] -> Rabs (vx p' - (vx p + vx s)) <= e /\ Rabs (vy p' - (vy p + vy s)) <= e) ->
  8 * e * D + 8 * e * e < PlaneSpec.cross a b a c -> 0 < PlaneSpec.cross a' b' a' c'.
Proof.
  intros a b c a' b' c' s D e He HD HE H.
  destruct (HD a b) as [D1 D2]; [cbn; tauto..|]. destruct (HD a c) as [D3 D4]; [cbn; tauto..|].
  destruct (HE a a') as [A1 A2]; [cbn; tauto|]. destruct (HE b b') as [B1 B2]; [cbn; tauto|]. destruct (HE c c') as [C1 C2]; [cbn; tauto|]. clear HD HE.
  unfold PlaneSpec.cross in *.
  set (p := vx b - vx a) in *. set (q := vy b - vy a) in *. set (r := vx c - vx a) in *. set (t := vy c - vy a) in *.
  set (p' := vx b' - vx a'). set (q' := vy b' - vy a'). set (r' := vx c' - vx a'). set (t' := vy c' - vy a').
  apply Rabs_le_inv in A1, A2, B1, B2, C1, C2, D1, D2, D3, D4.
  assert (P : Rabs (p' - p) <= 2 * e) by (apply Rabs_le; unfold p', p; lra). assert (Q : Rabs (q' - q) <= 2 * e) by (apply Rabs_le; unfold q', q; lra).
  assert (R' : Rabs (r' - r) <= 2 * e) by (apply Rabs_le; unfold r', r; lra). assert (T : Rabs (t' - t) <= 2 * e) by (apply Rabs_le; unfold t', t; lra).
  assert (G : forall x y x' y', -D <= x <= D -> -D <= y <= D -> Rabs (x' - x) <= 2 * e -> Rabs (y' - y) <= 2 * e -> Rabs (x' * y' - x * y) <= 4 * e * D + 4 * e * e).
  { intros x y x' y' G1 G2 G3 G4. replace (x' * y' - x * y) with ((x' - x) * y + (x * (y' - y) + (x' - x) * (y' - y))) by ring.
    assert (Rabs x <= D) by (apply Rabs_le; lra). assert (Rabs y <= D) by (apply Rabs_le; lra).
    eapply Rle_trans; [apply Rabs_triang|]. eapply Rle_trans; [apply Rplus_le_compat_l, Rabs_triang|]. rewrite !Rabs_mult.
    assert (Rabs (x' - x) * Rabs y <= 2 * e * D) by (apply Rmult_le_compat; auto using Rabs_pos).
    assert (Rabs x * Rabs (y' - y) <= D * (2 * e)) by (apply Rmult_le_compat; auto using Rabs_pos).
    assert (Rabs (x' - x) * Rabs (y' - y) <= 2 * e * (2 * e)) by (apply Rmult_le_compat; auto using Rabs_pos). lra. }
  pose proof (G p t p' t' D1 D4 P T) as G1. pose proof (G q r q' r' D2 D3 Q R') as G2. apply Rabs_le_inv in G1, G2. lra.
Qed.
