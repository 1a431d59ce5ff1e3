(** * C51, C69: src/geometry/line.rs. *)
From Coq Require Import List Bool Reals Lra ZArith.
From Flocq Require Import Core.Core IEEE754.BinarySingleNaN.
From Verif Require Import Scalar GA Approx F32 Laws GraphDemo Line GASpec GARing GAReal GAF32 LineProofs.
Local Open Scope R_scope.
Local Notation "x =r y" := (@eq R x y) (at level 70).

(** ** C51 *)

(** Exact arithmetic: the three components of (x - p) ^ d are within EPSILON = 2^-23. *)
Theorem C51_contains_exact :
  forall p1 p2 p3 d1 d2 d3 x1 x2 x3 : R,
  line_contains_exact (xl (line_new (V3 p1 p2 p3) (V3 d1 d2 d3))) (xv (V3 x1 x2 x3)) = true <->
  Rabs ((x1 - p1) * d2 - (x2 - p2) * d1) <= / 2 ^ 23 /\
  Rabs ((x1 - p1) * d3 - (x3 - p3) * d1) <= / 2 ^ 23 /\
  Rabs ((x2 - p2) * d3 - (x3 - p3) * d2) <= / 2 ^ 23.
Proof.
  intros. rewrite contains_exact_iff.
  rewrite <- eps32_val. reflexivity.
Qed.
Print Assumptions C51_contains_exact.

Theorem C51_contains_line :
  forall p1 p2 p3 d1 d2 d3 t : R,
  line_contains_exact (xl (line_new (V3 p1 p2 p3) (V3 d1 d2 d3))) (xv (V3 (p1 + t * d1) (p2 + t * d2) (p3 + t * d3))) = true.
Proof.
  intros. rewrite <- (contains_exact_line (line_new (V3 p1 p2 p3) (V3 d1 d2 d3)) t). do 2 f_equal.
  unfold line_new. cbn [lpoint ldirection]. ga. f_equal; ring.
Qed.
Print Assumptions C51_contains_line.

(** f32: the base point is accepted, NaN anywhere is rejected. *)
Theorem C51_base_point_f32 :
  forall lm (p1 p2 p3 d1 d2 d3 : f32),
  Forall (fun x : f32 => is_finite x = true) (p1 :: p2 :: p3 :: d1 :: d2 :: d3 :: nil) ->
  line_contains lm (line_new (V3 p1 p2 p3) (V3 d1 d2 d3)) (V3 p1 p2 p3) = true.
Proof.
  intros lm p1 p2 p3 d1 d2 d3 H. repeat match goal with H : Forall _ (_ :: _) |- _ => inversion H; subst; clear H end.
  now apply (contains_base lm (MkLine (V3 p1 p2 p3) (V3 d1 d2 d3))).
Qed.
Print Assumptions C51_base_point_f32.

Theorem C51_nan_rejected_f32 :
  forall lm (p1 p2 p3 d1 d2 d3 x1 x2 x3 : f32),
  Exists (fun x : f32 => is_nan x = true) (p1 :: p2 :: p3 :: d1 :: d2 :: d3 :: x1 :: x2 :: x3 :: nil) ->
  line_contains lm (line_new (V3 p1 p2 p3) (V3 d1 d2 d3)) (V3 x1 x2 x3) = false.
Proof.
  intros lm p1 p2 p3 d1 d2 d3 x1 x2 x3 H. apply not_true_iff_false. intros C. apply contains_nan in C.
  cbn [lpoint ldirection line_new a1 a2 a3] in C.
  repeat (apply Exists_cons in H; destruct H as [H|H]; [intuition congruence|]). now apply Exists_nil in H.
Qed.
Print Assumptions C51_nan_rejected_f32.

(** False in f32: with base (1,2,2), direction (0,2,3) and t = 0.7 the point
    base + direction*t computed in f32 is not on the line. *)
Theorem C51_computed_points_f32_refuted :
  ~ (forall lm (p d : Vector3 f32) (t : f32),
     Forall (fun x : f32 => is_finite x = true) (a1 p :: a2 p :: a3 p :: a1 d :: a2 d :: a3 d :: t :: nil) ->
     line_contains lm (line_new p d) (vec_add (O := FO lm) p (vec_scale (O := FO lm) d t)) = true).
Proof.
  intros H.
  specialize (H lm0 (V3 (f32_Z 1) (f32_Z 2) (f32_Z 2)) (V3 (f32_Z 0) (f32_Z 2) (f32_Z 3)) (f32_of 11744051 (-24))).
  assert (K : forall a b c d e f g : f32, is_finite a && is_finite b && is_finite c && is_finite d && is_finite e && is_finite f && is_finite g = true ->
    Forall (fun x : f32 => is_finite x = true) (a :: b :: c :: d :: e :: f :: g :: nil)).
  { intros. rewrite !andb_true_iff in H0. repeat constructor; tauto. }
  match type of H with ?A -> _ => assert (F : A) by (apply K; vm_compute; reflexivity) end.
  specialize (H F). clear F K. vm_compute in H. discriminate H.
Qed.
Print Assumptions C51_computed_points_f32_refuted.

Example C51_example :
  line_contains lm0 (line_new (V3 (f32_Z 1) (f32_Z 1) (f32_Z 0)) (V3 (f32_Z 1) (f32_Z 2) (f32_Z 0))) (V3 (f32_Z 2) (f32_Z 3) (f32_Z 0)) = true /\
  line_contains lm0 (line_new (V3 (f32_Z 1) (f32_Z 1) (f32_Z 0)) (V3 (f32_Z 1) (f32_Z 2) (f32_Z 0))) (V3 (f32_Z (-1)) (f32_Z 1) (f32_Z 0)) = false /\
  line_contains lm0 (line_new (V3 (f32_Z 1) (f32_Z 1) (f32_Z 0)) (V3 (f32_Z 1) (f32_Z 2) (f32_Z 0))) (V3 B754_nan (f32_Z 1) (f32_Z 0)) = false.
Proof. split; [|split]; reflexivity. Qed.

(** ** C69 *)

(** The f32 test: each rounded component has magnitude at most EPSILON; the ulps
    argument 4 has no effect. *)
Theorem C69_region_f32 :
  forall lm (p1 p2 p3 d1 d2 d3 x1 x2 x3 : f32),
  let sub := Bminus mode_NE in let mul := Bmult mode_NE in
  let small (z : f32) := Bleb (Babs z) (f32_of 1 (-23)) = true in
  line_contains lm (line_new (V3 p1 p2 p3) (V3 d1 d2 d3)) (V3 x1 x2 x3) = true <->
  small (sub (mul (sub x1 p1) d2) (mul (sub x2 p2) d1)) /\
  small (sub (mul (sub x1 p1) d3) (mul (sub x3 p3) d1)) /\
  small (sub (mul (sub x2 p2) d3) (mul (sub x3 p3) d2)).
Proof. intros. apply contains_f32. Qed.
Print Assumptions C69_region_f32.

(** Distance from the line: with D the least squared distance of x to a point p + t d,
    D |d|^2 <= eps^2 is accepted and D |d|^2 > 3 eps^2 is rejected. *)
Theorem C69_distance :
  forall (p d x : Vector3 R), d <> V3 0 0 0 ->
  let dist2 (t : R) := vec_norm_squared (vec_sub x (vec_add p (vec_scale d t))) in
  exists D : R, (exists t, dist2 t =r D) /\ (forall t, D <= dist2 t) /\
  (D * vec_norm_squared d <= / 2 ^ 46 -> line_contains_exact (xl (line_new p d)) (xv x) = true) /\
  (line_contains_exact (xl (line_new p d)) (xv x) = true -> D * vec_norm_squared d <= 3 * / 2 ^ 46).
Proof.
  intros p d x H dist2. exists (line_dist2 (line_new p d) x).
  replace (/ 2 ^ 46) with (eps32 * eps32) by (rewrite eps32_val; lra).
  split; [destruct (line_dist2_attained (line_new p d) x H) as [t E]; exists t; now symmetry|].
  split; [intros t; exact (line_dist2_min (line_new p d) x t H)|].
  exact (contains_exact_dist (line_new p d) x H).
Qed.
Print Assumptions C69_distance.

(** A line without direction contains everything; intersect never finds anything. *)
Theorem C69_degenerate :
  forall p x : Vector3 R, line_contains_exact (xl (line_new p (V3 0 0 0))) (xv x) = true.
Proof. exact contains_exact_degenerate. Qed.
Print Assumptions C69_degenerate.
Theorem C69_intersect_none : forall A (l m : Line A), line_intersect l m = None.
Proof. reflexivity. Qed.
Print Assumptions C69_intersect_none.

(** The test depends on the length of the direction: the same point one unit away from
    the same line is accepted for a short direction and rejected for a unit one. *)
Theorem C69_scale_matters :
  line_contains_exact (xl (line_new (V3 0 0 0) (V3 (/ 2 ^ 23) 0 0))) (xv (V3 0 1 0)) = true /\
  line_contains_exact (xl (line_new (V3 0 0 0) (V3 1 0 0))) (xv (V3 0 1 0)) = false.
Proof.
  split.
  - apply C51_contains_exact. repeat split; (match goal with |- Rabs ?e <= ?k => first [replace e with 0 by ring; rewrite Rabs_R0; lra|replace e with (- k) by ring; rewrite Rabs_Ropp, Rabs_pos_eq; lra] end).
  - apply not_true_iff_false. rewrite C51_contains_exact. intros (H & _). revert H.
    replace ((0 - 0) * 0 - (1 - 0) * 1) with (- (1)) by ring. rewrite Rabs_Ropp, Rabs_R1. lra.
Qed.
Print Assumptions C69_scale_matters.

Example C69_example : V3 1 0 0 <> V3 0 0 0 /\ vec_norm_squared (V3 1 0 0) =r 1.
Proof. split; [intros E; injection E; intros; lra|ga; ring]. Qed.
