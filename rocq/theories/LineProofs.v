(** * Line::contains in exact arithmetic. *)
From Coq Require Import List Bool Reals Lra.
From Verif Require Import Scalar GA GASpec GARing GAReal Line Laws.
Local Open Scope R_scope.
Local Notation "x =r y" := (@eq R x y) (at level 70).

Lemma eps32_val : eps32 =r / 2 ^ 23.
Proof. unfold eps32. simpl. lra. Qed.
Definition xl (l : Line R) : Line X := MkLine (xv (lpoint l)) (xv (ldirection l)).

Lemma contains_exact_iff : forall l x, line_contains_exact (xl l) (xv x) = true <->
  let b := line_bivector (O := RO) l x in Rabs (b1 b) <= eps32 /\ Rabs (b2 b) <= eps32 /\ Rabs (b3 b) <= eps32.
Proof.
  intros [[p q r] [d e f]] [x y z]. unfold line_contains_exact, line_bivector, vec_wedge, vec_sub, xl, xv.
  cbn [lpoint ldirection a1 a2 a3 b1 b2 b3 osub omul oabs ole ceps c0 XO RO lift1 lift2 xcmp].
  rewrite !andb_true_iff, !Rleb_true, !Rminus_0_r. tauto.
Qed.
Lemma contains_exact_line : forall (l : Line R) (t : R),
  line_contains_exact (xl l) (xv (vec_add (lpoint l) (vec_scale (ldirection l) t))) = true.
Proof.
  intros [[p q r] [d e f]] t. apply contains_exact_iff. unfold line_bivector.
  cbn [lpoint ldirection]. ga. pose proof eps32_pos.
  repeat split; (match goal with |- Rabs ?e <= _ => replace e with 0 by ring end); rewrite Rabs_R0; lra.
Qed.

(** Squared distance of x from the line (through the foot of the perpendicular). *)
Definition line_dist2 (l : Line R) (x : Vector3 R) : R :=
  let s := vec_sub x (lpoint l) in vec_norm_squared (vec_sub s (vec_project s (ldirection l))).
Lemma line_dist2_min : forall l x (t : R), vnz (ldirection l) ->
  line_dist2 l x <= vec_norm_squared (vec_sub x (vec_add (lpoint l) (vec_scale (ldirection l) t))).
Proof.
  intros [[p q r] [d e f]] [x y z] t H. cbn [ldirection] in H. apply vnz_norm2 in H.
  unfold line_dist2. cbn [lpoint ldirection]. revert H. ga. intros H.
  set (n := d * d + e * e + f * f) in *. set (k := ((x - p) * d + (y - q) * e + (z - r) * f) / n).
  match goal with |- ?a <= ?b => replace b with (a + (k - t) * (k - t) * n) end.
  - assert (0 <= (k - t) * (k - t) * n) by (apply Rmult_le_pos; [apply Rle_0_sqr|lra]). lra.
  - unfold k, n in *. field. lra.
Qed.
Lemma line_dist2_wedge : forall l x, vnz (ldirection l) ->
  biv_norm_squared (line_bivector l x) =r line_dist2 l x * vec_norm_squared (ldirection l).
Proof.
  intros [[p q r] [d e f]] [x y z] H. cbn [ldirection] in H. apply vnz_norm2 in H.
  unfold line_dist2, line_bivector. cbn [lpoint ldirection]. revert H. ga. intros H. field. lra.
Qed.
Lemma abs_sqr_le : forall x k, 0 <= k -> (Rabs x <= k <-> x * x <= k * k).
Proof.
  intros x k Hk. split; intros H.
  - apply Rsqr_le_abs_1. now rewrite (Rabs_pos_eq k).
  - apply Rsqr_le_abs_0 in H. now rewrite (Rabs_pos_eq k) in H.
Qed.
Lemma contains_exact_dist : forall l x, vnz (ldirection l) ->
  (line_dist2 l x * vec_norm_squared (ldirection l) <= eps32 * eps32 ->
   line_contains_exact (xl l) (xv x) = true) /\
  (line_contains_exact (xl l) (xv x) = true ->
   line_dist2 l x * vec_norm_squared (ldirection l) <= 3 * (eps32 * eps32)).
Proof.
  intros l x H. rewrite contains_exact_iff. rewrite <- line_dist2_wedge by assumption. rewrite biv_norm2_val.
  set (b := line_bivector l x). cbv zeta. pose proof eps32_pos as E.
  rewrite !abs_sqr_le by lra.
  pose proof (Rle_0_sqr (b1 b)) as B1. pose proof (Rle_0_sqr (b2 b)) as B2. pose proof (Rle_0_sqr (b3 b)) as B3.
  unfold Rsqr in *. split; [intros K|intros (K1 & K2 & K3)]; [repeat split|]; cbv [car RO] in *; lra.
Qed.
Lemma contains_exact_degenerate : forall p x,
  line_contains_exact (xl (MkLine p (V3 0 0 0))) (xv x) = true.
Proof.
  intros [p q r] [x y z]. apply contains_exact_iff. unfold line_bivector. cbn [lpoint ldirection]. ga.
  pose proof eps32_pos.
  repeat split; (match goal with |- Rabs ?e <= _ => replace e with 0 by ring end); rewrite Rabs_R0; lra.
Qed.
Lemma line_dist2_attained : forall l x, vnz (ldirection l) -> exists t : R,
  line_dist2 l x =r vec_norm_squared (vec_sub x (vec_add (lpoint l) (vec_scale (ldirection l) t))).
Proof.
  intros [[p q r] [d e f]] [x y z] H. cbn [ldirection] in H. apply vnz_norm2 in H.
  exists (((x - p) * d + (y - q) * e + (z - r) * f) / (d * d + e * e + f * f)).
  unfold line_dist2. cbn [lpoint ldirection]. revert H. ga. intros H. field. lra.
Qed.
