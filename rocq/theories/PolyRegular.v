(** * Polygon::regular in exact arithmetic. *)
From Coq Require Import Reals List Bool Lra Lia Psatz Arith.
From Verif Require Import Scalar Utils Polygon PlaneSpec PolySpec Laws UtilsReal PolyArea.
Import ListNotations.
Local Open Scope R_scope.

(** The vertex at angle [x] of the circle. *)
Definition at_angle (r : R) (c : point) (x : R) : point := P2 (vx c + r * cos x) (vy c + r * sin x).

Definition step (n : nat) : R := 2 * PI / INR n.

Lemma regular_vertex_eq : forall n r c i, (0 < n)%nat ->
  @eq point (regular_vertex (O := RO) n r c i) (at_angle r c (INR i * step n)).
Proof.
  intros n r c i H. unfold regular_vertex, at_angle, step; simpl.
  replace (2 * PI * (INR i / INR n)) with (INR i * (2 * PI / INR n)); [reflexivity|].
  field. now apply not_0_INR, Nat.neq_0_lt_0.
Qed.

Lemma sines : forall A B, sin (2 * A) + sin (2 * B) - sin (2 * (A + B)) = 4 * sin A * sin B * sin (A + B).
Proof.
  intros A B. rewrite !sin_2a. rewrite cos_plus, sin_plus.
  pose proof (sin2_cos2 A) as HA. pose proof (sin2_cos2 B) as HB. unfold Rsqr in *.
  set (s := sin A) in *. set (c := cos A) in *. set (t := sin B) in *. set (d := cos B) in *.
  replace (2 * s * c + 2 * t * d - 2 * (s * d + c * t) * (c * d - s * t)) with
    (2 * s * c * (1 - d * d) + 2 * t * d * (1 - c * c) + 2 * (s * s) * t * d + 2 * s * c * (t * t)) by ring.
  replace (1 - d * d) with (t * t) by lra. replace (1 - c * c) with (s * s) by lra. ring.
Qed.

Lemma circle_cross : forall r c x y z,
  cross (at_angle r c x) (at_angle r c y) (at_angle r c x) (at_angle r c z) =
  4 * (r * r) * sin ((y - x) / 2) * sin ((z - y) / 2) * sin ((z - x) / 2).
Proof.
  intros r c x y z.
  assert (E : sin (y - x) + sin (z - y) - sin (z - x) =
    4 * sin ((y - x) / 2) * sin ((z - y) / 2) * sin ((z - x) / 2)).
  { pose proof (sines ((y - x) / 2) ((z - y) / 2)) as S.
    replace (2 * ((y - x) / 2)) with (y - x) in S by field.
    replace (2 * ((z - y) / 2)) with (z - y) in S by field.
    replace ((y - x) / 2 + (z - y) / 2) with ((z - x) / 2) in S by field.
    replace (2 * ((z - x) / 2)) with (z - x) in S by field. exact S. }
  replace (4 * (r * r) * sin ((y - x) / 2) * sin ((z - y) / 2) * sin ((z - x) / 2))
    with (r * r * (4 * sin ((y - x) / 2) * sin ((z - y) / 2) * sin ((z - x) / 2))) by ring.
  rewrite <- E. unfold cross, at_angle; cbn [vx vy]. rewrite !sin_minus. ring.
Qed.

Section Regular.
Variables (n : nat) (r : R) (c : point).
Hypothesis Hn : (3 <= n)%nat.

Let w (i : nat) : point := at_angle r c (INR i * step n).
Let vs := map w (seq 0 n).

Lemma n_pos : 0 < INR n.
Proof. apply lt_0_INR. lia. Qed.

Lemma step_pos : 0 < step n.
Proof. unfold step. apply Rdiv_lt_0_compat; [pose proof PI_RGT_0; lra|exact n_pos]. Qed.

Lemma turn : INR n * step n = 2 * PI.
Proof. unfold step. field. pose proof n_pos. lra. Qed.

Lemma vertices_eq : map (regular_vertex (O := RO) n r c) (seq 0 n) = vs.
Proof. apply map_ext. intros i. apply regular_vertex_eq. lia. Qed.

Lemma vs_length : length vs = n.
Proof. unfold vs. now rewrite map_length, seq_length. Qed.

Lemma vs_nth : forall i, (i < n)%nat -> vtx vs i = w i.
Proof.
  intros i H. unfold vtx, vs. rewrite (nth_indep _ _ (w 0)) by (now rewrite map_length, seq_length).
  rewrite map_nth, seq_nth by assumption. reflexivity.
Qed.

Lemma half_range : forall i j, (i < j)%nat -> (j < i + n)%nat ->
  0 < sin ((INR j * step n - INR i * step n) / 2).
Proof.
  intros i j H1 H2. pose proof step_pos as Sp. apply lt_INR in H1, H2. rewrite plus_INR in H2.
  pose proof turn as T.
  apply sin_gt_0; nra.
Qed.

Lemma regular_convex : r <> 0 -> strictly_convex vs.
Proof.
  intros Hr i j k H1 H2. rewrite vs_length in H2. rewrite !vs_nth by lia. unfold w. rewrite circle_cross.
  pose proof (sq_pos r Hr). apply Rmult_lt_0_compat; [apply Rmult_lt_0_compat; [apply Rmult_lt_0_compat; [lra|]|]|];
    apply half_range; lia.
Qed.

Lemma w_period : w n = w 0.
Proof.
  unfold w, at_angle. rewrite turn. simpl INR. rewrite Rmult_0_l.
  now rewrite cos_2PI, sin_2PI, cos_0, sin_0.
Qed.

Lemma chain_circle : forall m i,
  chain (map (fun i => at_angle r (P2 0 0) (INR i * step n)) (seq i (S m))) =
  INR m * (r * r * sin (step n)).
Proof.
  intros m. induction m as [|m IH]; intros i; [simpl; ring|].
  change (seq i (S (S m))) with (i :: S i :: seq (S (S i)) m).
  cbn [map]. rewrite chain_cons2. specialize (IH (S i)). cbn [seq map] in IH. rewrite IH.
  rewrite (S_INR m). unfold at_angle; cbn [vx vy].
  replace (sin (step n)) with (sin (INR (S i) * step n) * cos (INR i * step n)
    - cos (INR (S i) * step n) * sin (INR i * step n))
    by (rewrite <- sin_minus; f_equal; rewrite S_INR; ring).
  ring.
Qed.

Lemma regular_shoelace : shoelace vs = INR n * (r * r * sin (step n)).
Proof.
  set (u := fun i : nat => at_angle r (P2 0 0) (INR i * step n)).
  assert (E : vs = map (moved c) (map u (seq 0 n))).
  { unfold vs. rewrite map_map. apply map_ext. intros i. unfold moved, u, w, at_angle; simpl. f_equal; ring. }
  rewrite E, shoelace_translate, <- chain_circle with (i := 0%nat). fold u.
  assert (P : u n = u 0%nat).
  { unfold u, at_angle. rewrite turn. simpl INR. rewrite Rmult_0_l.
    now rewrite cos_2PI, sin_2PI, cos_0, sin_0. }
  rewrite seq_S, map_app. simpl (map u [_]). simpl (0 + n)%nat. rewrite P.
  unfold shoelace. destruct n as [|m]; [lia|]. reflexivity.
Qed.

Lemma sin_step_pos : 0 < sin (step n).
Proof.
  apply sin_gt_0; [exact step_pos|]. pose proof turn as T. pose proof step_pos.
  assert (3 <= INR n) by (replace 3 with (INR 3) by (simpl; lra); now apply le_INR). nra.
Qed.

Lemma regular_ok : polygon_regular (O := RO) n r c = Ok (MkPolygon vs).
Proof.
  unfold polygon_regular. rewrite vertices_eq. unfold polygon_new.
  match goal with |- context [Nat.ltb ?k 3] => destruct (Nat.ltb_spec k 3) as [L|L] end.
  { change (length vs < 3)%nat in L. rewrite vs_length in L. lia. }
  rewrite area_poly2_shoelace, regular_shoelace. cbn [olt c0 RO].
  destruct (Rltb _ 0) eqn:E; [|reflexivity]. exfalso. rcmp.
  pose proof n_pos. pose proof sin_step_pos. assert (0 <= r * r) by nra.
  assert (0 <= INR n * (r * r * sin (step n))) by (apply Rmult_le_pos; [lra|apply Rmult_le_pos; lra]). lra.
Qed.

(** ** Sums of cosines and sines over the full turn *)
Lemma sum_cos : forall m, 2 * sin (step n / 2) * sum (map (fun i => cos (INR i * step n)) (seq 0 m)) =
  sin (INR m * step n - step n / 2) + sin (step n / 2).
Proof.
  intros m. induction m as [|m IH].
  - unfold sum; simpl. rewrite Rmult_0_l, Rminus_0_l, sin_neg. ring.
  - rewrite seq_S, map_app. unfold sum in *. rewrite fold_right_app. cbn [map fold_right].
    assert (F : forall l a, fold_right Rplus a l = fold_right Rplus 0 l + a).
    { intros l a. induction l as [|x l IHl]; simpl; [ring|]. rewrite IHl. ring. }
    rewrite F, Rmult_plus_distr_l, IH. simpl (0 + m)%nat. rewrite S_INR.
    replace ((INR m + 1) * step n - step n / 2) with (INR m * step n + step n / 2) by field.
    rewrite sin_minus, sin_plus. ring.
Qed.

Lemma sum_sin : forall m, 2 * sin (step n / 2) * sum (map (fun i => sin (INR i * step n)) (seq 0 m)) =
  cos (step n / 2) - cos (INR m * step n - step n / 2).
Proof.
  intros m. induction m as [|m IH].
  - unfold sum; simpl. rewrite Rmult_0_l, Rminus_0_l, cos_neg. ring.
  - rewrite seq_S, map_app. unfold sum in *. rewrite fold_right_app. cbn [map fold_right].
    assert (F : forall l a, fold_right Rplus a l = fold_right Rplus 0 l + a).
    { intros l a. induction l as [|x l IHl]; simpl; [ring|]. rewrite IHl. ring. }
    rewrite F, Rmult_plus_distr_l, IH. simpl (0 + m)%nat. rewrite S_INR.
    replace ((INR m + 1) * step n - step n / 2) with (INR m * step n + step n / 2) by field.
    rewrite cos_minus, cos_plus. ring.
Qed.

Lemma half_step_pos : 0 < sin (step n / 2).
Proof.
  pose proof step_pos. pose proof turn as T.
  assert (3 <= INR n) by (replace 3 with (INR 3) by (simpl; lra); now apply le_INR).
  apply sin_gt_0; nra.
Qed.

Lemma sums_vanish : sum (map (fun i => cos (INR i * step n)) (seq 0 n)) = 0 /\
  sum (map (fun i => sin (INR i * step n)) (seq 0 n)) = 0.
Proof.
  pose proof half_step_pos as P. split.
  - apply Rmult_eq_reg_l with (2 * sin (step n / 2)); [|lra]. rewrite sum_cos, turn.
    rewrite sin_minus, sin_2PI, cos_2PI. ring.
  - apply Rmult_eq_reg_l with (2 * sin (step n / 2)); [|lra]. rewrite sum_sin, turn.
    rewrite cos_minus, sin_2PI, cos_2PI. ring.
Qed.

Lemma regular_center : @eq point (polygon_center (O := RO) (MkPolygon vs)) c.
Proof.
  rewrite center_sum. cbn [vertices]. rewrite vs_length.
  assert (Ex : sum (map vx vs) = INR n * vx c).
  { unfold vs. rewrite map_map. destruct sums_vanish as [Z _].
    transitivity (sum (map (fun i => cos (INR i * step n) * r + vx c) (seq 0 n))).
    - f_equal. apply map_ext. intros i. unfold w, at_angle; simpl. ring.
    - rewrite sum_affine, seq_length. rewrite Z. ring. }
  assert (Ey : sum (map vy vs) = INR n * vy c).
  { unfold vs. rewrite map_map. destruct sums_vanish as [_ Z].
    transitivity (sum (map (fun i => sin (INR i * step n) * r + vy c) (seq 0 n))).
    - f_equal. apply map_ext. intros i. unfold w, at_angle; simpl. ring.
    - rewrite sum_affine, seq_length. rewrite Z. ring. }
  rewrite Ex, Ey. pose proof n_pos. apply pt_eq; cbn [vx vy]; field; lra.
Qed.

Lemma regular_radius : forall i, dist c (w i) = Rabs r.
Proof.
  intros i. apply sq_eq; [apply dist_nonneg|apply Rabs_pos|].
  rewrite dist_sq, <- Rabs_mult, (Rabs_pos_eq (r * r)) by nra.
  unfold w, at_angle; cbn [vx vy]. pose proof (sin2_cos2 (INR i * step n)) as S. unfold Rsqr in S.
  replace ((vx c + r * cos (INR i * step n) - vx c) * (vx c + r * cos (INR i * step n) - vx c) +
    (vy c + r * sin (INR i * step n) - vy c) * (vy c + r * sin (INR i * step n) - vy c))
    with (r * r * (sin (INR i * step n) * sin (INR i * step n) + cos (INR i * step n) * cos (INR i * step n))) by ring.
  rewrite S. ring.
Qed.
End Regular.

Lemma regular_panics : forall (O : Ops) n (r : O) c, (n < 3)%nat -> polygon_regular n r c = Panic.
Proof.
  intros O n r c H. unfold polygon_regular, polygon_new. rewrite map_length, seq_length.
  now rewrite (proj2 (Nat.ltb_lt n 3) H).
Qed.
