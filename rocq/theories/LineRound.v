(** * Line::contains in f32, with rounding errors. *)
From Coq Require Import ZArith Reals List Bool Lia Lra Psatz.
From Flocq Require Import Core.Core IEEE754.BinarySingleNaN.
From Verif Require Import Scalar GA GASpec Line F32 Laws GAF32 GeoSpec Format RoundSpec Rounding NearCalc GeoRound GeoPoly GeoInc.
Local Open Scope R_scope.

Section L.
Variable lm : Libm.
Local Notation f := (single lm).

(** The two products of one component and their bounds. *)
Definition wc (xi pi xj pj di dj : R) : R := (xi - pi) * dj - (xj - pj) * di.
Definition wt (xi pi xj pj di dj : R) : R := Rabs (xi - pi) * Rabs dj + Rabs (xj - pj) * Rabs di.

Lemma wc_le : forall xi pi xj pj di dj, Rabs (wc xi pi xj pj di dj) <= wt xi pi xj pj di dj.
Proof. intros. unfold wc, wt, Rminus at 1. eapply Rle_trans; [apply Rabs_triang|]. rewrite Rabs_Ropp, !Rabs_mult. lra. Qed.

Lemma comp_near : forall xi pi xj pj di dj : f32,
  Forall (fun z : f32 => is_finite z = true /\ Rabs (B2R z) <= bpow radix2 60) (xi :: pi :: xj :: pj :: di :: dj :: nil) ->
  within (301 / 100 * u32 * (wt (B2R xi) (B2R pi) (B2R xj) (B2R pj) (B2R di) (B2R dj) + bpow radix2 (-125)))
    (Bminus mode_NE (Bmult mode_NE (Bminus mode_NE xi pi) dj) (Bmult mode_NE (Bminus mode_NE xj pj) di) : f32)
    (wc (B2R xi) (B2R pi) (B2R xj) (B2R pj) (B2R di) (B2R dj)).
Proof.
  intros xi pi xj pj di dj H. repeat match goal with H : Forall _ (_ :: _) |- _ => apply Forall_cons_iff in H; destruct H as [? H] end.
  destruct H0 as [F1 B1], H1 as [F2 B2], H2 as [F3 B3], H3 as [F4 B4], H4 as [F5 B5], H5 as [F6 B6]. clear H.
  destruct (box_diff lm _ _ F1 F2 B1 B2) as [N1 S1]. destruct (box_diff lm _ _ F3 F4 B3 B4) as [N2 S2].
  pose proof (nr_val f _ F5) as V5. pose proof (nr_val f _ F6) as V6.
  assert (P60 : bpow radix2 121 = bpow radix2 61 * bpow radix2 60) by (rewrite <- bpow_plus; reflexivity).
  assert (T : bpow radix2 (-126) <= 1) by (change 1 with (bpow radix2 0); apply bpow_le; lia). pose proof (bpow_gt_0 radix2 (-126)) as Pt.
  assert (O1 : 1 <= bpow radix2 121) by (change 1 with (bpow radix2 0); apply bpow_le; lia).
  assert (Q123 : bpow radix2 124 = 8 * bpow radix2 121) by (change 124%Z with (3 + 121)%Z; rewrite bpow_plus; reflexivity).
  assert (L : bpow radix2 124 <= bpow radix2 126) by (apply bpow_le; lia).
  assert (M1 : 0 <= Rabs (B2R xi - B2R pi) * Rabs (B2R dj) <= bpow radix2 121) by (split; [apply Rmult_le_pos; apply Rabs_pos|rewrite P60; apply Rmult_le_compat; auto using Rabs_pos]).
  assert (M2 : 0 <= Rabs (B2R xj - B2R pj) * Rabs (B2R di) <= bpow radix2 121) by (split; [apply Rmult_le_pos; apply Rabs_pos|rewrite P60; apply Rmult_le_compat; auto using Rabs_pos]).
  assert (P1 : nr f 2 (Rabs (B2R xi - B2R pi) * Rabs (B2R dj) + tiny f) (Bmult mode_NE (Bminus mode_NE xi pi) dj) ((B2R xi - B2R pi) * B2R dj)).
  { apply (nr_mul f 1 0); [exact N1|exact V6|]. rewrite u_eq, huge_eq, tiny_eq. apply (room 2); [lia|]. lra. }
  assert (P2 : nr f 2 (Rabs (B2R xj - B2R pj) * Rabs (B2R di) + tiny f) (Bmult mode_NE (Bminus mode_NE xj pj) di) ((B2R xj - B2R pj) * B2R di)).
  { apply (nr_mul f 1 0); [exact N2|exact V5|]. rewrite u_eq, huge_eq, tiny_eq. apply (room 2); [lia|]. lra. }
  assert (S : nr f 3 (Rabs (B2R xi - B2R pi) * Rabs (B2R dj) + tiny f + (Rabs (B2R xj - B2R pj) * Rabs (B2R di) + tiny f))
    (Bminus mode_NE (Bmult mode_NE (Bminus mode_NE xi pi) dj) (Bmult mode_NE (Bminus mode_NE xj pj) di)) ((B2R xi - B2R pi) * B2R dj - (B2R xj - B2R pj) * B2R di)).
  { apply (nr_sub f 2); [exact P1|exact P2|]. rewrite u_eq, huge_eq, tiny_eq. apply (room 3); [lia|]. lra. }
  destruct S as (_ & FS & ES). rewrite u_eq, tiny_eq in ES. split; [exact FS|]. eapply Rle_trans; [exact ES|].
  assert (E125 : bpow radix2 (-125) = 2 * bpow radix2 (-126)) by (change (-125)%Z with (1 + -126)%Z; rewrite bpow_plus; reflexivity).
  unfold wt. rewrite E125. apply Rmult_le_compat; [unfold u32; cbn [pow]; lra|lra|unfold u32; cbn [pow]; lra|lra].
Qed.

Lemma small_iff : forall z : f32, is_finite z = true -> (Bleb (Babs z) (f32_of 1 (-23)) = true <-> Rabs (B2R z) <= eps32).
Proof.
  intros z Fz. destruct (eps_val lm) as [FE VE]. change (ceps : FO lm) with (f32_of 1 (-23)) in FE, VE.
  rewrite Bleb_correct; [|now rewrite is_finite_Babs|exact FE]. rewrite B2R_Babs, VE.
  destruct (Rle_bool_spec (Rabs (B2R z)) eps32) as [K|K]; split; intros; [exact K|reflexivity|discriminate|exfalso; lra].
Qed.

Lemma comp_small : forall xi pi xj pj di dj : f32,
  Forall (fun z : f32 => is_finite z = true /\ Rabs (B2R z) <= bpow radix2 60) (xi :: pi :: xj :: pj :: di :: dj :: nil) ->
  let W := wc (B2R xi) (B2R pi) (B2R xj) (B2R pj) (B2R di) (B2R dj) in
  let E := 301 / 100 * u32 * (wt (B2R xi) (B2R pi) (B2R xj) (B2R pj) (B2R di) (B2R dj) + bpow radix2 (-125)) in
  let ok := Bleb (Babs (Bminus mode_NE (Bmult mode_NE (Bminus mode_NE xi pi) dj) (Bmult mode_NE (Bminus mode_NE xj pj) di) : f32)) (f32_of 1 (-23)) in
  (ok = true -> Rabs W <= eps32 + E) /\ (Rabs W + E <= eps32 -> ok = true).
Proof.
  intros xi pi xj pj di dj H W E ok. destruct (comp_near _ _ _ _ _ _ H) as [FZ EZ]. fold W E in EZ. unfold ok. rewrite (small_iff _ FZ).
  match type of EZ with Rabs (?a - _) <= _ => set (z := a) in * end. pose proof (Rabs_triang_inv z W) as A1. pose proof (Rabs_triang_inv W z) as A2. rewrite Rabs_minus_sym in A2. split; intros; lra.
Qed.

(** One coordinate of p + d*t. *)
Lemma comp_point : forall p d t : f32, is_finite p = true -> is_finite d = true -> is_finite t = true ->
  Rabs (B2R p) <= bpow radix2 50 -> Rabs (B2R d * B2R t) <= bpow radix2 50 ->
  within (201 / 100 * u32 * (Rabs (B2R p) + Rabs (B2R d * B2R t) + bpow radix2 (-126))) (Bplus mode_NE p (Bmult mode_NE d t) : f32) (B2R p + B2R d * B2R t).
Proof.
  intros p d t Fp Fd Ft Bp Bdt. set (T := bpow radix2 (-126)). assert (PT : 0 < T) by apply bpow_gt_0.
  assert (T1 : T <= 1) by (unfold T; change 1 with (bpow radix2 0); apply bpow_le; lia).
  assert (O1 : 1 <= bpow radix2 50) by (change 1 with (bpow radix2 0); apply bpow_le; lia).
  assert (Q : 8 * bpow radix2 50 <= bpow radix2 126) by (change 8 with (bpow radix2 3); rewrite <- bpow_plus; apply bpow_le; lia).
  pose proof (Rabs_pos (B2R p)). pose proof (Rabs_pos (B2R d * B2R t)).
  assert (M : nr f 1 (Rabs (B2R d * B2R t) + tiny f) (Bmult mode_NE d t) (B2R d * B2R t)).
  { rewrite Rabs_mult. apply (nr_mul f 0 0); [exact (nr_val f _ Fd)|exact (nr_val f _ Ft)|]. rewrite <- Rabs_mult, u_eq, huge_eq, tiny_eq. fold T. apply (room 1); [lia|]. lra. }
  assert (P : nr f 1 (Rabs (B2R p)) p (B2R p)) by (apply (nr_mono f 0 1 (Rabs (B2R p))); [lia|lra|exact (nr_val f _ Fp)]).
  pose proof (nr_add f 1 _ _ _ _ _ _ P M) as S. rewrite u_eq, huge_eq, tiny_eq in S. fold T in S. destruct S as (_ & FS & ES); [apply (room 2); [lia|lra]|].
  split; [exact FS|]. rewrite u_eq in ES. eapply Rle_trans; [exact ES|].
  apply Rmult_le_compat; [unfold u32; cbn [pow]; lra|lra|unfold u32; cbn [pow]; lra|lra].
Qed.

(** The exact component of a computed point, and its terms. *)
Lemma point_comp : forall xi pi xj pj di dj t M D, 0 <= M -> 0 <= D ->
  Rabs pi + Rabs (di * t) <= M -> Rabs pj + Rabs (dj * t) <= M -> Rabs di <= D -> Rabs dj <= D ->
  Rabs (xi - (pi + di * t)) <= 201 / 100 * u32 * (M + bpow radix2 (-126)) -> Rabs (xj - (pj + dj * t)) <= 201 / 100 * u32 * (M + bpow radix2 (-126)) ->
  Rabs (wc xi pi xj pj di dj) <= 402 / 100 * u32 * ((M + bpow radix2 (-126)) * D) /\ wt xi pi xj pj di dj <= 201 / 100 * ((M + bpow radix2 (-126)) * D).
Proof.
  intros xi pi xj pj di dj t M D PM PD H1 H2 H3 H4 E1 E2. set (m := M + bpow radix2 (-126)) in *. pose proof (bpow_gt_0 radix2 (-126)).
  assert (Mm : M <= m) by (unfold m; lra). assert (Pm : 0 <= m) by lra.
  set (ei := xi - (pi + di * t)) in *. set (ej := xj - (pj + dj * t)) in *.
  pose proof (Rabs_pos pi). pose proof (Rabs_pos pj). pose proof (Rabs_pos di). pose proof (Rabs_pos dj). pose proof (Rabs_pos ei). pose proof (Rabs_pos ej).
  assert (A : forall e d, 0 <= Rabs d -> Rabs e <= 201 / 100 * u32 * m -> Rabs d <= D -> Rabs (e * d) <= 201 / 100 * u32 * (m * D)).
  { intros e d _ G1 G2. rewrite Rabs_mult. replace (201 / 100 * u32 * (m * D)) with (201 / 100 * u32 * m * D) by ring. apply Rmult_le_compat; auto using Rabs_pos. }
  split.
  - unfold wc. replace ((xi - pi) * dj - (xj - pj) * di) with (ei * dj - ej * di) by (unfold ei, ej; ring).
    unfold Rminus. eapply Rle_trans; [apply Rabs_triang|]. rewrite Rabs_Ropp. pose proof (A ei dj (Rabs_pos _) E1 H4). pose proof (A ej di (Rabs_pos _) E2 H3). lra.
  - unfold wt. assert (B : forall x p d e, x - p = d * t + e -> Rabs p + Rabs (d * t) <= M -> 0 <= Rabs p -> Rabs e <= 201 / 100 * u32 * m -> Rabs (x - p) <= 1005 / 1000 * m).
    { intros x p d e -> G1 G2 G3. eapply Rle_trans; [apply Rabs_triang|]. unfold u32 in *. lra. }
    assert (B1 : Rabs (xi - pi) <= 1005 / 1000 * m) by (apply (B xi pi di ei); try assumption; unfold ei; ring).
    assert (B2 : Rabs (xj - pj) <= 1005 / 1000 * m) by (apply (B xj pj dj ej); try assumption; unfold ej; ring).
    assert (Rabs (xi - pi) * Rabs dj <= 1005 / 1000 * m * D) by (apply Rmult_le_compat; auto using Rabs_pos).
    assert (Rabs (xj - pj) * Rabs di <= 1005 / 1000 * m * D) by (apply Rmult_le_compat; auto using Rabs_pos). lra.
Qed.
End L.
