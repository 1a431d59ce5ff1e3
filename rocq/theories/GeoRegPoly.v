(** * Regular polygons in f32: convexity, robust position, area. *)
From Coq Require Import ZArith Reals List Bool Lia Lra Psatz Arith.
From Flocq Require Import Core.Core IEEE754.BinarySingleNaN.
From Verif Require Import Scalar Utils Polygon PlaneSpec PolySpec F32 Laws PolyF32 PolyArea PolyRegular GeoSpec Format RoundSpec RegSpec Rounding NearCalc GeoRound GeoArea GeoReg.
Import ListNotations.
Local Open Scope R_scope.
Local Notation cross := PlaneSpec.cross.

Lemma regular_ok_of : forall (O : Ops) n (r : O) c p, polygon_new (map (regular_vertex n r c) (seq 0 n)) = Some p -> polygon_regular n r c = Ok p.
Proof. intros O n r c p H. unfold polygon_regular. now rewrite H. Qed.
Lemma regular_vertices : forall (O : Ops) n (r : O) c p, polygon_regular n r c = Ok p ->
  vertices p = map (regular_vertex n r c) (seq 0 n) \/ vertices p = rev (map (regular_vertex n r c) (seq 0 n)).
Proof.
  intros O n r c p. unfold polygon_regular, polygon_new. generalize (map (regular_vertex n r c) (seq 0 n)). intros l.
  destruct (length l <? 3)%nat; [discriminate|]. destruct (olt _ _); intros H; inversion H; cbn [vertices]; auto.
Qed.

Lemma gam_n : forall n, (n <= 1000)%nat -> 0 <= gam n <= 101 / 100 * INR n * u32.
Proof.
  unfold gam. induction n as [|n IH]; intros H; [cbn [pow INR]; lra|]. specialize (IH ltac:(lia)). rewrite S_INR. cbn [pow].
  assert (B : INR n <= 1000) by (replace 1000 with (INR 1000) by (rewrite INR_IZR_INZ; reflexivity); apply le_INR; lia). pose proof (pos_INR n).
  assert (0 <= INR n * u32 <= / 10000) by (unfold u32; lra). set (g := (1 + u32) ^ n) in *. unfold u32 in *. lra.
Qed.

(** sin (pi/n). *)
Lemma sin_step : forall n, (3 <= n)%nat -> 2567 / 1000 / INR n <= sin (PI / INR n) /\ / 2 <= cos (PI / INR n) /\ 0 < PI / INR n <= PI / 3.
Proof.
  intros n Hn. pose proof PI_bounds as PB. assert (N : 3 <= INR n) by (replace 3 with (INR 3) by (cbn; ring); apply le_INR; lia).
  assert (I : 0 < / INR n <= / 3) by (split; [apply Rinv_0_lt_compat; lra|apply Rinv_le; lra]).
  assert (X : 0 < PI / INR n <= PI / 3) by (unfold Rdiv; split; [apply Rmult_lt_0_compat; lra|apply Rmult_le_compat_l; lra]).
  split; [|split; [|exact X]].
  - destruct (sin_bound (PI / INR n) 0 ltac:(lra) ltac:(lra)) as [L _]. eapply Rle_trans; [|exact L]. unfold sin_approx, sum_f_R0, sin_term. cbn [Nat.mul Nat.add fact pow INR].
    set (x := PI / INR n) in *. replace (2567 / 1000 / INR n) with (2567 / 1000 / PI * x) by (unfold x; field; lra).
    assert (C1 : 2567 / 1000 / PI <= 8172 / 10000) by (apply Rmult_le_reg_r with PI; [lra|]; unfold Rdiv; rewrite Rmult_assoc, Rinv_l by lra; lra).
    assert (XX : x * x <= 10967 / 10000) by (apply Rle_trans with (PI / 3 * (PI / 3)); [apply Rmult_le_compat; lra|]; assert (PI / 3 <= 10472 / 10000) by lra; apply Rle_trans with (10472 / 10000 * (10472 / 10000)); [apply Rmult_le_compat; lra|lra]).
    apply Rle_trans with (8172 / 10000 * x); [apply Rmult_le_compat_r; lra|].
    assert (X3 : x * x * x <= 10967 / 10000 * x) by (apply Rmult_le_compat_r; lra).
    match goal with |- _ <= ?y => replace y with (x - x * x * x / 6) by field end. lra.
  - replace (/ 2) with (cos (PI / 3)) by (rewrite cos_PI3; lra). apply cos_decr_1; lra.
Qed.
Lemma sin_multiple : forall n m, (3 <= n)%nat -> (1 <= m < n)%nat -> 2567 / 1000 / INR n <= sin (INR m * (PI / INR n)).
Proof.
  intros n m Hn Hm. destruct (sin_step n Hn) as (S & _ & X). eapply Rle_trans; [exact S|]. pose proof PI_bounds as PB. set (x := PI / INR n) in *.
  assert (N : 0 < INR n) by (apply lt_0_INR; lia). assert (E : INR n * x = PI) by (unfold x; field; lra).
  assert (M : 1 <= INR m) by (change 1 with (INR 1); apply le_INR; lia). assert (M2 : INR m <= INR n - 1) by (replace (INR n - 1) with (INR (n - 1)) by (rewrite minus_INR by lia; reflexivity); apply le_INR; lia).
  assert (L1 : 1 * x <= INR m * x) by (apply Rmult_le_compat_r; lra). assert (L2 : INR m * x <= (INR n - 1) * x) by (apply Rmult_le_compat_r; lra).
  destruct (Rle_or_lt (INR m * x) (PI / 2)) as [L|L].
  - apply sin_incr_1; lra.
  - rewrite <- (sin_PI_x (INR m * x)). apply sin_incr_1; lra.
Qed.
Lemma corner_at : forall n r c i, (0 < n)%nat -> corner n r c i = at_angle r c (INR i * step n).
Proof. intros n r c i H. unfold corner, at_angle, step. replace (INR i * (2 * PI / INR n)) with (2 * PI * INR i / INR n); [reflexivity|]. field. now apply not_0_INR, Nat.neq_0_lt_0. Qed.
Lemma corner_cross : forall n r c i j k, (3 <= n)%nat -> (i < j < k)%nat -> (k < n)%nat ->
  676 / 10 / (INR n * INR n * INR n) * (r * r) <= cross (corner n r c i) (corner n r c j) (corner n r c i) (corner n r c k).
Proof.
  intros n r c i j k Hn H Hk. rewrite !corner_at by lia. rewrite circle_cross. assert (N : 0 < INR n) by (apply lt_0_INR; lia).
  assert (E : forall a b, (a < b)%nat -> (INR b * step n - INR a * step n) / 2 = INR (b - a) * (PI / INR n)) by (intros a b L; rewrite minus_INR by lia; unfold step; field; lra).
  rewrite !E by lia. pose proof (sin_multiple n (j - i) Hn ltac:(lia)) as S1. pose proof (sin_multiple n (k - j) Hn ltac:(lia)) as S2. pose proof (sin_multiple n (k - i) Hn ltac:(lia)) as S3.
  set (s := 2567 / 1000 / INR n) in *. assert (P : 0 < s) by (unfold s, Rdiv; apply Rmult_lt_0_compat; [lra|now apply Rinv_0_lt_compat]).
  assert (S4 : s * s <= sin (INR (j - i) * (PI / INR n)) * sin (INR (k - j) * (PI / INR n))) by (apply Rmult_le_compat; lra).
  assert (P2 : 0 < s * s) by (apply Rmult_lt_0_compat; lra).
  assert (S5 : s * s * s <= sin (INR (j - i) * (PI / INR n)) * sin (INR (k - j) * (PI / INR n)) * sin (INR (k - i) * (PI / INR n))) by (apply Rmult_le_compat; lra).
  pose proof (Rle_0_sqr r) as RR. unfold Rsqr in RR.
  apply Rle_trans with (4 * (r * r) * (s * s * s)).
  - replace (s * s * s) with (2567 / 1000 * (2567 / 1000) * (2567 / 1000) / (INR n * INR n * INR n)) by (unfold s; field; lra).
    assert (0 < / (INR n * INR n * INR n)) by (apply Rinv_0_lt_compat, Rmult_lt_0_compat; [apply Rmult_lt_0_compat|]; lra).
    assert (0 <= / (INR n * INR n * INR n) * (r * r)) by (apply Rmult_le_pos; lra). unfold Rdiv at 1 2. nra.
  - replace (4 * (r * r) * sin (INR (j - i) * (PI / INR n)) * sin (INR (k - j) * (PI / INR n)) * sin (INR (k - i) * (PI / INR n))) with (4 * (r * r) * (sin (INR (j - i) * (PI / INR n)) * sin (INR (k - j) * (PI / INR n)) * sin (INR (k - i) * (PI / INR n)))) by ring. apply Rmult_le_compat_l; lra.
Qed.

(** ** Perturbed corners *)
Lemma prod_perturb : forall D e x y x' y', Rabs x <= D -> Rabs y <= D -> Rabs (x' - x) <= e -> Rabs (y' - y) <= e -> Rabs (x' * y' - x * y) <= 2 * D * e + e * e.
Proof.
  intros D e x y x' y' Hx Hy Ex Ey. replace (x' * y' - x * y) with (x * (y' - y) + y * (x' - x) + (x' - x) * (y' - y)) by ring.
  eapply Rle_trans; [apply Rabs_triang|]. eapply Rle_trans; [apply Rplus_le_compat_r, Rabs_triang|]. rewrite !Rabs_mult.
  assert (Rabs x * Rabs (y' - y) <= D * e) by (apply Rmult_le_compat; auto using Rabs_pos). assert (Rabs y * Rabs (x' - x) <= D * e) by (apply Rmult_le_compat; auto using Rabs_pos).
  assert (Rabs (x' - x) * Rabs (y' - y) <= e * e) by (apply Rmult_le_compat; auto using Rabs_pos). lra.
Qed.

Section Perturb.
Variables (n : nat) (R : R) (c : point) (P : nat -> point).
Hypothesis Hn : (3 <= n <= 100)%nat.
Hypothesis PR : 0 < R.
Let w := corner n R c.
Let e := 37 * u32 * R.
Hypothesis HP : forall i, (i < n)%nat -> Rabs (vx (P i) - vx (w i)) <= e /\ Rabs (vy (P i) - vy (w i)) <= e.
Let RR := R * R.

Lemma RR_pos : 0 < RR.
Proof. apply Rmult_lt_0_compat; exact PR. Qed.
Lemma w_diff : forall i j, Rabs (vx (w i) - vx (w j)) <= 2 * R /\ Rabs (vy (w i) - vy (w j)) <= 2 * R.
Proof.
  intros i j. unfold w, corner. cbn [vx vy]. set (a := 2 * PI * INR i / INR n). set (b := 2 * PI * INR j / INR n).
  pose proof (COS_bound a). pose proof (COS_bound b). pose proof (SIN_bound a). pose proof (SIN_bound b). split; apply Rabs_le; nra.
Qed.
Lemma P_diff : forall i j, (i < n)%nat -> (j < n)%nat ->
  Rabs ((vx (P i) - vx (P j)) - (vx (w i) - vx (w j))) <= 2 * e /\ Rabs ((vy (P i) - vy (P j)) - (vy (w i) - vy (w j))) <= 2 * e.
Proof.
  intros i j Hi Hj. destruct (HP i Hi) as [X1 Y1]. destruct (HP j Hj) as [X2 Y2]. apply Rabs_le_inv in X1, X2, Y1, Y2. split; apply Rabs_le; lra.
Qed.
Lemma P_cross : forall i j k, (i < n)%nat -> (j < n)%nat -> (k < n)%nat -> Rabs (cross (P i) (P j) (P i) (P k) - cross (w i) (w j) (w i) (w k)) <= 593 * u32 * RR.
Proof.
  intros i j k Hi Hj Hk. unfold cross. destruct (w_diff j i) as [A1 A2]. destruct (w_diff k i) as [A3 A4]. destruct (P_diff j i Hj Hi) as [B1 B2]. destruct (P_diff k i Hk Hi) as [B3 B4].
  pose proof (prod_perturb _ _ _ _ _ _ A1 A4 B1 B4) as Q1. pose proof (prod_perturb _ _ _ _ _ _ A2 A3 B2 B3) as Q2.
  match goal with |- Rabs (?a - ?b - (?x - ?y)) <= _ => replace (a - b - (x - y)) with ((a - x) + - (b - y)) by ring end.
  eapply Rle_trans; [apply Rabs_triang|]. rewrite Rabs_Ropp.
  assert (E : 2 * (2 * (2 * R) * (2 * e) + 2 * e * (2 * e)) <= 593 * u32 * RR) by (unfold e, RR; pose proof RR_pos as G; unfold RR in G; unfold u32; lra). lra.
Qed.
Lemma P_terms : forall i j k, (i < n)%nat -> (j < n)%nat -> (k < n)%nat -> 0 <= area_terms (P i) (P j) (P k) <= 801 / 100 * RR.
Proof.
  intros i j k Hi Hj Hk. unfold area_terms. destruct (w_diff j i) as [A1 A2]. destruct (w_diff k i) as [A3 A4]. destruct (P_diff j i Hj Hi) as [B1 B2]. destruct (P_diff k i Hk Hi) as [B3 B4].
  assert (G : forall x y, Rabs y <= 2 * R -> Rabs (x - y) <= 2 * e -> Rabs x <= 20001 / 10000 * R).
  { intros x y G1 G2. apply Rabs_le_inv in G1, G2. apply Rabs_le. unfold e, u32 in *. lra. }
  pose proof (G _ _ A1 B1). pose proof (G _ _ A2 B2). pose proof (G _ _ A3 B3). pose proof (G _ _ A4 B4).
  assert (K : forall x y, Rabs x <= 20001 / 10000 * R -> Rabs y <= 20001 / 10000 * R -> 0 <= Rabs x * Rabs y <= 4001 / 1000 * RR).
  { intros x y K1 K2. split; [apply Rmult_le_pos; apply Rabs_pos|]. apply Rle_trans with (20001 / 10000 * R * (20001 / 10000 * R)); [apply Rmult_le_compat; auto using Rabs_pos|]. unfold RR. pose proof RR_pos as GG. unfold RR in GG. lra. }
  match goal with |- 0 <= Rabs ?a * Rabs ?b + Rabs ?x * Rabs ?y <= _ => pose proof (K a b ltac:(assumption) ltac:(assumption)); pose proof (K x y ltac:(assumption) ltac:(assumption)) end. lra.
Qed.
Lemma N_bounds : 3 <= INR n <= 100.
Proof. split; [replace 3 with (INR 3) by (cbn; ring)|replace 100 with (INR 100) by (rewrite INR_IZR_INZ; reflexivity)]; apply le_INR; lia. Qed.
Lemma P_turn : forall i j k, (i < j < k)%nat -> (k < n)%nat -> 541 * u32 * RR <= cross (P i) (P j) (P i) (P k).
Proof.
  intros i j k H Hk. pose proof (P_cross i j k ltac:(lia) ltac:(lia) ltac:(lia)) as D. apply Rabs_le_inv in D.
  pose proof (corner_cross n R c i j k ltac:(lia) H Hk) as L. fold w RR in L. pose proof N_bounds as N. pose proof RR_pos.
  assert (C : 1134 * u32 <= 676 / 10 / (INR n * INR n * INR n)).
  { apply Rle_trans with (676 / 10 / (100 * 100 * 100)); [unfold u32; lra|]. unfold Rdiv. apply Rmult_le_compat_l; [lra|].
    assert (0 < INR n * INR n) by (apply Rmult_lt_0_compat; lra). assert (INR n * INR n <= 100 * 100) by (apply Rmult_le_compat; lra).
    apply Rinv_le; [apply Rmult_lt_0_compat; lra|]. apply Rmult_le_compat; lra. }
  assert (1134 * u32 * RR <= 676 / 10 / (INR n * INR n * INR n) * RR) by (apply Rmult_le_compat_r; lra). lra.
Qed.
Let vs := map P (seq 0 n).
Lemma P_nth : forall i, (i < n)%nat -> vtx vs i = P i.
Proof.
  intros i H. unfold vtx, vs. rewrite (nth_indep _ _ (P 0%nat)) by (now rewrite map_length, seq_length). rewrite map_nth, seq_nth by assumption. reflexivity.
Qed.
Lemma P_length : length vs = n.
Proof. unfold vs. now rewrite map_length, seq_length. Qed.
Lemma P_convex : strictly_convex vs.
Proof.
  intros i j k H Hk. rewrite P_length in Hk. rewrite !P_nth by lia. eapply Rlt_le_trans; [|apply P_turn; assumption]. pose proof RR_pos. unfold u32. lra.
Qed.
Lemma P_robust : bpow radix2 (-125) <= / 100 * RR -> robust_position vs.
Proof.
  intros T a b d Ha Hb Hd. unfold vs in *. apply in_map_iff in Ha, Hb, Hd. destruct Ha as (i & <- & Hi), Hb as (j & <- & Hj), Hd as (k & <- & Hk).
  apply in_seq in Hi, Hj, Hk. destruct (Nat.eq_dec i j) as [->|N1]; [auto|]. destruct (Nat.eq_dec j k) as [->|N2]; [auto|]. destruct (Nat.eq_dec i k) as [->|N3]; [auto|].
  do 3 right. unfold robust. pose proof (P_terms i j k ltac:(lia) ltac:(lia) ltac:(lia)) as TT. pose proof RR_pos.
  apply Rlt_le_trans with (541 * u32 * RR); [unfold u32; lra|].
  assert (G : forall a b c, (a < b < c)%nat -> (c < n)%nat -> 541 * u32 * RR <= Rabs (cross (P a) (P b) (P a) (P c))).
  { intros x y z K1 K2. eapply Rle_trans; [apply (P_turn x y z K1 K2)|apply Rle_abs]. }
  assert (S1 : forall x y z : point, Rabs (cross x y x z) = Rabs (cross x z x y)) by (intros; rewrite <- Rabs_Ropp; f_equal; unfold cross; ring).
  assert (S2 : forall x y z : point, Rabs (cross x y x z) = Rabs (cross y z y x)) by (intros; f_equal; unfold cross; ring).
  destruct (Nat.lt_ge_cases i j), (Nat.lt_ge_cases j k), (Nat.lt_ge_cases i k); try lia.
  - apply G; lia.
  - rewrite S1. apply G; lia.
  - rewrite S2, S2. apply G; lia.
  - rewrite S1, S2, S2. apply G; lia.
  - rewrite S2. apply G; lia.
  - rewrite S2, S2, S1. apply G; lia.
Qed.
Lemma P_fan : forall l, Forall (fun i => (i < n)%nat) l ->
  Rabs (fan_sum (P 0%nat) (map P l) - fan_sum (w 0%nat) (map w l)) <= INR (length l - 1) * (593 * u32 * RR) /\
  (bpow radix2 (-125) <= / 100 * RR -> fan (P 0%nat) (map P l) <= INR (length l - 1) * (802 / 100 * RR)).
Proof.
  pose proof RR_pos as PP. induction l as [|i [|j l] IH]; intros H; [cbn; rewrite Rminus_0_r, Rabs_R0; lra|cbn; rewrite Rminus_0_r, Rabs_R0; lra|].
  inversion H as [|? ? Hi Hl]; subst. inversion Hl as [|? ? Hj _]; subst. specialize (IH Hl). destruct IH as [I1 I2].
  change (map P (i :: j :: l)) with (P i :: P j :: map P l). change (map w (i :: j :: l)) with (w i :: w j :: map w l).
  change (fan_sum (P 0%nat) (P i :: P j :: map P l)) with (cross (P 0%nat) (P i) (P 0%nat) (P j) + fan_sum (P 0%nat) (map P (j :: l))).
  change (fan_sum (w 0%nat) (w i :: w j :: map w l)) with (cross (w 0%nat) (w i) (w 0%nat) (w j) + fan_sum (w 0%nat) (map w (j :: l))).
  change (fan (P 0%nat) (P i :: P j :: map P l)) with (area_terms (P 0%nat) (P i) (P j) + bpow radix2 (-125) + fan (P 0%nat) (map P (j :: l))).
  replace (length (i :: j :: l) - 1)%nat with (S (length (j :: l) - 1)) by (cbn [length]; lia). rewrite S_INR. split.
  - pose proof (P_cross 0 i j ltac:(lia) Hi Hj) as C. match goal with |- Rabs (?a + ?b - (?x + ?y)) <= _ => replace (a + b - (x + y)) with ((a - x) + (b - y)) by ring end.
    eapply Rle_trans; [apply Rabs_triang|]. lra.
  - intros T. specialize (I2 T). pose proof (P_terms 0 i j ltac:(lia) Hi Hj). lra.
Qed.
Lemma P_shoelace : Rabs (shoelace vs - INR n * (RR * sin (2 * PI / INR n))) <= INR n * (593 * u32 * RR) /\
  (bpow radix2 (-125) <= / 100 * RR -> 0 <= fan_terms vs <= INR n * (802 / 100 * RR)) /\ 25 / 10 * RR <= shoelace vs.
Proof.
  pose proof RR_pos as PP. assert (E : seq 0 n = 0%nat :: seq 1 (n - 1)) by (replace n with (S (n - 1)) at 1 by lia; reflexivity).
  assert (FA : Forall (fun i => (i < n)%nat) (seq 1 (n - 1))) by (apply Forall_forall; intros i Hi; apply in_seq in Hi; lia).
  destruct (P_fan _ FA) as [F1 F2]. rewrite seq_length in F1, F2. pose proof N_bounds as N.
  assert (L : INR (n - 1 - 1) <= INR n) by (apply le_INR; lia). pose proof (pos_INR (n - 1 - 1)).
  assert (SE : shoelace (map w (seq 0 n)) = INR n * (RR * sin (2 * PI / INR n))).
  { pose proof (regular_shoelace n R c ltac:(lia)) as G. unfold step in G. unfold RR. rewrite <- G. f_equal. apply map_ext. intros i. unfold w. apply corner_at. lia. }
  rewrite E in SE. cbn [map] in SE. rewrite <- fan_shoelace in SE.
  assert (D : Rabs (shoelace vs - INR n * (RR * sin (2 * PI / INR n))) <= INR n * (593 * u32 * RR)).
  { unfold vs. rewrite E. cbn [map]. rewrite <- fan_shoelace, <- SE. eapply Rle_trans; [exact F1|]. apply Rmult_le_compat_r; [|exact L]. unfold u32. lra. }
  split; [exact D|]. split.
  - intros T. unfold vs. rewrite E. cbn [map fan_terms]. split.
    + apply fan_nonneg.
    + eapply Rle_trans; [apply (F2 T)|]. apply Rmult_le_compat_r; lra.
  - destruct (sin_step n ltac:(lia)) as (S1 & C1 & X). replace (2 * PI / INR n) with (2 * (PI / INR n)) in D by (field; lra). rewrite sin_2a in D.
    set (s := sin (PI / INR n)) in *. set (k := cos (PI / INR n)) in *.
    assert (PS : 0 < 2567 / 1000 / INR n) by (unfold Rdiv; apply Rmult_lt_0_compat; [lra|apply Rinv_0_lt_compat; lra]).
    assert (S2 : s <= 2 * s * k) by nra. assert (S3 : 2567 / 1000 <= INR n * (2 * s * k)).
    { apply Rle_trans with (INR n * s); [|apply Rmult_le_compat_l; lra]. replace (2567 / 1000) with (INR n * (2567 / 1000 / INR n)) by (field; lra). apply Rmult_le_compat_l; lra. }
    assert (S4 : 2567 / 1000 * RR <= INR n * (RR * (2 * s * k))) by (replace (INR n * (RR * (2 * s * k))) with (INR n * (2 * s * k) * RR) by ring; apply Rmult_le_compat_r; lra).
    apply Rabs_le_inv in D. assert (INR n * (593 * u32 * RR) <= 100 * (593 * u32 * RR)) by (apply Rmult_le_compat_r; [unfold u32; lra|lra]). unfold u32 in *. lra.
Qed.
End Perturb.
