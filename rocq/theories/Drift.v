(** * Segments whose ends have moved a little: sides, angles and crossings. *)
From Coq Require Import ZArith Reals Lia Lra Psatz List.
From Flocq Require Import Core.Core.
From Verif Require Import Scalar Utils Graph PlaneSpec PlanarSpec GeoSpec GeoRound SimSpec MarginSpec UtilsReal GeoOn GeoSeg GraphPlanar MarginReal MarginSeg.
Import ListNotations.
Local Open Scope R_scope.

Lemma steady_fine : forall M K dl H G, steady M K dl H G -> fine M H dl.
Proof.
  intros M K dl H G (S1 & S2 & S3 & S4 & S5 & S6 & _). pose proof u_pos as Pu. assert (u32 * 1 <= u32 * K) by (apply Rmult_le_compat_l; lra).
  assert (0 <= u32 * M) by (apply Rmult_le_pos; lra). assert (40 * u32 <= dl) by lra. assert (u32 * u32 <= u32 * M) by (apply Rmult_le_compat_l; lra). repeat split; try lra.
Qed.
Lemma steady_fine2 : forall M K dl H G, steady M K dl H G -> fine M (5 / 4 * K) (dl / 2).
Proof.
  intros M K dl H G (S1 & S2 & S3 & S4 & S5 & S6 & _). pose proof u_pos as Pu. assert (u32 * 1 <= u32 * K) by (apply Rmult_le_compat_l; lra).
  assert (0 <= u32 * M) by (apply Rmult_le_pos; lra). assert (40 * u32 <= dl) by lra. assert (u32 * u32 <= u32 * M) by (apply Rmult_le_compat_l; lra).
  assert (M * (5 / 4 * K) <= M * H) by (apply Rmult_le_compat_l; lra).
  assert (1600 * (u32 * u32) <= dl * dl) by (replace (1600 * (u32 * u32)) with ((40 * u32) * (40 * u32)) by ring; apply Rmult_le_compat; lra).
  repeat split; lra.
Qed.

Section Bend.
Variables (A B C D A' B' C' D' : point) (e : R).
Hypothesis (Ha : dist A A' <= e) (Hb : dist B B' <= e) (Hc : dist C C' <= e) (Hd : dist D D' <= e).

Lemma e_pos : 0 <= e. Proof. pose proof (dist_nonneg A A'). lra. Qed.
Lemma len_bend : dist A' B' <= dist A B + 2 * e /\ dist A B <= dist A' B' + 2 * e.
Proof.
  pose proof (triangle A' A B'). pose proof (triangle A B B'). pose proof (triangle A A' B). pose proof (triangle A' B' B).
  rewrite (dist_sym A' A), (dist_sym B' B) in *. lra.
Qed.
Lemma cross_part : forall p q r s m k, dist p q <= m -> dist r s <= k -> Rabs (cross p q r s) <= m * k.
Proof.
  intros p q r s m k H1 H2. eapply Rle_trans; [apply cross_le|]. pose proof (dist_nonneg p q). pose proof (dist_nonneg r s). apply Rmult_le_compat; lra.
Qed.
Lemma cross_bend : Rabs (cross A' B' C' D' - cross A B C D) <= 2 * e * (dist A B + dist C D) + 4 * (e * e).
Proof.
  replace (cross A' B' C' D' - cross A B C D) with
    (cross A B D D' - cross A B C C' + cross B B' C D - cross A A' C D + cross B B' D D' - cross B B' C C' - cross A A' D D' + cross A A' C C')
    by (unfold cross; ring).
  pose proof (cross_part A B D D' _ e (Rle_refl _) Hd) as P1. pose proof (cross_part A B C C' _ e (Rle_refl _) Hc) as P2.
  pose proof (cross_part B B' C D e _ Hb (Rle_refl _)) as P3. pose proof (cross_part A A' C D e _ Ha (Rle_refl _)) as P4.
  pose proof (cross_part B B' D D' e e Hb Hd) as P5. pose proof (cross_part B B' C C' e e Hb Hc) as P6.
  pose proof (cross_part A A' D D' e e Ha Hd) as P7. pose proof (cross_part A A' C C' e e Ha Hc) as P8.
  apply Rabs_le_inv in P1, P2, P3, P4, P5, P6, P7, P8. apply Rabs_le. lra.
Qed.
End Bend.

Section Steady.
Variables (M K dl H : R) (G : nat).
Hypothesis St : steady M K dl H G.

Lemma beside_bend : forall A B C D A' B' C' D' e, dist A A' <= e -> dist B B' <= e -> dist C C' <= e -> dist D D' <= e -> e <= u32 ->
  dl <= dist C D -> dist C A <= 17 / 6 * M -> dist C B <= 17 / 6 * M ->
  beside dl C D A B -> beside (dl / 2) C' D' A' B'.
Proof.
  intros A B C D A' B' C' D' e Ha Hb Hc Hd He Hl La Lb Bs. pose proof u_pos as Pu. pose proof (e_pos A A' e Ha) as Pe.
  destruct St as (S1 & S2 & S3 & S4 & S5 & S6 & _). assert (u32 * 1 <= u32 * K) by (apply Rmult_le_compat_l; lra).
  destruct (len_bend C D C' D' e Hc Hd) as [Lu _].
  pose proof (cross_bend C D C A C' D' C' A' e Hc Hd Hc Ha) as P1. pose proof (cross_bend C D C B C' D' C' B' e Hc Hd Hc Hb) as P2.
  unfold beside in *. set (u := dist C D) in *. set (u' := dist C' D') in *.
  assert (Q : forall w, w <= 17 / 6 * M -> 2 * e * (u + w) + 4 * (e * e) + dl / 2 * u' <= dl * u).
  { intros w Hw. assert (dl / 2 * u' <= dl / 2 * (u + 2 * e)) by (apply Rmult_le_compat_l; lra).
    assert (e * w <= u32 * (17 / 6 * M)) by (apply Rle_trans with (e * (17 / 6 * M)); [apply Rmult_le_compat_l; lra|apply Rmult_le_compat_r; lra]).
    assert (e * e <= u32 * u32) by (apply Rmult_le_compat; lra).
    assert (dl * e <= dl * u32) by (apply Rmult_le_compat_l; lra).
    assert (2 * e * u <= 2 * u32 * u) by (apply Rmult_le_compat_r; lra).
    assert (T1 : (dl / 2 - 2 * u32) * dl <= (dl / 2 - 2 * u32) * u) by (apply Rmult_le_compat_l; lra).
    assert (T2 : 40 * u32 * dl <= dl * dl) by (apply Rmult_le_compat_r; lra).
    assert (T3 : u32 * u32 <= u32 * M) by (apply Rmult_le_compat_l; lra). assert (0 <= u32 * M) by (apply Rmult_le_pos; lra).
    enough (17 / 3 * (u32 * M) + 4 * (u32 * u32) + dl * u32 <= (dl / 2 - 2 * u32) * dl) by lra. lra. }
  pose proof (Q _ La) as Qa. pose proof (Q _ Lb) as Qb. apply Rabs_le_inv in P1, P2.
  destruct Bs as [[B1 B2]|[B1 B2]]; [left|right]; split; lra.
Qed.

Lemma cond_bend : forall A B C D A' B' C' D' e, dist A A' <= e -> dist B B' <= e -> dist C C' <= e -> dist D D' <= e -> e <= u32 ->
  dl <= dist A B -> dl <= dist C D -> cross A B C D <> 0 -> cond A B C D <= K ->
  cross A' B' C' D' <> 0 /\ cond A' B' C' D' <= 5 / 4 * K.
Proof.
  intros A B C D A' B' C' D' e Ha Hb Hc Hd He Hl1 Hl2 NZ HK. pose proof u_pos as Pu. pose proof (e_pos A A' e Ha) as Pe.
  destruct St as (S1 & S2 & S3 & S4 & S5 & S6 & _). assert (u32 * 1 <= u32 * K) by (apply Rmult_le_compat_l; lra).
  destruct (len_bend A B A' B' e Ha Hb) as [Lu _]. destruct (len_bend C D C' D' e Hc Hd) as [Lv _].
  pose proof (cross_bend A B C D A' B' C' D' e Ha Hb Hc Hd) as P.
  unfold cond in *. set (t := bpow radix2 (-100)) in *. assert (Pt : 0 < t) by apply bpow_gt_0.
  pose proof (dist_nonneg A' B') as Pu'. pose proof (dist_nonneg C' D') as Pv'.
  set (u := dist A B) in *. set (v := dist C D) in *. set (u' := dist A' B') in *. set (v' := dist C' D') in *.
  set (c := cross A B C D) in *. set (c' := cross A' B' C' D') in *.
  assert (Pc : 0 < Rabs c) by now apply Rabs_pos_lt.
  assert (HK' : u * v + t <= K * Rabs c).
  { apply Rmult_le_compat_r with (r := Rabs c) in HK; [|lra]. unfold Rdiv in HK. rewrite Rmult_assoc, Rinv_l, Rmult_1_r in HK by lra. lra. }
  (* r bounds what the change of the ends does to the product of the lengths *)
  set (w := u * v) in *. assert (Pdl : 0 < dl) by lra.
  assert (Dw : dl * dl <= w) by (apply Rmult_le_compat; lra).
  assert (Ru : dl * u <= w) by (unfold w; rewrite (Rmult_comm u v); apply Rmult_le_compat_r; lra).
  assert (Rv : dl * v <= w) by (unfold w; apply Rmult_le_compat_r; lra).
  assert (Es : 40 * K * (2 * e * (u + v) + 4 * (e * e)) <= 41 / 10 * w).
  { assert (E1 : 40 * e * K <= dl) by (assert (e * K <= u32 * K) by (apply Rmult_le_compat_r; lra); lra).
    assert (E2 : 40 * e * K * u <= dl * u) by (apply Rmult_le_compat_r; lra). assert (E3 : 40 * e * K * v <= dl * v) by (apply Rmult_le_compat_r; lra).
    assert (E4 : 40 * e <= dl) by (assert (e * 1 <= e * K) by (apply Rmult_le_compat_l; lra); lra).
    assert (E5 : 40 * e * (40 * e * K) <= dl * dl) by (apply Rmult_le_compat; try lra; assert (0 <= e * K) by (apply Rmult_le_pos; lra); lra).
    assert (40 * K * (2 * e * (u + v) + 4 * (e * e)) = 2 * (40 * e * K * u) + 2 * (40 * e * K * v) + (40 * e * (40 * e * K)) * (4 / 40)) by field. lra. }
  set (s := 2 * e * (u + v) + 4 * (e * e)) in *.
  assert (Ps : 0 <= s) by (unfold s; assert (0 <= e * (u + v)) by (apply Rmult_le_pos; lra); assert (0 <= e * e) by (apply Rmult_le_pos; lra); lra).
  assert (Uv : u' * v' <= w + s).
  { apply Rle_trans with ((u + 2 * e) * (v + 2 * e)); [apply Rmult_le_compat; lra|]. unfold w, s. apply Req_le. ring. }
  assert (Cc : Rabs c - s <= Rabs c').
  { pose proof (Rabs_triang_inv c (c - c')) as T. replace (c - (c - c')) with c' in T by ring. rewrite Rabs_minus_sym in P. lra. }
  assert (Ks : K * s <= 41 / 400 * w) by lra.
  assert (sK : s <= K * s) by (rewrite <- (Rmult_1_l s) at 1; apply Rmult_le_compat_r; lra).
  assert (Kc : K * (Rabs c - s) <= K * Rabs c') by (apply Rmult_le_compat_l; lra).
  assert (Fin : u' * v' + t <= 5 / 4 * K * Rabs c').
  { assert (0 <= w) by (unfold w; apply Rmult_le_pos; lra). lra. }
  assert (Pc' : 0 < Rabs c').
  { assert (0 <= u' * v') by (apply Rmult_le_pos; assumption). assert (KP : 0 < K * Rabs c') by lra. pose proof (Rabs_pos c') as P0. destruct (Rle_lt_or_eq_dec _ _ P0) as [Q|Q]; [exact Q|]. rewrite <- Q, Rmult_0_r in KP. lra. }
  split; [intros Q; rewrite Q, Rabs_R0 in Pc'; lra|].
  apply Rmult_le_reg_r with (Rabs c'); [exact Pc'|]. unfold Rdiv at 1. rewrite Rmult_assoc, Rinv_l, Rmult_1_r by lra. exact Fin.
Qed.

(** A point of the segment that is away from the ends has room on both sides. *)
Lemma along_move : forall A' B' t r m, 0 <= t <= 1 -> Rabs r * dist A' B' <= m -> m <= dist (along A' B' t) A' -> m <= dist (along A' B' t) B' -> 0 < dist A' B' -> 0 <= t + r <= 1.
Proof.
  intros A' B' t r m Ht Hr H1 H2 P. rewrite dist_sym, dist_along in H1 by apply Ht.
  assert (H2' : dist (along A' B' t) B' = (1 - t) * dist A' B').
  { replace (along A' B' t) with (along B' A' (1 - t)) by (unfold along; f_equal; ring). rewrite dist_sym, dist_along by lra. now rewrite (dist_sym B' A'). }
  rewrite H2' in H2. assert (G1 : Rabs r <= t) by (apply Rmult_le_reg_r with (dist A' B'); lra). assert (G2 : Rabs r <= 1 - t) by (apply Rmult_le_reg_r with (dist A' B'); lra).
  apply Rabs_le_inv in G1, G2. lra.
Qed.

Lemma meet_bend : forall A B C D A' B' C' D' x e, dist A A' <= e -> dist B B' <= e -> dist C C' <= e -> dist D D' <= e -> e <= u32 ->
  dl <= dist A B -> dl <= dist C D -> cross A B C D <> 0 -> cond A B C D <= K -> on_segment A B x -> on_segment C D x ->
  dl <= dist x A -> dl <= dist x B -> dl <= dist x C -> dl <= dist x D ->
  exists x', on_segment A' B' x' /\ on_segment C' D' x' /\ dist x x' <= (5 / 2 * K + 1) * e.
Proof.
  intros A B C D A' B' C' D' x e Ha Hb Hc Hd He Hl1 Hl2 NZ HK (t & Ht & Et) (s & Hs & Es) Da Db Dc Dd.
  destruct (cond_bend A B C D A' B' C' D' e Ha Hb Hc Hd He Hl1 Hl2 NZ HK) as [NZ' HK'].
  pose proof u_pos as Pu. pose proof (e_pos A A' e Ha) as Pe. destruct St as (S1 & S2 & S3 & S4 & S5 & S6 & _).
  assert (Eu : 40 * (e * K) <= dl) by (assert (e * K <= u32 * K) by (apply Rmult_le_compat_r; lra); lra).
  assert (eK : e <= e * K) by (rewrite <- (Rmult_1_r e) at 1; apply Rmult_le_compat_l; lra).
  assert (uK : u32 <= u32 * K) by (rewrite <- (Rmult_1_r u32) at 1; apply Rmult_le_compat_l; lra).
  set (p := along A' B' t). set (q := along C' D' s).
  assert (Dp : dist x p <= e) by (rewrite Et; apply along_close; assumption).
  assert (Dq : dist x q <= e) by (rewrite Es; apply along_close; assumption).
  assert (Dpq : dist p q <= 2 * e) by (pose proof (triangle p x q) as T; rewrite (dist_sym p x) in T; lra).
  set (r := cross p q C' D' / cross A' B' C' D'). set (r' := cross p q A' B' / cross A' B' C' D').
  assert (X : along A' B' (t + r) = along C' D' (s + r')).
  { unfold r, r', p, q, along, cross in *. cbn [vx vy] in *. f_equal; field; exact NZ'. }
  destruct (len_bend A B A' B' e Ha Hb) as [_ Lu]. destruct (len_bend C D C' D' e Hc Hd) as [_ Lv].
  assert (Pu' : 0 < dist A' B') by lra. assert (Pv' : 0 < dist C' D') by lra.
  assert (Pc' : 0 < Rabs (cross A' B' C' D')) by now apply Rabs_pos_lt.
  assert (HK2 : dist A' B' * dist C' D' <= 5 / 4 * K * Rabs (cross A' B' C' D')).
  { unfold cond in HK'. apply Rmult_le_compat_r with (r := Rabs (cross A' B' C' D')) in HK'; [|lra]. unfold Rdiv in HK'. rewrite Rmult_assoc, Rinv_l, Rmult_1_r in HK' by lra.
    pose proof (bpow_gt_0 radix2 (-100)). lra. }
  assert (Rr : forall c z, Rabs z <= 2 * e * c -> 0 <= c -> forall o, 0 <= o -> o * c <= 5 / 4 * K * Rabs (cross A' B' C' D') ->
    Rabs (z / cross A' B' C' D') * o <= 5 / 2 * (e * K)).
  { intros c z Hz Pc o Po Hoc. unfold Rdiv. rewrite Rabs_mult, Rabs_inv. apply Rmult_le_reg_r with (Rabs (cross A' B' C' D')); [exact Pc'|].
    replace (Rabs z * / Rabs (cross A' B' C' D') * o * Rabs (cross A' B' C' D')) with (Rabs z * o) by (field; lra).
    apply Rle_trans with (2 * e * c * o); [apply Rmult_le_compat_r; assumption|].
    apply Rle_trans with (2 * e * (5 / 4 * K * Rabs (cross A' B' C' D'))); [|apply Req_le; field].
    replace (2 * e * c * o) with (2 * e * (o * c)) by ring.
    apply Rmult_le_compat_l; lra. }
  assert (R1 : Rabs r * dist A' B' <= 5 / 2 * (e * K)).
  { apply (Rr (dist C' D')); [apply cross_part; [exact Dpq|apply Rle_refl]|apply dist_nonneg|apply dist_nonneg|exact HK2]. }
  assert (R2 : Rabs r' * dist C' D' <= 5 / 2 * (e * K)).
  { apply (Rr (dist A' B')); [apply cross_part; [exact Dpq|apply Rle_refl]|apply dist_nonneg|apply dist_nonneg|]. rewrite Rmult_comm. exact HK2. }
  assert (Far : forall Z Z' y, dist Z Z' <= e -> dl <= dist x Z -> dist x y <= e -> 5 / 2 * (e * K) <= dist y Z').
  { intros Z Z' y H1 H2 H3. pose proof (triangle x y Z). pose proof (triangle y Z' Z). rewrite (dist_sym Z' Z) in *. lra. }
  exists (along A' B' (t + r)). split; [|split].
  - exists (t + r). split; [|reflexivity]. apply (along_move A' B' t r _ Ht R1); [now apply (Far A)|now apply (Far B)|exact Pu'].
  - rewrite X. exists (s + r'). split; [|reflexivity]. apply (along_move C' D' s r' _ Hs R2); [now apply (Far C)|now apply (Far D)|exact Pv'].
  - assert (Dm : dist p (along A' B' (t + r)) = Rabs r * dist A' B').
    { apply sq_eq; [apply dist_nonneg|apply Rmult_le_pos; [apply Rabs_pos|apply dist_nonneg]|].
      replace (Rabs r * dist A' B' * (Rabs r * dist A' B')) with ((Rabs r * Rabs r) * (dist A' B' * dist A' B')) by ring.
      rewrite <- Rabs_mult, (Rabs_pos_eq (r * r)) by (apply Rle_0_sqr). rewrite !dist_sq. unfold p, along. cbn [vx vy]. ring. }
    pose proof (triangle x p (along A' B' (t + r))) as T. rewrite Dm in T. lra.
Qed.

Lemma drift_pos : forall n, 0 <= drift M K n.
Proof.
  destruct St as (S1 & S2 & _). pose proof u_pos. induction n as [|n IH]; cbn [drift]; [lra|].
  assert (0 <= slip M (5 / 4 * K)) by (unfold slip; repeat apply Rmult_le_pos; lra). assert (0 <= (5 / 2 * K + 1) * drift M K n) by (apply Rmult_le_pos; lra). lra.
Qed.
Lemma drift_S : forall n, drift M K n <= drift M K (S n).
Proof.
  intros n. pose proof (drift_pos n). destruct St as (S1 & S2 & _). pose proof u_pos. cbn [drift].
  assert (0 <= slip M (5 / 4 * K)) by (unfold slip; repeat apply Rmult_le_pos; lra).
  assert (1 * drift M K n <= (5 / 2 * K + 1) * drift M K n) by (apply Rmult_le_compat_r; lra). lra.
Qed.
Lemma drift_mono : forall n m, (n <= m)%nat -> drift M K n <= drift M K m.
Proof. intros n m L. induction L as [|m L IH]; [apply Rle_refl|]. eapply Rle_trans; [exact IH|apply drift_S]. Qed.
Lemma slip_pos : 0 <= slip M (5 / 4 * K).
Proof. destruct St as (S1 & S2 & _). pose proof u_pos. unfold slip. repeat apply Rmult_le_pos; lra. Qed.
Lemma drift_slip : drift M K G + slip M (5 / 4 * K) <= slip M H. Proof. apply St. Qed.
Lemma slip_u : slip M H <= u32.
Proof. destruct (fine_nums M H dl (steady_fine _ _ _ _ _ St)) as (_ & _ & _ & P & N5 & _ & _ & _ & Pu). destruct St as (S1 & _). assert (0 <= u32 * M) by (apply Rmult_le_pos; lra). lra. Qed.
End Steady.
