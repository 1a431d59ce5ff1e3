(** * Rounding errors, compositionally. *)
From Coq Require Import ZArith Reals Lia Lra Psatz.
From Flocq Require Import Core.Core BinarySingleNaN.
From Verif Require Import Scalar Format RoundSpec Rounding.
Local Open Scope R_scope.

Section Calc.
Variable f : Fmt.
Local Notation u := (ur f).
Local Notation t := (tiny f).

(** x is r up to n roundings of terms of total magnitude M >= |r|. *)
Definition nr (n : nat) (M : R) (x : fl f) (r : R) : Prop := Rabs r <= M /\ near f n M x r.

Lemma nr_val : forall x, is_finite x = true -> nr 0 (Rabs (B2R x)) x (B2R x).
Proof. intros x F. split; [lra|]. split; [exact F|]. cbn [pow]. replace (B2R x - B2R x) with 0 by ring. rewrite Rabs_R0. lra. Qed.
Lemma nr_mono : forall n m M N x r, (n <= m)%nat -> M <= N -> nr n M x r -> nr m N x r.
Proof.
  intros n m M N x r H1 H2 (H3 & F & E). split; [lra|]. split; [exact F|]. eapply Rle_trans; [exact E|].
  pose proof (pow1 f n). pose proof (pow_mono f n m H1). pose proof (Rabs_pos r). apply Rmult_le_compat; lra.
Qed.
Lemma nr_size : forall n M x r, nr n M x r -> Rabs (B2R x) <= (1 + u) ^ n * M.
Proof.
  intros n M x r (H & _ & E). replace (B2R x) with (B2R x - r + r) by ring. eapply Rle_trans; [apply Rabs_triang|]. lra.
Qed.
(** One more rounding. *)
Lemma round_step : forall n x r M d, Rabs r <= M -> Rabs (x - r) <= ((1 + u) ^ n - 1) * M -> Rabs d <= u ->
  Rabs (x * (1 + d) - r) <= ((1 + u) ^ S n - 1) * M.
Proof.
  intros n x r M d Hr Hx Hd. pose proof (ur_pos f). pose proof (Rabs_pos r).
  assert (B : Rabs x <= (1 + u) ^ n * M).
  { replace x with (x - r + r) by ring. eapply Rle_trans; [apply Rabs_triang|]. lra. }
  replace (x * (1 + d) - r) with ((x - r) + d * x) by ring.
  eapply Rle_trans; [apply Rabs_triang|]. rewrite Rabs_mult.
  assert (Rabs d * Rabs x <= u * ((1 + u) ^ n * M)) by (apply Rmult_le_compat; auto using Rabs_pos).
  replace (((1 + u) ^ S n - 1) * M) with (((1 + u) ^ n - 1) * M + u * ((1 + u) ^ n * M)) by (cbn [pow]; ring). lra.
Qed.
(** A difference (or sum) of two numbers has relative error u. *)
Lemma nr_diff : forall x y : fl f, is_finite x = true -> is_finite y = true -> (1 + u) * Rabs (B2R x - B2R y) < huge f ->
  nr 1 (Rabs (B2R x - B2R y)) (Bminus mode_NE x y) (B2R x - B2R y).
Proof.
  intros x y Fx Fy H. split; [lra|]. destruct (sub_ok f x y Fx Fy ltac:(lra)) as (F & d & Hd & E). split; [exact F|]. rewrite E.
  apply round_step; [lra|cbn [pow]|exact Hd]. replace (_ - _ - _) with 0 by ring. rewrite Rabs_R0. lra.
Qed.
Lemma nr_sum : forall x y : fl f, is_finite x = true -> is_finite y = true -> (1 + u) * Rabs (B2R x + B2R y) < huge f ->
  nr 1 (Rabs (B2R x + B2R y)) (Bplus mode_NE x y) (B2R x + B2R y).
Proof.
  intros x y Fx Fy H. split; [lra|]. destruct (add_ok f x y Fx Fy ltac:(lra)) as (F & d & Hd & E). split; [exact F|]. rewrite E.
  apply round_step; [lra|cbn [pow]|exact Hd]. replace (_ + _ - _) with 0 by ring. rewrite Rabs_R0. lra.
Qed.
Lemma nr_opp : forall n M x r, nr n M x r -> nr n M (Bopp x) (- r).
Proof.
  intros n M x r (H & F & E). split; [now rewrite Rabs_Ropp|]. split; [now rewrite is_finite_Bopp|].
  rewrite B2R_Bopp. replace (- B2R x - - r) with (- (B2R x - r)) by ring. now rewrite Rabs_Ropp.
Qed.
Lemma nr_add : forall n M N x y r s, nr n M x r -> nr n N y s -> (1 + u) ^ S n * (M + N) < huge f ->
  nr (S n) (M + N) (Bplus mode_NE x y) (r + s).
Proof.
  intros n M N x y r s Hx Hy H. pose proof (nr_size _ _ _ _ Hx) as Sx. pose proof (nr_size _ _ _ _ Hy) as Sy.
  destruct Hx as (Hr & Fx & Ex), Hy as (Hs & Fy & Ey). pose proof (ur_pos f).
  assert (T : Rabs (r + s) <= M + N) by (eapply Rle_trans; [apply Rabs_triang|lra]). split; [exact T|].
  destruct (add_ok f x y Fx Fy) as (F & d & Hd & E).
  { eapply Rle_lt_trans; [|exact H]. cbn [pow]. replace ((1 + u) * (1 + u) ^ n * (M + N)) with (((1 + u) ^ n * M + (1 + u) ^ n * N) * (1 + u)) by ring.
    apply Rmult_le_compat_r; [lra|]. eapply Rle_trans; [apply Rabs_triang|]. lra. }
  split; [exact F|]. rewrite E. apply round_step; [exact T| |exact Hd].
  replace (B2R x + B2R y - (r + s)) with ((B2R x - r) + (B2R y - s)) by ring. eapply Rle_trans; [apply Rabs_triang|]. lra.
Qed.
Lemma nr_sub : forall n M N x y r s, nr n M x r -> nr n N y s -> (1 + u) ^ S n * (M + N) < huge f ->
  nr (S n) (M + N) (Bminus mode_NE x y) (r - s).
Proof.
  intros n M N x y r s Hx Hy H. pose proof (nr_size _ _ _ _ Hx) as Sx. pose proof (nr_size _ _ _ _ Hy) as Sy.
  destruct Hx as (Hr & Fx & Ex), Hy as (Hs & Fy & Ey). pose proof (ur_pos f).
  assert (T : Rabs (r - s) <= M + N) by (unfold Rminus; eapply Rle_trans; [apply Rabs_triang|rewrite Rabs_Ropp; lra]). split; [exact T|].
  destruct (sub_ok f x y Fx Fy) as (F & d & Hd & E).
  { eapply Rle_lt_trans; [|exact H]. cbn [pow]. replace ((1 + u) * (1 + u) ^ n * (M + N)) with (((1 + u) ^ n * M + (1 + u) ^ n * N) * (1 + u)) by ring.
    apply Rmult_le_compat_r; [lra|]. unfold Rminus. eapply Rle_trans; [apply Rabs_triang|]. rewrite Rabs_Ropp. lra. }
  split; [exact F|]. rewrite E. apply round_step; [exact T| |exact Hd].
  replace (B2R x - B2R y - (r - s)) with ((B2R x - r) + - (B2R y - s)) by ring. eapply Rle_trans; [apply Rabs_triang|]. rewrite Rabs_Ropp. lra.
Qed.
Lemma prod_err : forall n m M N x y r s, Rabs r <= M -> Rabs s <= N ->
  Rabs (x - r) <= ((1 + u) ^ n - 1) * M -> Rabs (y - s) <= ((1 + u) ^ m - 1) * N ->
  Rabs (x * y - r * s) <= ((1 + u) ^ (n + m) - 1) * (M * N).
Proof.
  intros n m M N x y r s Hr Hs Hx Hy.
  assert (Sy : Rabs y <= (1 + u) ^ m * N).
  { replace y with (y - s + s) by ring. eapply Rle_trans; [apply Rabs_triang|]. lra. }
  replace (x * y - r * s) with ((x - r) * y + r * (y - s)) by ring. eapply Rle_trans; [apply Rabs_triang|]. rewrite !Rabs_mult.
  assert (Rabs (x - r) * Rabs y <= ((1 + u) ^ n - 1) * M * ((1 + u) ^ m * N)) by (apply Rmult_le_compat; auto using Rabs_pos).
  assert (Rabs r * Rabs (y - s) <= M * (((1 + u) ^ m - 1) * N)) by (apply Rmult_le_compat; auto using Rabs_pos).
  rewrite pow_add. replace (((1 + u) ^ n * (1 + u) ^ m - 1) * (M * N)) with
    (((1 + u) ^ n - 1) * M * ((1 + u) ^ m * N) + M * (((1 + u) ^ m - 1) * N)) by ring. lra.
Qed.
Lemma nr_mul : forall n m M N x y r s, nr n M x r -> nr m N y s -> (1 + u) ^ S (n + m) * (M * N + t) < huge f ->
  nr (S (n + m)) (M * N + t) (Bmult mode_NE x y) (r * s).
Proof.
  intros n m M N x y r s Hx Hy H. pose proof (nr_size _ _ _ _ Hx) as Sx. pose proof (nr_size _ _ _ _ Hy) as Sy.
  destruct Hx as (Hr & Fx & Ex), Hy as (Hs & Fy & Ey). pose proof (ur_pos f). pose proof (tiny_pos f).
  pose proof (Rabs_pos r). pose proof (Rabs_pos s). pose proof (Rabs_pos (B2R x)). pose proof (Rabs_pos (B2R y)).
  assert (T : Rabs (r * s) <= M * N) by (rewrite Rabs_mult; apply Rmult_le_compat; lra).
  pose proof (prod_err n m M N _ _ _ _ Hr Hs Ex Ey) as P. split; [lra|].
  assert (B : Rabs (B2R x * B2R y) <= (1 + u) ^ (n + m) * (M * N)).
  { replace (B2R x * B2R y) with (B2R x * B2R y - r * s + r * s) by ring. eapply Rle_trans; [apply Rabs_triang|]. lra. }
  pose proof (pow1 f (n + m)) as P1. assert (0 <= M * N) by (eapply Rle_trans; [apply Rabs_pos|exact T]).
  destruct (mul_ok f x y Fx Fy) as (F & d & e & Hd & He & E).
  { eapply Rle_lt_trans; [|exact H]. cbn [pow].
    replace ((1 + u) * (1 + u) ^ (n + m) * (M * N + t)) with ((1 + u) ^ (n + m) * (M * N) * (1 + u) + (1 + u) * (1 + u) ^ (n + m) * t) by ring.
    apply Rplus_le_compat; [apply Rmult_le_compat_r; lra|]. apply Rmult_le_compat_r; [lra|].
    apply Rle_trans with ((1 + u) * 1); [lra|]. apply Rmult_le_compat_l; lra. }
  split; [exact F|]. rewrite E.
  pose proof (round_step (n + m) _ _ _ d T P Hd) as G.
  replace (B2R x * B2R y * (1 + d) + e - r * s) with ((B2R x * B2R y * (1 + d) - r * s) + e) by ring.
  eapply Rle_trans; [apply Rabs_triang|].
  assert (u * t <= ((1 + u) ^ S (n + m) - 1) * t).
  { apply Rmult_le_compat_r; [lra|]. cbn [pow]. assert ((1 + u) * 1 <= (1 + u) * (1 + u) ^ (n + m)) by (apply Rmult_le_compat_l; lra). lra. }
  lra.
Qed.
End Calc.
