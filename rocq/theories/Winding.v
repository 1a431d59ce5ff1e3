(** * Winding numbers of closed polygonal chains, by signed crossings of the ray to the
    right (x increasing) with the half-open convention on heights. *)
From Coq Require Import Reals List Bool Lra Lia Psatz ZArith.
From Verif Require Import Scalar Utils PlaneSpec PolySpec Laws UtilsReal PolyArea.
From Verif Require Export SimpleSpec.
Import ListNotations.
Local Open Scope R_scope.

Lemma ar_swap : forall a b c, ar b a c = - ar a b c.
Proof. intros. unfold ar, cross. ring. Qed.
Lemma ar_swap23 : forall a b c, ar a c b = - ar a b c.
Proof. intros. unfold ar, cross. ring. Qed.
Lemma ar_rot : forall a b c, ar b c a = ar a b c.
Proof. intros. unfold ar, cross. ring. Qed.
Lemma ar_along : forall a b c d t, ar a b (along c d t) = (1 - t) * ar a b c + t * ar a b d.
Proof. intros. unfold ar, cross, along; simpl. ring. Qed.
Lemma ar_along1 : forall a b c d t, ar (along c d t) a b = (1 - t) * ar c a b + t * ar d a b.
Proof. intros. unfold ar, cross, along; simpl. ring. Qed.

Lemma cr_swap : forall a b q, cr b a q = (- cr a b q)%Z.
Proof.
  intros a b q. unfold cr. rewrite (ar_swap a b q).
  destruct (Rle_dec (vy a) (vy q)), (Rle_dec (vy b) (vy q)); try reflexivity;
    destruct (Rlt_dec _ _), (Rlt_dec _ _); try reflexivity; lra.
Qed.

Lemma wn_app : forall es fs q, wn (es ++ fs) q = (wn es q + wn fs q)%Z.
Proof. induction es as [|e es IH]; intros fs q; simpl; [reflexivity|]. rewrite IH. lia. Qed.

Lemma path_app : forall l a m, path (l ++ a :: m) = path (l ++ [a]) ++ path (a :: m).
Proof.
  induction l as [|x l IH]; intros a m; [reflexivity|].
  destruct l as [|y l]; [reflexivity|].
  change (path ((x :: y :: l) ++ a :: m)) with ((x, y) :: path ((y :: l) ++ a :: m)).
  rewrite IH. reflexivity.
Qed.

(** ** Moving q along a segment that avoids the edges does not change the count *)
Definition strip (q q' v : point) : Z :=
  if Rlt_dec (vy q) (vy v) then
    if Rle_dec (vy v) (vy q') then if Rlt_dec (ar q q' v) 0 then 1%Z else 0%Z else 0%Z
  else 0%Z.

Section Move.
Variables a b q q' : point.
Hypothesis NM : forall x, on_segment q q' x -> on_segment a b x -> False.
Hypothesis Hq : vy q <= vy q'.

Lemma on_seg_height : forall x, vy q < vy q' -> ar q q' x = 0 -> vy q <= vy x <= vy q' -> on_segment q q' x.
Proof.
  intros x H A [H1 H2]. exists ((vy x - vy q) / (vy q' - vy q)).
  assert (D : 0 < vy q' - vy q) by lra.
  split.
  - split; [apply Rmult_le_pos; [lra|left; now apply Rinv_0_lt_compat]|].
    apply (Rmult_le_reg_r (vy q' - vy q)); [exact D|]. unfold Rdiv. rewrite Rmult_assoc, Rinv_l by lra. lra.
  - apply pt_eq; unfold along; simpl; [|field; lra].
    unfold ar, cross in A. apply (Rmult_eq_reg_r (vy q' - vy q)); [|lra].
    field_simplify; [|lra]. nra.
Qed.

(** The side of q q' on which points of a b at heights between q and q' lie is fixed. *)
Lemma same_side : forall t1 t2, vy q < vy q' -> 0 <= t1 <= 1 -> 0 <= t2 <= 1 ->
  vy q <= vy (along a b t1) <= vy q' -> vy q <= vy (along a b t2) <= vy q' ->
  ar q q' (along a b t1) < 0 -> ar q q' (along a b t2) < 0.
Proof.
  intros t1 t2 H T1 T2 H1 H2 S1.
  destruct (Rlt_le_dec (ar q q' (along a b t2)) 0) as [L|L]; [exact L|exfalso].
  set (s1 := ar q q' (along a b t1)) in *. set (s2 := ar q q' (along a b t2)) in *.
  assert (D : 0 < s2 - s1) by lra.
  set (u := - s1 / (s2 - s1)).
  assert (U : 0 <= u <= 1).
  { unfold u. split; [apply Rmult_le_pos; [lra|left; now apply Rinv_0_lt_compat]|].
    apply (Rmult_le_reg_r (s2 - s1)); [exact D|]. unfold Rdiv. rewrite Rmult_assoc, Rinv_l by lra. lra. }
  assert (Us : u * (s2 - s1) = - s1) by (unfold u; field; lra).
  set (t := t1 + u * (t2 - t1)).
  assert (E : along a b t = along (along a b t1) (along a b t2) u)
    by (apply pt_eq; unfold along, t; simpl; ring).
  apply (NM (along a b t)).
  - apply on_seg_height; [exact H| |].
    + rewrite E, ar_along. fold s1 s2. lra.
    + set (m := along a b t1) in *. set (n := along a b t2) in *.
      assert (Y : vy (along a b t) = (1 - u) * vy m + u * vy n) by (rewrite E; unfold along; simpl; ring).
      rewrite Y. split; nra.
  - exists t. split; [|reflexivity]. unfold t. nra.
Qed.

Lemma same_side_iff : forall t1 t2, vy q < vy q' -> 0 <= t1 <= 1 -> 0 <= t2 <= 1 ->
  vy q <= vy (along a b t1) <= vy q' -> vy q <= vy (along a b t2) <= vy q' ->
  ar q q' (along a b t1) < 0 <-> ar q q' (along a b t2) < 0.
Proof. intros t1 t2 H T1 T2 H1 H2. split; now apply same_side. Qed.

(** The point of a b at height h. *)
Lemma at_height : forall h, vy a <= h < vy b -> exists t, 0 <= t <= 1 /\ vy (along a b t) = h /\
  forall r, vy r = h -> ar a b r = (vy b - vy a) * (vx (along a b t) - vx r).
Proof.
  intros h [H1 H2]. exists ((h - vy a) / (vy b - vy a)).
  assert (D : 0 < vy b - vy a) by lra. split; [|split].
  - split; [apply Rmult_le_pos; [lra|left; now apply Rinv_0_lt_compat]|].
    apply (Rmult_le_reg_r (vy b - vy a)); [exact D|]. unfold Rdiv. rewrite Rmult_assoc, Rinv_l by lra. lra.
  - unfold along; simpl. field. lra.
  - intros r E. unfold ar, cross, along; simpl. rewrite E. field. lra.
Qed.

Lemma along0 : forall p r, along p r 0 = p.
Proof. intros. apply pt_eq; unfold along; simpl; ring. Qed.
Lemma along1 : forall p r, along p r 1 = r.
Proof. intros. apply pt_eq; unfold along; simpl; ring. Qed.

Lemma pos_mul_iff : forall k x, 0 < k -> (0 < k * x <-> 0 < x).
Proof. intros k x K. split; intros H; nra. Qed.

Lemma cr_move_up : vy a <= vy b -> (cr a b q' - cr a b q = strip q q' a - strip q q' b)%Z.
Proof.
  intros Hab.
  assert (L : forall t, vy (along a b t) = vy q -> ar q q' (along a b t) = - ((vy q' - vy q) * (vx (along a b t) - vx q))).
  { intros t E. unfold ar, cross. rewrite E. ring. }
  assert (L' : forall t, vy (along a b t) = vy q' -> ar q q' (along a b t) = - ((vy q' - vy q) * (vx (along a b t) - vx q'))).
  { intros t E. unfold ar, cross. rewrite E. ring. }
  unfold cr, strip.
  destruct (Rle_dec (vy a) (vy q)) as [A1|A1], (Rle_dec (vy b) (vy q)) as [B1|B1]; try (exfalso; lra).
  - (* both below *)
    destruct (Rle_dec (vy a) (vy q')); [|lra]. destruct (Rle_dec (vy b) (vy q')); [|lra].
    destruct (Rlt_dec (vy q) (vy a)); [lra|]. destruct (Rlt_dec (vy q) (vy b)); [lra|]. reflexivity.
  - destruct (Rle_dec (vy a) (vy q')); [|lra]. destruct (Rlt_dec (vy q) (vy a)); [lra|].
    destruct (Rlt_dec (vy q) (vy b)); [|lra].
    destruct (at_height (vy q)) as (t & T & Hh & X); [lra|]. pose proof (X q eq_refl) as Xq.
    assert (D : 0 < vy b - vy a) by lra.
    destruct (Rle_dec (vy b) (vy q')) as [B2|B2].
    + (* b in the strip *)
      assert (Q : vy q < vy q') by lra.
      assert (I : ar q q' b < 0 <-> 0 < ar a b q).
      { rewrite <- (along1 a b) at 1. rewrite (same_side_iff 1 t); try lra; [|rewrite along1; lra].
        rewrite (L t Hh), Xq. rewrite pos_mul_iff by exact D.
        rewrite <- (pos_mul_iff (vy q' - vy q)) by lra. lra. }
      destruct (Rlt_dec 0 (ar a b q)), (Rlt_dec (ar q q' b) 0); try reflexivity; exfalso; tauto.
    + (* b above *)
      destruct (at_height (vy q')) as (t' & T' & Hh' & X'); [lra|]. pose proof (X' q' eq_refl) as Xq'.
      assert (I : 0 < ar a b q <-> 0 < ar a b q').
      { rewrite Xq, Xq', !pos_mul_iff by exact D.
        destruct (Rle_lt_or_eq_dec _ _ Hq) as [Q|Q].
        - assert (Y : ar q q' (along a b t) < 0 <-> ar q q' (along a b t') < 0) by (apply same_side_iff; lra).
          rewrite (L t Hh), (L' t' Hh') in Y.
          rewrite <- (pos_mul_iff (vy q' - vy q)) by lra.
          rewrite <- (pos_mul_iff (vy q' - vy q) (_ - vx q')) by lra. lra.
        - (* horizontal *)
          assert (E : vx (along a b t) = vx (along a b t')).
          { pose proof (X q' (eq_sym Q)) as Z. rewrite Xq' in Z. nra. }
          assert (N : forall u, 0 <= u <= 1 -> vx (along a b t) = vx q + u * (vx q' - vx q) -> False).
          { intros u U E'. apply (NM (along a b t)); [|now exists t]. exists u. split; [exact U|].
            apply pt_eq; [exact E'|]. rewrite Hh. unfold along; simpl. nra. }
          rewrite <- E. set (p := vx (along a b t)) in *.
          destruct (Rlt_dec 0 (p - vx q)) as [U|U], (Rlt_dec 0 (p - vx q')) as [V|V]; try tauto; exfalso.
          + apply (N ((p - vx q) / (vx q' - vx q))); [|field; lra].
            assert (0 < vx q' - vx q) by lra. split.
            * apply Rmult_le_pos; [lra|left; now apply Rinv_0_lt_compat].
            * apply (Rmult_le_reg_r (vx q' - vx q)); [lra|]. unfold Rdiv. rewrite Rmult_assoc, Rinv_l by lra. lra.
          + apply (N ((vx q - p) / (vx q - vx q'))); [|field; lra].
            assert (0 < vx q - vx q') by lra. split.
            * apply Rmult_le_pos; [lra|left; now apply Rinv_0_lt_compat].
            * apply (Rmult_le_reg_r (vx q - vx q')); [lra|]. unfold Rdiv. rewrite Rmult_assoc, Rinv_l by lra. lra. }
      destruct (Rlt_dec 0 (ar a b q)), (Rlt_dec 0 (ar a b q')); try reflexivity; exfalso; tauto.
  - destruct (Rlt_dec (vy q) (vy a)); [|lra]. destruct (Rlt_dec (vy q) (vy b)); [|lra].
    destruct (Rle_dec (vy a) (vy q')) as [A2|A2], (Rle_dec (vy b) (vy q')) as [B2|B2]; try (exfalso; lra); try reflexivity.
    + (* both in the strip *)
      assert (Q : vy q < vy q') by lra.
      assert (I : ar q q' a < 0 <-> ar q q' b < 0).
      { rewrite <- (along0 a b) at 1. rewrite <- (along1 a b) at 2.
        apply same_side_iff; rewrite ?along0, ?along1; lra. }
      destruct (Rlt_dec (ar q q' a) 0), (Rlt_dec (ar q q' b) 0); try reflexivity; exfalso; tauto.
    + (* a in the strip, b above *)
      assert (Q : vy q < vy q') by lra. assert (D : 0 < vy b - vy a) by lra.
      destruct (at_height (vy q')) as (t' & T' & Hh' & X'); [lra|]. pose proof (X' q' eq_refl) as Xq'.
      assert (I : ar q q' a < 0 <-> 0 < ar a b q').
      { rewrite <- (along0 a b) at 1. rewrite (same_side_iff 0 t'); try lra; [|rewrite along0; lra].
        rewrite (L' t' Hh'), Xq', pos_mul_iff by exact D.
        rewrite <- (pos_mul_iff (vy q' - vy q)) by lra. lra. }
      destruct (Rlt_dec (ar q q' a) 0), (Rlt_dec 0 (ar a b q')); try reflexivity; exfalso; tauto.
Qed.
End Move.

Lemma on_segment_rev : forall p q x, on_segment p q x -> on_segment q p x.
Proof.
  intros p q x (t & T & ->). exists (1 - t). split; [lra|]. apply pt_eq; unfold along; simpl; ring.
Qed.

Lemma cr_move : forall a b q q', (forall x, on_segment q q' x -> on_segment a b x -> False) ->
  vy q <= vy q' -> (cr a b q' - cr a b q = strip q q' a - strip q q' b)%Z.
Proof.
  intros a b q q' NM Hq. destruct (Rle_lt_dec (vy a) (vy b)) as [H|H].
  - now apply cr_move_up.
  - assert (X : (cr b a q' - cr b a q = strip q q' b - strip q q' a)%Z).
    { apply cr_move_up; [|exact Hq|lra]. intros x X1 X2. apply (NM x X1). now apply on_segment_rev. }
    rewrite !(cr_swap a b) in X. lia.
Qed.

Lemma last_cons_eq : forall (A : Type) (l : list A) a b, last (b :: l) a = last l b.
Proof.
  intros A l. induction l as [|c l IH]; intros a b; [reflexivity|].
  change (last (b :: c :: l) a) with (last (c :: l) a). now rewrite !IH.
Qed.

Lemma wn_path_move : forall l a q q', vy q <= vy q' ->
  (forall e x, In e (path (a :: l)) -> on_segment q q' x -> on_segment (fst e) (snd e) x -> False) ->
  (wn (path (a :: l)) q' - wn (path (a :: l)) q = strip q q' a - strip q q' (last l a))%Z.
Proof.
  induction l as [|b l IH]; intros a q q' Hq NM; [simpl; lia|].
  change (path (a :: b :: l)) with ((a, b) :: path (b :: l)). cbn [wn fst snd].
  assert (X : (cr a b q' - cr a b q = strip q q' a - strip q q' b)%Z).
  { apply cr_move; [|exact Hq]. intros x X1 X2. apply (NM (a, b) x); [now left|exact X1|exact X2]. }
  assert (Y : (wn (path (b :: l)) q' - wn (path (b :: l)) q = strip q q' b - strip q q' (last l b))%Z).
  { apply IH; [exact Hq|]. intros e x He. apply NM. now right. }
  assert (Z : last (b :: l) a = last l b).
  { apply last_cons_eq. }
  rewrite Z. lia.
Qed.

(** The winding number is the same at the two ends of a segment off the polygon. *)
Theorem winding_move : forall P q q',
  (forall e x, In e (edges_of P) -> on_segment q q' x -> on_segment (fst e) (snd e) x -> False) ->
  winding P q = winding P q'.
Proof.
  assert (U : forall P q q', vy q <= vy q' ->
    (forall e x, In e (edges_of P) -> on_segment q q' x -> on_segment (fst e) (snd e) x -> False) ->
    winding P q = winding P q').
  { intros [|a P] q q' Hq NM; [reflexivity|]. unfold winding, edges_of in *.
    change ((a :: P) ++ [a]) with (a :: (P ++ [a])) in *.
    pose proof (wn_path_move (P ++ [a]) a q q' Hq NM) as X. rewrite last_last in X. lia. }
  intros P q q' NM. destruct (Rle_lt_dec (vy q) (vy q')) as [H|H]; [now apply U|].
  symmetry. apply U; [lra|]. intros e x He X1 X2. apply (NM e x He); [now apply on_segment_rev|exact X2].
Qed.
