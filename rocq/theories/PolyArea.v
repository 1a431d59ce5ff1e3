(** * Orientation predicates, segments, area and transforms in exact arithmetic. *)
From Coq Require Import Reals List Bool Lra Lia Psatz Arith.
From Verif Require Import Scalar Utils Polygon PlaneSpec PolySpec Laws UtilsReal.
Import ListNotations.
Local Open Scope R_scope.

Lemma area2_cross : forall a b c : point, area2 (O := RO) a b c = cross a b a c.
Proof. intros. unfold area2, cross; simpl. ring. Qed.

Lemma left_iff : forall a b c : point, left (O := RO) a b c = true <-> 0 < cross a b a c.
Proof. intros. unfold left. rewrite area2_cross. apply Rltb_true. Qed.
Lemma left_on_iff : forall a b c : point, left_on (O := RO) a b c = true <-> 0 <= cross a b a c.
Proof. intros. unfold left_on. rewrite area2_cross. apply Rleb_true. Qed.
Lemma collinear_iff : forall a b c : point, collinear (O := RO) a b c = true <-> cross a b a c = 0.
Proof. intros. unfold collinear. rewrite area2_cross. apply Reqb_true. Qed.

Lemma left_false : forall a b c : point, left (O := RO) a b c = false <-> cross a b a c <= 0.
Proof. intros. unfold left. rewrite area2_cross. apply Rltb_false. Qed.
Lemma left_on_false : forall a b c : point, left_on (O := RO) a b c = false <-> cross a b a c < 0.
Proof. intros. unfold left_on. rewrite area2_cross. apply Rleb_false. Qed.
Lemma collinear_false : forall a b c : point, collinear (O := RO) a b c = false <-> cross a b a c <> 0.
Proof. intros. unfold collinear. rewrite area2_cross. apply Reqb_false. Qed.

Ltac orient :=
  repeat match goal with
  | H : left _ _ _ = true |- _ => apply left_iff in H
  | H : left _ _ _ = false |- _ => apply left_false in H
  | H : left_on _ _ _ = true |- _ => apply left_on_iff in H
  | H : left_on _ _ _ = false |- _ => apply left_on_false in H
  | H : collinear _ _ _ = true |- _ => apply collinear_iff in H
  | H : collinear _ _ _ = false |- _ => apply collinear_false in H
  end.

Lemma cross_rot : forall a b c, cross b c b a = cross a b a c.
Proof. intros. unfold cross. ring. Qed.
Lemma cross_swap : forall a b c, cross a c a b = - cross a b a c.
Proof. intros. unfold cross. ring. Qed.
Lemma cross_swap12 : forall a b c, cross b a b c = - cross a b a c.
Proof. intros. unfold cross. ring. Qed.

(** ** between *)
Lemma pt_eq : forall p q : point, vx p = vx q -> vy p = vy q -> p = q.
Proof. intros [] []; simpl; congruence. Qed.

Lemma between_iff : forall a b c : point, a <> b ->
  between (O := RO) a b c = true <-> on_segment a b c.
Proof.
  intros a b c N. unfold between.
  destruct (collinear a b c) eqn:E; orient; simpl.
  2:{ split; [discriminate|]. intros (t & _ & ->). exfalso. apply E. unfold along, cross; simpl. ring. }
  destruct a as [ax ay], b as [bx by_], c as [cx cy]. unfold cross in E; simpl in *.
  destruct (Reqb ax bx) eqn:Ex; rcmp; simpl; rewrite orb_true_iff, !andb_true_iff, !Rleb_true.
  - subst bx. assert (Ny : ay <> by_) by congruence.
    assert (cx = ax).
    { replace (ax - ax) with 0 in E by ring. rewrite Rmult_0_l in E.
      assert ((by_ - ay) * (cx - ax) = 0) by lra. apply Rmult_integral in H. destruct H; lra. }
    subst cx. split.
    + intros H. exists ((cy - ay) / (by_ - ay)). split.
      * assert (D : by_ - ay <> 0) by lra.
        destruct (Rtotal_order ay by_) as [L|[L|L]]; [|lra|].
        -- split; [apply Rmult_le_pos; [lra|left; apply Rinv_0_lt_compat; lra]|].
           apply Rmult_le_reg_r with (by_ - ay); [lra|]. unfold Rdiv. rewrite Rmult_assoc, Rinv_l; lra.
        -- replace ((cy - ay) / (by_ - ay)) with ((ay - cy) / (ay - by_)) by (field; lra).
           split; [apply Rmult_le_pos; [lra|left; apply Rinv_0_lt_compat; lra]|].
           apply Rmult_le_reg_r with (ay - by_); [lra|]. unfold Rdiv. rewrite Rmult_assoc, Rinv_l; lra.
      * unfold along; simpl. f_equal; field; lra.
    + intros (t & Ht & P). unfold along in P; simpl in P. injection P as P1 P2'.
      rewrite P2'. destruct (Rle_dec ay by_); [left|right]; split; nra.
  - split.
    + intros H. exists ((cx - ax) / (bx - ax)). split.
      * destruct (Rtotal_order ax bx) as [L|[L|L]]; [|lra|].
        -- split; [apply Rmult_le_pos; [lra|left; apply Rinv_0_lt_compat; lra]|].
           apply Rmult_le_reg_r with (bx - ax); [lra|]. unfold Rdiv. rewrite Rmult_assoc, Rinv_l; lra.
        -- replace ((cx - ax) / (bx - ax)) with ((ax - cx) / (ax - bx)) by (field; lra).
           split; [apply Rmult_le_pos; [lra|left; apply Rinv_0_lt_compat; lra]|].
           apply Rmult_le_reg_r with (ax - bx); [lra|]. unfold Rdiv. rewrite Rmult_assoc, Rinv_l; lra.
      * unfold along; simpl. f_equal; [field; lra|].
        apply Rmult_eq_reg_r with (bx - ax); [|lra]. unfold Rdiv.
        replace ((ay + (cx - ax) * / (bx - ax) * (by_ - ay)) * (bx - ax))
          with (ay * (bx - ax) + (cx - ax) * (by_ - ay) * (/ (bx - ax) * (bx - ax))) by ring.
        rewrite Rinv_l by lra. lra.
    + intros (t & Ht & P). unfold along in P; simpl in P. injection P as P1 P2'.
      rewrite P1. destruct (Rle_dec ax bx); [left|right]; split; nra.
Qed.

Lemma on_segment_ends : forall a b, on_segment a b a /\ on_segment a b b.
Proof.
  intros [ax ay] [bx by_]. split; [exists 0|exists 1]; split; try lra; unfold along; simpl; f_equal; ring.
Qed.

(** Sufficient for [between], degenerate segments included. *)
Lemma between_of_segment : forall a b c, on_segment a b c -> between (O := RO) a b c = true.
Proof.
  intros a b c H. destruct (Req_dec (dist a b) 0) as [Z|Z].
  - apply dist_zero in Z. subst b. destruct H as (t & _ & ->). destruct a as [ax ay].
    unfold between, collinear, along, area2; simpl.
    match goal with |- context [Reqb ?x 0] => replace x with 0 by ring end.
    rewrite (proj2 (Reqb_true 0 0) eq_refl), (proj2 (Reqb_true ax ax) eq_refl); simpl.
    replace (ay + t * (ay - ay)) with ay by ring.
    now rewrite (proj2 (Rleb_true ay ay) (Rle_refl _)).
  - apply between_iff; [|exact H]. intros ->. now rewrite dist_self0 in Z.
Qed.

(** ** proper intersection *)
Lemma xorb_pos : forall x y : R, x <> 0 -> y <> 0 ->
  xorb (Rltb 0 x) (Rltb 0 y) = true <-> x * y < 0.
Proof.
  intros x y Hx Hy.
  assert (D : forall z, z <> 0 -> (0 < z /\ Rltb 0 z = true) \/ (z < 0 /\ Rltb 0 z = false)).
  { intros z Hz. destruct (Rtotal_order z 0) as [L|[L|L]]; [right|contradiction|left];
      (split; [exact L|rcmp; lra]). }
  destruct (D x Hx) as [[Px ->]|[Px ->]], (D y Hy) as [[Py ->]|[Py ->]]; simpl; split; intros H;
    try discriminate; try reflexivity; try nra; exfalso; nra.
Qed.

Lemma xorb_neg : forall x y : R, x <> 0 -> y <> 0 -> x * y < 0 <-> (x < 0 < y \/ y < 0 < x).
Proof.
  intros x y Hx Hy. split.
  - intros H. destruct (Rtotal_order x 0) as [L|[L|L]]; [|lra|].
    + left. split; [exact L|]. nra.
    + right. split; [|exact L]. nra.
  - intros [H|H]; nra.
Qed.

(** Where the lines cross, in terms of the four orientations. *)
Lemma crossing_params : forall a b c d : point,
  cross a b c d = cross a b a d - cross a b a c /\
  cross a b c d = cross c d c a - cross c d c b.
Proof. intros. unfold cross. split; ring. Qed.

Lemma cramer_cross : forall a b c d t u, along a b t = along c d u ->
  t * cross a b c d = cross c d c a /\ u * cross a b c d = - cross a b a c.
Proof.
  intros [ax ay] [bx by_] [cx cy] [dx dy] t u H. unfold along in H; simpl in H. injection H as X Y.
  pose proof (cramer_t _ _ _ _ _ _ _ _ _ _ X Y) as Ct.
  pose proof (cramer_s _ _ _ _ _ _ _ _ _ _ X Y) as Cs.
  unfold cross; simpl. lra.
Qed.

Lemma intersect_prop_iff : forall a b c d : point,
  intersect_prop (O := RO) a b c d = true <-> proper_crossing a b c d.
Proof.
  intros a b c d. unfold intersect_prop.
  destruct (crossing_params a b c d) as [K1 K2].
  destruct (collinear a b c || collinear a b d || collinear c d a || collinear c d b) eqn:E.
  - split; [discriminate|]. intros (N & t & u & Ht & Hu & Heq). exfalso.
    destruct (cramer_cross a b c d t u Heq) as [Ct Cs].
    rewrite !orb_true_iff in E. destruct E as [[[E|E]|E]|E]; orient.
    + assert (Z : u * cross a b c d = 0) by lra. apply Rmult_integral in Z. destruct Z; [lra|contradiction].
    + assert (Z : (1 - u) * cross a b c d = 0) by lra. apply Rmult_integral in Z. destruct Z; [lra|contradiction].
    + assert (Z : t * cross a b c d = 0) by lra. apply Rmult_integral in Z. destruct Z; [lra|contradiction].
    + assert (Z : (1 - t) * cross a b c d = 0) by lra. apply Rmult_integral in Z. destruct Z; [lra|contradiction].
  - apply orb_false_iff in E. destruct E as [E E4]. apply orb_false_iff in E. destruct E as [E E3].
    apply orb_false_iff in E. destruct E as [E1 E2]. orient.
    unfold left. rewrite !area2_cross. simpl.
    rewrite andb_true_iff, !xorb_pos by assumption. split.
    + intros [H1 H2]. apply xorb_neg in H1; [|assumption..]. apply xorb_neg in H2; [|assumption..].
      assert (N : cross a b c d <> 0) by lra. split; [exact N|].
      exists (cross c d c a / cross a b c d), (- cross a b a c / cross a b c d).
      assert (R01 : forall x y, y <> 0 -> (0 < x < y \/ y < x < 0) -> 0 < x / y < 1).
      { intros x y Hy [Hxy|Hxy].
        - split; [apply Rdiv_lt_0_compat; lra|]. apply Rmult_lt_reg_r with y; [lra|].
          unfold Rdiv. rewrite Rmult_assoc, Rinv_l; lra.
        - replace (x / y) with ((- x) / (- y)) by (field; lra).
          split; [apply Rdiv_lt_0_compat; lra|]. apply Rmult_lt_reg_r with (- y); [lra|].
          unfold Rdiv. rewrite Rmult_assoc, Rinv_l; lra. }
      split; [apply R01; [exact N|lra]|]. split; [apply R01; [exact N|lra]|].
      apply pt_eq; unfold along, cross in *; simpl; field; exact N.
    + intros (N & t & u & Ht & Hu & Heq).
      destruct (cramer_cross a b c d t u Heq) as [Ct Cs].
      assert (D : cross a b a d = (1 - u) * cross a b c d) by lra.
      assert (D' : cross c d c b = - (1 - t) * cross a b c d) by lra.
      pose proof (sq_pos _ N) as Q.
      rewrite D, D', <- Ct. replace (cross a b a c) with (- u * cross a b c d) by lra.
      split; nra.
Qed.

(** ** intersect *)
Lemma meet_of_prop : forall a b c d, proper_crossing a b c d -> segments_meet a b c d.
Proof.
  intros a b c d (_ & t & u & Ht & Hu & E). exists (along a b t). split.
  - exists t. split; [lra|reflexivity].
  - exists u. split; [lra|exact E].
Qed.

(** Parallel segments with a common point: an end of one is on the other. *)
Lemma parallel_meet : forall a b c d, a <> b -> cross a b c d = 0 -> segments_meet a b c d ->
  on_segment a b c \/ on_segment a b d \/ on_segment c d a \/ on_segment c d b.
Proof.
  intros a b c d N P (x & (t & Ht & X1) & (u & Hu & X2)).
  (* parameters of c and d on line ab *)
  pose proof (dist_pos _ _ N) as Dp. pose proof (dist_sq a b) as Dq.
  set (D := dist a b * dist a b) in *. assert (DP : 0 < D) by (unfold D; nra).
  set (k := dot a b c d / D).
  assert (Kx : vx d - vx c = k * (vx b - vx a)).
  { unfold k. apply Rmult_eq_reg_r with D; [|lra]. replace (dot a b c d / D * (vx b - vx a) * D) with (dot a b c d * (vx b - vx a)) by (field; lra).
    rewrite Dq. unfold dot, cross in *.
    replace ((vx d - vx c) * ((vx b - vx a) * (vx b - vx a) + (vy b - vy a) * (vy b - vy a)))
      with (((vx b - vx a) * (vx d - vx c) + (vy b - vy a) * (vy d - vy c)) * (vx b - vx a)
            - (vy b - vy a) * ((vx b - vx a) * (vy d - vy c) - (vy b - vy a) * (vx d - vx c))) by ring.
    rewrite P. ring. }
  assert (Ky : vy d - vy c = k * (vy b - vy a)).
  { unfold k. apply Rmult_eq_reg_r with D; [|lra]. replace (dot a b c d / D * (vy b - vy a) * D) with (dot a b c d * (vy b - vy a)) by (field; lra).
    rewrite Dq. unfold dot, cross in *.
    replace ((vy d - vy c) * ((vx b - vx a) * (vx b - vx a) + (vy b - vy a) * (vy b - vy a)))
      with (((vx b - vx a) * (vx d - vx c) + (vy b - vy a) * (vy d - vy c)) * (vy b - vy a)
            + (vx b - vx a) * ((vx b - vx a) * (vy d - vy c) - (vy b - vy a) * (vx d - vx c))) by ring.
    rewrite P. ring. }
  rewrite X1 in X2. clear x X1. unfold along in X2. injection X2. intros Y X. clear X2.
  rewrite Kx in X. rewrite Ky in Y.
  (* c = a + (t - u k)(b - a), d = a + (t - u k + k)(b - a) *)
  set (s := t - u * k).
  assert (Hc : c = along a b s) by (apply pt_eq; unfold along, s; simpl; lra).
  assert (Hd : d = along a b (s + k)) by (apply pt_eq; unfold along, s; simpl; lra).
  destruct (Rle_dec 0 s) as [S0|S0]; [destruct (Rle_dec s 1) as [S1|S1]|].
  - left. exists s. split; [lra|exact Hc].
  - (* s > 1 *)
    destruct (Rle_dec 0 (s + k)) as [K0|K0]; [destruct (Rle_dec (s + k) 1) as [K1|K1]|].
    + right; left. exists (s + k). split; [lra|exact Hd].
    + exfalso. unfold s in *. destruct (Rle_dec 0 k); nra.
    + (* s > 1, s + k < 0: a is on cd *)
      right; right; left. exists (s / - k).
      assert (k < 0) by lra. split.
      * split; [apply Rmult_le_pos; [lra|left; apply Rinv_0_lt_compat; lra]|].
        apply Rmult_le_reg_r with (- k); [lra|]. unfold Rdiv. rewrite Rmult_assoc, Rinv_l; lra.
      * apply pt_eq; unfold along; rewrite Hc, Hd; unfold along; simpl; field; lra.
  - destruct (Rle_dec 0 (s + k)) as [K0|K0]; [destruct (Rle_dec (s + k) 1) as [K1|K1]|].
    + right; left. exists (s + k). split; [lra|exact Hd].
    + right; right; left. exists (s / - k).
      assert (0 < k) by lra. split.
      * replace (s / - k) with ((- s) / k) by (field; lra).
        split; [apply Rmult_le_pos; [lra|left; apply Rinv_0_lt_compat; lra]|].
        apply Rmult_le_reg_r with k; [lra|]. unfold Rdiv. rewrite Rmult_assoc, Rinv_l; lra.
      * apply pt_eq; unfold along; rewrite Hc, Hd; unfold along; simpl; field; lra.
    + exfalso. unfold s in *. destruct (Rle_dec 0 k); nra.
Qed.

(** A common point is always detected. *)
Lemma intersect_complete : forall a b c d, segments_meet a b c d -> intersect (O := RO) a b c d = true.
Proof.
  intros a b c d M. unfold intersect.
  destruct (intersect_prop a b c d) eqn:E; [reflexivity|].
  assert (K : on_segment a b c \/ on_segment a b d \/ on_segment c d a \/ on_segment c d b).
  { destruct (Req_dec (cross a b c d) 0) as [Z|NZ].
    - destruct (Req_dec (dist a b) 0) as [Z'|Z'].
      + apply dist_zero in Z'. subst b. destruct M as (x & (t & _ & X) & H2).
        right; right; left. replace a with x; [exact H2|].
        rewrite X. apply pt_eq; unfold along; simpl; ring.
      + apply parallel_meet; try assumption. intros ->. now rewrite dist_self0 in Z'.
    - destruct M as (x & (t & Ht & X1) & (u & Hu & X2)).
      destruct (Req_dec t 0) as [->|]; [right; right; left; exists u; split; [exact Hu|];
        rewrite <- X2, X1; apply pt_eq; unfold along; simpl; ring|].
      destruct (Req_dec t 1) as [->|]; [right; right; right; exists u; split; [exact Hu|];
        rewrite <- X2, X1; apply pt_eq; unfold along; simpl; ring|].
      destruct (Req_dec u 0) as [->|]; [left; exists t; split; [exact Ht|];
        rewrite <- X1, X2; apply pt_eq; unfold along; simpl; ring|].
      destruct (Req_dec u 1) as [->|]; [right; left; exists t; split; [exact Ht|];
        rewrite <- X1, X2; apply pt_eq; unfold along; simpl; ring|].
      exfalso. assert (T : intersect_prop a b c d = true); [|congruence].
      apply intersect_prop_iff. split; [exact NZ|]. exists t, u.
      split; [lra|]. split; [lra|]. now rewrite <- X1. }
  assert (B : between a b c || between a b d || between c d a || between c d b = true).
  { rewrite !orb_true_iff.
    destruct K as [K|[K|[K|K]]]; apply between_of_segment in K; tauto. }
  now rewrite B.
Qed.

Lemma intersect_iff : forall a b c d, a <> b -> c <> d ->
  intersect (O := RO) a b c d = true <-> segments_meet a b c d.
Proof.
  intros a b c d N1 N2. split; [|apply intersect_complete].
  unfold intersect. destruct (intersect_prop a b c d) eqn:E.
  - intros _. apply intersect_prop_iff in E. now apply meet_of_prop.
  - destruct (_ || _) eqn:B; [|discriminate]. intros _.
    rewrite !orb_true_iff in B. destruct (on_segment_ends a b), (on_segment_ends c d).
    destruct B as [[[B|B]|B]|B]; apply between_iff in B; try assumption;
      [exists c|exists d|exists a|exists b]; tauto.
Qed.

(** ** Shoelace *)
Local Notation dt p q := (vx p * vy q - vx q * vy p).

Lemma chain_cons2 : forall p q l, chain (p :: q :: l) = dt p q + chain (q :: l).
Proof. reflexivity. Qed.

Lemma chain_app : forall l x m, chain (l ++ x :: m) = chain (l ++ [x]) + chain (x :: m).
Proof.
  intros l x m. induction l as [|p [|q l] IH].
  - simpl. ring.
  - cbn [app]. rewrite !chain_cons2. simpl. ring.
  - cbn [app] in *. rewrite !chain_cons2, IH. ring.
Qed.

Lemma chain_rev : forall l, chain (rev l) = - chain l.
Proof.
  induction l as [|p [|q l] IH]; [simpl; ring|simpl; ring|].
  cbn [rev] in *. rewrite <- app_assoc. cbn [app].
  rewrite chain_app, IH, chain_cons2. simpl. ring.
Qed.

Lemma shoelace_rot1 : forall a l, shoelace (l ++ [a]) = shoelace (a :: l).
Proof.
  intros a [|b l]; [reflexivity|]. unfold shoelace. cbn [app].
  rewrite (chain_cons2 a b).
  replace (b :: (l ++ [a]) ++ [b]) with ((b :: l) ++ a :: [b]) by (cbn; now rewrite <- app_assoc).
  rewrite chain_app. simpl. ring.
Qed.

Lemma shoelace_rot : forall l m, shoelace (l ++ m) = shoelace (m ++ l).
Proof.
  intros l. induction l as [|a l IH]; intros m; [now rewrite app_nil_r|].
  cbn [app]. rewrite <- shoelace_rot1, <- app_assoc, IH, <- app_assoc. reflexivity.
Qed.

Lemma shoelace_rev : forall l, shoelace (rev l) = - shoelace l.
Proof.
  intros [|a l]; [simpl; ring|]. cbn [rev]. rewrite shoelace_rot1.
  unfold shoelace. rewrite <- chain_rev. f_equal.
  cbn [app rev]. rewrite rev_app_distr. reflexivity.
Qed.

Lemma area_loop_chain : forall (a : point) rest (sum : R),
  @eq R (area_loop (O := RO) a rest sum) (sum + match rest with [] => 0 | b :: _ => chain (a :: rest ++ [a]) end).
Proof.
  intros a rest. induction rest as [|b rest IH]; intros sum; [simpl; ring|].
  destruct rest as [|c rest].
  - cbn. ring.
  - etransitivity; [exact (IH (sum + area2 (O := RO) a b c))|].
    cbn [app]. rewrite !chain_cons2. unfold area2; simpl. ring.
Qed.

Lemma area_poly2_shoelace : forall vs : list point, @eq R (area_poly2 (O := RO) vs) (shoelace vs).
Proof.
  intros [|a rest]; [reflexivity|]. unfold area_poly2.
  etransitivity; [exact (area_loop_chain a rest 0)|].
  destruct rest; [simpl; ring|apply Rplus_0_l].
Qed.

Lemma polygon_new_spec : forall (vs : list point) p, polygon_new (O := RO) vs = Some p ->
  (vertices p = vs \/ vertices p = rev vs) /\ 0 <= shoelace (vertices p) /\
  shoelace (vertices p) = Rabs (shoelace vs) /\ (3 <= length (vertices p))%nat.
Proof.
  intros vs p H0. unfold polygon_new in H0.
  match type of H0 with context [Nat.ltb ?n 3] => destruct (Nat.ltb_spec n 3) as [L|L] end; [discriminate|].
  rewrite area_poly2_shoelace in H0. cbn [olt c0 RO] in H0.
  destruct (Rltb (shoelace vs) 0) eqn:E; rcmp; inversion H0; subst; simpl.
  - split; [now right|]. rewrite shoelace_rev, Rabs_left by assumption. rewrite rev_length. repeat split; [lra|assumption].
  - split; [now left|]. rewrite Rabs_pos_eq by assumption. repeat split; assumption.
Qed.

Lemma polygon_area_shoelace : forall p : Polygon R,
  @eq R (polygon_area (O := RO) p) (Rabs (shoelace (vertices p)) / 2).
Proof. intros p. unfold polygon_area. now rewrite area_poly2_shoelace. Qed.

Definition moved (t v : point) : point := P2 (vx v + vx t) (vy v + vy t).
Definition scaled (s : R) (v : point) : point := P2 (vx v * s) (vy v * s).

Lemma chain_translate : forall (t : point) l, l <> [] ->
  chain (map (moved t) l) = chain l + dt (hd t l) t + dt t (last l t).
Proof.
  intros t l H. induction l as [|p [|q l] IH]; [contradiction|simpl; ring|].
  cbn [map]. rewrite chain_cons2. cbn [map] in IH. rewrite IH by discriminate.
  cbn [hd]. rewrite chain_cons2. change (last (p :: q :: l) t) with (last (q :: l) t).
  unfold moved; cbn [vx vy]. ring.
Qed.

Lemma shoelace_translate : forall (t : point) l, shoelace (map (moved t) l) = shoelace l.
Proof.
  intros t [|a l]; [reflexivity|]. unfold shoelace.
  change (map (moved t) (a :: l) ++ [moved t a]) with (map (moved t) (a :: l) ++ map (moved t) [a]).
  cbn [map]. rewrite <- (map_cons (moved t) a l).
  change [moved t a] with (map (moved t) [a]). rewrite <- map_app.
  rewrite chain_translate by discriminate. cbn [app hd].
  rewrite app_comm_cons, last_last. ring.
Qed.

Lemma chain_scale : forall (s : R) l, chain (map (scaled s) l) = s * s * chain l.
Proof.
  intros s l. induction l as [|p [|q l] IH]; [simpl; ring|simpl; ring|].
  cbn [map] in *. rewrite !chain_cons2, IH. unfold scaled; cbn [vx vy]. ring.
Qed.

Lemma shoelace_scale : forall (s : R) l, shoelace (map (scaled s) l) = s * s * shoelace l.
Proof.
  intros s [|a l]; [simpl; ring|]. unfold shoelace. rewrite <- chain_scale.
  rewrite map_app. reflexivity.
Qed.

(** Cutting off a corner. *)
Lemma shoelace_corner : forall l p q r m,
  shoelace (l ++ p :: q :: r :: m) = cross p q p r + shoelace (l ++ p :: r :: m).
Proof.
  intros l p q r m. rewrite (shoelace_rot l), (shoelace_rot l).
  cbn [app]. unfold shoelace. cbn [app]. rewrite !chain_cons2. unfold cross. ring.
Qed.

(** ** Center *)
Definition sum (l : list R) : R := fold_right Rplus 0 l.

Lemma fold_add : forall (l : list point) (s : point),
  @eq point (fold_left (p_add (O := RO)) l s) (P2 (vx s + sum (map vx l)) (vy s + sum (map vy l))).
Proof.
  intros l. induction l as [|p l IH]; intros s.
  - destruct s; simpl. unfold sum; simpl. f_equal; ring.
  - etransitivity; [exact (IH (p_add (O := RO) s p))|]. unfold sum; simpl. f_equal; ring.
Qed.

Lemma center_sum : forall p : Polygon R,
  @eq point (polygon_center (O := RO) p)
   (P2 (sum (map vx (vertices p)) / INR (length (vertices p)))
       (sum (map vy (vertices p)) / INR (length (vertices p)))).
Proof.
  intros p. unfold polygon_center.
  transitivity (p_div (O := RO) (P2 (0 + sum (map vx (vertices p))) (0 + sum (map vy (vertices p)))) (INR (length (vertices p)))).
  - f_equal. exact (fold_add (vertices p) (P2 0 0)).
  - unfold p_div; simpl. now rewrite !Rplus_0_l.
Qed.

Lemma sum_affine : forall A (f : A -> R) k c l,
  sum (map (fun x => f x * k + c) l) = sum (map f l) * k + INR (length l) * c.
Proof.
  intros A f k c l. induction l as [|x l IH]; [unfold sum; simpl; ring|].
  cbn [map length]. rewrite S_INR. unfold sum in *. cbn [fold_right]. rewrite IH. ring.
Qed.
