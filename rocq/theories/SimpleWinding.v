(** * Winding numbers of simple polygons take one value inside and 0 outside *)
From Coq Require Import Reals List Bool Lra Lia Psatz ZArith Permutation Classical.
From Verif Require Import Scalar Utils PlaneSpec PolySpec Laws UtilsReal PolyArea PolyTri Winding SimplePoly.
Import ListNotations.
Local Open Scope R_scope.

(** The segment z c meets the polygon at z only. *)
Definition only_at (P : list point) (z c : point) : Prop :=
  forall a b x, In (a, b) (edges_of P) -> on_segment a b x -> on_segment z c x -> x = z.

(** [P] runs counterclockwise around its inside: seen from any vertex, the points reached
    through the interior angle have winding number 1, the others 0. *)
Definition pos (P : list point) : Prop :=
  forall z0 z z1 c, In (z0, z) (edges_of P) -> In (z, z1) (edges_of P) -> c <> z -> only_at P z c ->
    (ccw z z1 c z0 -> winding P c = 1%Z) /\ (~ ccw z z1 c z0 -> winding P c = 0%Z).

Lemma only_at_rot : forall l m z c, only_at (l ++ m) z c -> only_at (m ++ l) z c.
Proof. intros l m z c H a b x I. apply (H a b x). apply (Permutation_in _ (edges_rot m l)). exact I. Qed.

Lemma pos_rot : forall l m, pos (l ++ m) -> pos (m ++ l).
Proof.
  intros l m H z0 z z1 c H0 H1 Nc O. rewrite winding_rot. apply (H z0 z z1 c); auto using only_at_rot.
  - apply (Permutation_in _ (edges_rot m l)). exact H0.
  - apply (Permutation_in _ (edges_rot m l)). exact H1.
Qed.

Lemma samedir_meet : forall z p c, samedir z p c -> p <> z -> exists x, x <> z /\ on_segment z p x /\ on_segment z c x.
Proof.
  intros z p c (k & K & ->) Np. destruct (Rle_lt_dec k 1) as [L|L].
  - exists (along z p k). split; [|split].
    + intros E. apply Np. injection (f_equal (fun q => (vx q, vy q)) E) as E1 E2. unfold along in *; simpl in *.
      apply pt_eq; nra.
    + exists k. split; [lra|reflexivity].
    + apply on_seg_r.
  - exists p. split; [exact Np|]. split; [apply on_seg_r|]. exists (/ k). split.
    + assert (0 < / k) by (now apply Rinv_0_lt_compat). split; [lra|]. rewrite <- Rinv_1. apply Rinv_le_contravar; lra.
    + apply pt_eq; unfold along; simpl; field; lra.
Qed.

Lemma only_at_not_next : forall P z z1 c, simple P -> In (z, z1) (edges_of P) -> only_at P z c -> ~ samedir z z1 c.
Proof.
  intros P z z1 c S H O D. pose proof (edge_neq P z z1 S H) as N.
  destruct (samedir_meet z z1 c D) as (x & X1 & X2 & X3); [congruence|]. apply X1. exact (O z z1 x H X2 X3).
Qed.

Lemma only_at_not_prev : forall P z z0 c, simple P -> In (z0, z) (edges_of P) -> only_at P z c -> ~ samedir z z0 c.
Proof.
  intros P z z0 c S H O D. pose proof (edge_neq P z0 z S H) as N.
  destruct (samedir_meet z z0 c D) as (x & X1 & X2 & X3); [congruence|]. apply X1.
  exact (O z0 z x H (on_segment_rev _ _ _ X2) X3).
Qed.

(** Consecutive edges do not fold back. *)
Lemma no_spike : forall P u v w, simple P -> In (u, v) (edges_of P) -> In (v, w) (edges_of P) -> ~ samedir v w u.
Proof.
  intros P u v w S H1 H2 D. pose proof (edge_neq P v w S H2) as N.
  destruct (samedir_meet v w u D) as (x & X1 & X2 & X3); [congruence|].
  destruct S as (L & ND & S).
  destruct (S u v v w x H1 H2 (on_segment_rev _ _ _ X3) X2) as [E|[[E _]|[E1 E2]]]; [|congruence|].
  - subst u. apply (edge_neq P v v (conj L (conj ND S)) H1). reflexivity.
  - (* w = u: a polygon with two vertices *)
    rewrite E2 in H2. destruct (edge_ends _ _ _ H1) as [_ I]. apply in_split in I. destruct I as (l & m & ->).
    assert (H1' : In (u, v) (edges_of ((v :: m) ++ l))) by (apply (Permutation_in _ (edges_rot l (v :: m))); exact H1).
    assert (H2' : In (v, u) (edges_of ((v :: m) ++ l))) by (apply (Permutation_in _ (edges_rot l (v :: m))); exact H2).
    assert (ND' : NoDup ((v :: m) ++ l)) by (apply (Permutation_NoDup (Permutation_app_comm l (v :: m)) ND)).
    assert (L' : (3 <= length ((v :: m) ++ l))%nat) by (rewrite app_length in *; simpl in *; lia).
    cbn [app] in *. destruct (m ++ l) as [|y [|y' k]]; [simpl in L'; lia|simpl in L'; lia|].
    assert (E : y = u) by (apply (next_unique (v :: y :: y' :: k) v); [exact ND'|now left|exact H2']). subst y.
    assert (E : y' = v) by (apply (next_unique (v :: u :: y' :: k) u); [exact ND'|right; now left|exact H1']). subst y'.
    inversion ND' as [|? ? M1 M2]; subst. apply M1. right. now left.
Qed.

(** ** Triangles *)
Lemma bary_y : forall a b c q, ar b c q * (vy a - vy q) + ar c a q * (vy b - vy q) + ar a b q * (vy c - vy q) = 0.
Proof. intros. unfold ar, cross. ring. Qed.
Lemma bary_sum : forall a b c q, ar a b q + ar b c q + ar c a q = ar a b c.
Proof. intros. unfold ar, cross. ring. Qed.

Lemma tri_winding : forall a b c q, winding [a; b; c] q = (cr a b q + (cr b c q + (cr c a q + 0)))%Z.
Proof. reflexivity. Qed.

Lemma tri_in : forall a b c q, 0 < ar a b q -> 0 < ar b c q -> 0 < ar c a q -> winding [a; b; c] q = 1%Z.
Proof.
  intros a b c q H1 H2 H3. rewrite tri_winding. pose proof (bary_y a b c q) as B. unfold cr.
  destruct (Rle_dec (vy a) (vy q)), (Rle_dec (vy b) (vy q)), (Rle_dec (vy c) (vy q));
    repeat match goal with |- context [Rlt_dec ?x ?y] => destruct (Rlt_dec x y); try lra end; try reflexivity; exfalso.
  - (* all below: then all at the height of q *)
    assert (P1 : 0 <= ar b c q * (vy q - vy a)) by (apply Rmult_le_pos; lra).
    assert (P2 : 0 <= ar c a q * (vy q - vy b)) by (apply Rmult_le_pos; lra).
    assert (P3 : 0 <= ar a b q * (vy q - vy c)) by (apply Rmult_le_pos; lra).
    assert (E1 : ar b c q * (vy q - vy a) = 0) by lra. assert (E2 : ar c a q * (vy q - vy b) = 0) by lra.
    apply Rmult_integral in E1, E2. assert (A : vy a = vy q) by lra. assert (A' : vy b = vy q) by lra.
    unfold ar, cross in H1. rewrite A, A' in H1. lra.
  - assert (0 < ar b c q * (vy a - vy q)) by (apply Rmult_lt_0_compat; lra).
    assert (0 < ar c a q * (vy b - vy q)) by (apply Rmult_lt_0_compat; lra).
    assert (0 < ar a b q * (vy c - vy q)) by (apply Rmult_lt_0_compat; lra). lra.
Qed.

Lemma tri_out1 : forall a b c q, 0 < ar a b c -> ar a b q < 0 -> winding [a; b; c] q = 0%Z.
Proof.
  intros a b c q D H1. rewrite tri_winding. pose proof (bary_y a b c q) as B. pose proof (bary_sum a b c q) as Z. unfold cr.
  destruct (Rle_dec (vy a) (vy q)), (Rle_dec (vy b) (vy q)), (Rle_dec (vy c) (vy q));
    repeat match goal with |- context [Rlt_dec ?x ?y] => destruct (Rlt_dec x y) end; try reflexivity; exfalso; nra.
Qed.

Lemma tri_out : forall a b c q, 0 < ar a b c -> ar a b q < 0 \/ ar b c q < 0 \/ ar c a q < 0 ->
  winding [a; b; c] q = 0%Z.
Proof.
  intros a b c q D [H|[H|H]].
  - now apply tri_out1.
  - rewrite (winding_rot [a] [b; c]). apply tri_out1; [|exact H]. now rewrite ar_rot.
  - rewrite (winding_rot [a; b] [c]). apply tri_out1; [|exact H]. now rewrite <- ar_rot.
Qed.

Lemma tri_vertex : forall z z1 z0 c, 0 < ar z z1 z0 -> c <> z -> only_at [z; z1; z0] z c ->
  (ccw z z1 c z0 -> winding [z; z1; z0] c = 1%Z) /\ (~ ccw z z1 c z0 -> winding [z; z1; z0] c = 0%Z).
Proof.
  intros z z1 z0 c D Nc O.
  assert (E1 : ar z0 z c = ar z c z0) by (unfold ar, cross; ring).
  assert (N0 : ar z z0 z1 = - ar z z1 z0) by apply ar_swap1.
  split; intros C.
  - assert (A : 0 < ar z z1 c /\ 0 < ar z c z0) by (unfold ccw in C; lra). destruct A as [A1 A2].
    apply tri_in; [exact A1| |now rewrite E1].
    destruct (Rlt_le_dec 0 (ar z1 z0 c)) as [L|L]; [exact L|exfalso].
    pose proof (bary_sum z z1 z0 c) as B. rewrite E1 in B.
    set (al := ar z c z0) in *. set (be := ar z z1 c) in *. set (dd := ar z z1 z0) in *.
    assert (X : 0 < al + be) by lra.
    set (x := along z c (dd / (al + be))).
    assert (Ex : x = along z1 z0 (be / (al + be))).
    { pose proof (combo_solve z z1 z0 c) as CS. unfold x. 
      assert (CS' : c = combo z z1 z0 (al / dd) (be / dd)) by (apply CS; fold (ar z z1 z0); fold dd; lra).
      rewrite CS' at 1. apply pt_eq; unfold along, combo; simpl; field; lra. }
    assert (T : 0 <= dd / (al + be) <= 1).
    { split; [apply Rmult_le_pos; [lra|left; now apply Rinv_0_lt_compat]|].
      apply (Rmult_le_reg_r (al + be)); [exact X|]. unfold Rdiv. rewrite Rmult_assoc, Rinv_l by lra. lra. }
    assert (T2 : 0 <= be / (al + be) <= 1).
    { split; [apply Rmult_le_pos; [lra|left; now apply Rinv_0_lt_compat]|].
      apply (Rmult_le_reg_r (al + be)); [exact X|]. unfold Rdiv. rewrite Rmult_assoc, Rinv_l by lra. lra. }
    assert (Xz : x = z).
    { apply (O z1 z0 x); [right; now left| |].
      - exists (be / (al + be)). now split.
      - exists (dd / (al + be)). now split. }
    assert (Q : ar z1 z0 x = 0) by (rewrite Ex; unfold ar, cross, along; simpl; ring).
    rewrite Xz, ar_rot in Q. unfold dd in D. lra.
  - apply tri_out; [exact D|].
    destruct (Rlt_le_dec (ar z z1 c) 0) as [L1|L1]; [now left|].
    destruct (Rlt_le_dec (ar z c z0) 0) as [L2|L2]; [right; right; now rewrite E1|].
    exfalso.
    assert (N1 : z1 <> z). { intros ->. unfold ar, cross in D. lra. }
    assert (N2 : z0 <> z). { intros ->. unfold ar, cross in D. lra. }
    assert (SD1 : ~ samedir z z1 c).
    { intros S. destruct (samedir_meet _ _ _ S N1) as (x & X1 & X2 & X3). apply X1. apply (O z z1 x); [now left|exact X2|exact X3]. }
    assert (SD2 : ~ samedir z z0 c).
    { intros S. destruct (samedir_meet _ _ _ S N2) as (x & X1 & X2 & X3). apply X1.
      apply (O z0 z x); [right; right; now left|now apply on_segment_rev|exact X3]. }
    destruct (Rle_lt_or_eq_dec _ _ L1) as [P1|P1].
    + destruct (Rle_lt_or_eq_dec _ _ L2) as [P2|P2]; [apply C; now left|].
      destruct (ar0_dir z z0 c N2 Nc) as (k & K & E); [rewrite ar_swap1; lra|].
      assert (k < 0) by (destruct (Rlt_le_dec k 0) as [?|?]; [assumption|exfalso; apply SD2; exists k; split; [lra|exact E]]).
      rewrite E, ar_along_r in P1. nra.
    + destruct (ar0_dir z z1 c N1 Nc (eq_sym P1)) as (k & K & E).
      assert (k < 0) by (destruct (Rlt_le_dec k 0) as [?|?]; [assumption|exfalso; apply SD1; exists k; split; [lra|exact E]]).
      rewrite E, ar_along_l in L2. nra.
Qed.

Lemma tri_pos : forall a b c, 0 < ar a b c -> pos [a; b; c].
Proof.
  intros a b c D.
  assert (Nab : a <> b) by (intros ->; unfold ar, cross in D; lra).
  assert (Nbc : b <> c) by (intros ->; unfold ar, cross in D; lra).
  assert (Nca : c <> a) by (intros ->; unfold ar, cross in D; lra).
  intros z0 z z1 q H0 H1 Nq O.
  destruct H0 as [H0|[H0|[H0|[]]]]; inversion H0; subst z0 z; destruct H1 as [H1|[H1|[H1|[]]]]; inversion H1; subst;
    try congruence.
  - rewrite (winding_rot [a] [b; z1]). apply tri_vertex; [now rewrite ar_rot|exact Nq|].
    exact (only_at_rot [a] [b; z1] b q O).
  - rewrite (winding_rot [z1; b] [c]). apply tri_vertex; [now rewrite <- ar_rot|exact Nq|].
    exact (only_at_rot [z1; b] [c] c q O).
  - apply tri_vertex; assumption.
Qed.
