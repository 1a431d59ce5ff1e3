(** * Every simple polygon runs counterclockwise or clockwise around one inside *)
From Coq Require Import Reals List Bool Lra Lia Psatz ZArith Permutation Classical.
From Verif Require Import Scalar Utils PlaneSpec PolySpec Laws UtilsReal PolyArea PolyTri Winding SimplePoly SimpleWinding SimpleSplit SimpleGlue.
Import ListNotations.
Local Open Scope R_scope.

(** ** The topmost vertex *)
(** Lower, or at the same height and to the left. *)
Definition under (p v : point) : Prop := vy p < vy v \/ (vy p = vy v /\ vx p < vx v).

Lemma top_exists : forall P, P <> [] -> exists v, In v P /\ forall p, In p P -> p = v \/ under p v.
Proof.
  induction P as [|a P IH]; intros N; [congruence|]. destruct P as [|b P].
  - exists a. split; [now left|]. intros p [->|[]]. now left.
  - destruct IH as (v & Hv & H); [discriminate|].
    destruct (classic (a = v)) as [->|Na].
    + exists v. split; [now left|]. intros p [->|Hp]; [now left|auto].
    + destruct (classic (under a v)) as [U|U].
      * exists v. split; [now right|]. intros p [<-|Hp]; [now right|auto].
      * exists a. split; [now left|]. intros p [<-|Hp]; [now left|right].
        assert (V : under v a).
        { unfold under in *. destruct (Rtotal_order (vy a) (vy v)) as [T|[T|T]]; [tauto| |tauto].
          destruct (Rtotal_order (vx a) (vx v)) as [T'|[T'|T']]; [tauto| |lra].
          exfalso. apply Na. now apply pt_eq. }
        destruct (H p Hp) as [->|W]; [exact V|]. unfold under in *. lra.
Qed.

Lemma under_le : forall p v, p = v \/ under p v -> vy p <= vy v.
Proof. intros p v [->|[H|[H _]]]; lra. Qed.

(** The highest vertex of a simple polygon is a strict turn. *)
Lemma top_turn : forall P u v w, simple P -> In (u, v) (edges_of P) -> In (v, w) (edges_of P) ->
  (forall p, In p P -> p = v \/ under p v) -> ar u v w <> 0.
Proof.
  intros P u v w S H1 H2 T E.
  pose proof (edge_neq P u v S H1) as Nu. pose proof (edge_neq P v w S H2) as Nw.
  assert (E' : ar v w u = 0) by (rewrite ar_rot; exact E).
  destruct (ar0_dir v w u) as (k & K & Ek); [congruence|congruence|exact E'|].
  destruct (edge_ends _ _ _ H1) as [Iu _]. destruct (edge_ends _ _ _ H2) as [_ Iw].
  destruct (T u Iu) as [?|Uu]; [congruence|]. destruct (T w Iw) as [?|Uw]; [congruence|].
  destruct (Rlt_le_dec 0 k) as [L|L].
  - apply (no_spike P u v w S H1 H2). exists k. now split.
  - assert (k < 0) by lra. unfold under in *. rewrite Ek in Uu. unfold along in Uu; simpl in Uu. nra.
Qed.

Lemma cr_above : forall a b q, vy a <= vy q -> vy b <= vy q -> cr a b q = 0%Z.
Proof. intros a b q A B. unfold cr. destruct (Rle_dec (vy a) (vy q)), (Rle_dec (vy b) (vy q)); try lra. reflexivity. Qed.

Lemma winding_above : forall P q, (forall p, In p P -> vy p <= vy q) -> winding P q = 0%Z.
Proof.
  intros P q H. unfold winding.
  assert (G : forall es, (forall e, In e es -> In (fst e) P /\ In (snd e) P) -> wn es q = 0%Z).
  { induction es as [|[a b] es IH]; intros K; [reflexivity|]. cbn [wn fst snd].
    destruct (K (a, b)) as [A B]; [now left|]. cbn [fst snd] in A, B. rewrite cr_above by auto.
    rewrite IH; [reflexivity|]. intros e He. apply K. now right. }
  apply G. intros [a b] He. now apply edge_ends.
Qed.

Lemma top_test : forall P v, (forall p, In p P -> vy p <= vy v) -> only_at P v (P2 (vx v) (vy v + 1)).
Proof.
  intros P v H a b x He (t & T & E1) (s & Hs & E2).
  destruct (edge_ends _ _ _ He) as [Ia Ib]. pose proof (H a Ia) as La. pose proof (H b Ib) as Lb.
  assert (Y1 : vy x <= vy v).
  { rewrite E1. unfold along; simpl. nra. }
  assert (Y2 : vy x = vy v + s) by (rewrite E2; unfold along; simpl; ring).
  assert (s = 0) by lra. subst s. rewrite E2. apply along0.
Qed.

(** Orientation is decided by the turn at the highest vertex. *)
Lemma top_pos : forall P u v w, simple P -> In (u, v) (edges_of P) -> In (v, w) (edges_of P) ->
  (forall p, In p P -> p = v \/ under p v) -> 0 < ar u v w -> pos P \/ pos (rev P) -> pos P.
Proof.
  intros P u v w S H1 H2 T D [Q|Q]; [exact Q|exfalso].
  set (c := P2 (vx v) (vy v + 1)).
  assert (Nc : c <> v) by (intros E; assert (F := f_equal vy E); simpl in F; lra).
  assert (Tv : forall p, In p P -> vy p <= vy v) by (intros p Hp; now apply under_le, T).
  assert (O : only_at (rev P) v c).
  { apply top_test. intros p Hp. apply Tv. now apply in_rev. }
  assert (W : winding (rev P) c = 0%Z).
  { apply winding_above. intros p Hp. apply in_rev in Hp. specialize (Tv p Hp). simpl. lra. }
  destruct (Q w v u c) as [R _]; auto.
  { now apply in_edges_rev. } { now apply in_edges_rev. }
  destruct (classic (ccw v u c w)) as [K|K]; [rewrite (R K) in W; discriminate|].
  destruct (edge_ends _ _ _ H1) as [Iu _]. destruct (edge_ends _ _ _ H2) as [_ Iw].
  pose proof (Tv u Iu). pose proof (Tv w Iw).
  destruct (ccw_total v u c w) as [L|L]; auto.
  - intros E. now apply (edge_neq P u v S H1).
  - intros E. now apply (edge_neq P v w S H2).
  - intros (k & Hk & E). assert (F := f_equal vy E). unfold along in F; simpl in F. nra.
  - intros (k & Hk & E). assert (F := f_equal vy E). unfold along in F; simpl in F. nra.
  - now apply (no_spike P u v w).
  - (* c would be in the convex angle below v *)
    assert (A : ar v u w < 0) by (rewrite ar_swap in D; lra).
    unfold ccw in L. assert (0 < ar v w c /\ 0 < ar v c u) by lra.
    unfold c, ar, cross in *; simpl in *. nra.
Qed.

(** ** Points of a triangle *)
Definition inT (u v w p : point) : Prop := 0 <= ar u v p /\ 0 <= ar v w p /\ 0 <= ar w u p.

Lemma on_side : forall u v w y, 0 < ar u v w -> ar u v y = 0 -> 0 <= ar v w y -> 0 <= ar w u y -> on_segment u v y.
Proof.
  intros u v w y D E H1 H2. exists (ar w u y / ar u v w).
  pose proof (bary_sum u v w y) as B. split.
  - split; [apply Rmult_le_pos; [exact H2|left; now apply Rinv_0_lt_compat]|].
    apply (Rmult_le_reg_r (ar u v w)); [exact D|]. unfold Rdiv. rewrite Rmult_assoc, Rinv_l by lra. lra.
  - assert (Ix : ar u v w * vx y = ar u v w * vx u + ar w u y * (vx v - vx u) + ar u v y * (vx w - vx u)) by (unfold ar, cross; ring).
    assert (Iy : ar u v w * vy y = ar u v w * vy u + ar w u y * (vy v - vy u) + ar u v y * (vy w - vy u)) by (unfold ar, cross; ring).
    rewrite E in Ix, Iy.
    apply pt_eq; unfold along; simpl; apply (Rmult_eq_reg_l (ar u v w)); try lra; field_simplify; lra.
Qed.

(** Leaving the triangle on the upper side of its base crosses one of the other sides. *)
Lemma tri_exit : forall u v w x e, 0 < ar u v w -> inT u v w x -> ~ inT u v w e -> 0 <= ar w u e ->
  exists y, on_segment x e y /\ (on_segment u v y \/ on_segment v w y).
Proof.
  intros u v w x e D (X1 & X2 & X3) NE E3.
  set (y1 := along x e (ar u v x / (ar u v x - ar u v e))).
  set (y2 := along x e (ar v w x / (ar v w x - ar v w e))).
  assert (FR : forall p q, 0 <= p -> q < 0 -> 0 <= p / (p - q) <= 1 /\ (1 - p / (p - q)) * p + p / (p - q) * q = 0).
  { intros p q Hp Hq. split; [split|].
    - apply Rmult_le_pos; [exact Hp|left; apply Rinv_0_lt_compat; lra].
    - apply (Rmult_le_reg_r (p - q)); [lra|]. unfold Rdiv. rewrite Rmult_assoc, Rinv_l by lra. lra.
    - field. lra. }
  assert (FIRST : ar u v e < 0 -> 0 <= ar v w y1 -> exists y, on_segment x e y /\ (on_segment u v y \/ on_segment v w y)).
  { intros H G. destruct (FR (ar u v x) (ar u v e) X1 H) as [T Z]. exists y1. split; [eexists; split; [exact T|reflexivity]|].
    left. apply (on_side u v w); [exact D| |exact G|].
    - unfold y1. rewrite ar_along. exact Z.
    - unfold y1. rewrite ar_along. apply Rplus_le_le_0_compat; apply Rmult_le_pos; lra. }
  assert (SECOND : ar v w e < 0 -> 0 <= ar u v y2 -> exists y, on_segment x e y /\ (on_segment u v y \/ on_segment v w y)).
  { intros H G. destruct (FR (ar v w x) (ar v w e) X2 H) as [T Z]. exists y2. split; [eexists; split; [exact T|reflexivity]|].
    right. apply (on_side v w u); [now rewrite ar_rot| | |exact G].
    - unfold y2. rewrite ar_along. exact Z.
    - unfold y2. rewrite ar_along. apply Rplus_le_le_0_compat; apply Rmult_le_pos; lra. }
  destruct (Rlt_le_dec (ar u v e) 0) as [L1|L1].
  - destruct (Rlt_le_dec (ar v w e) 0) as [L2|L2].
    + destruct (FR (ar u v x) (ar u v e) X1 L1) as [T1 Z1]. destruct (FR (ar v w x) (ar v w e) X2 L2) as [T2 Z2].
      destruct (Rle_lt_dec (ar u v x / (ar u v x - ar u v e)) (ar v w x / (ar v w x - ar v w e))) as [M|M].
      * apply FIRST; [exact L1|]. unfold y1. rewrite ar_along.
        set (t1 := ar u v x / (ar u v x - ar u v e)) in *. set (t2 := ar v w x / (ar v w x - ar v w e)) in *.
        assert (0 <= (t2 - t1) * (ar v w x - ar v w e)) by (apply Rmult_le_pos; lra). lra.
      * apply SECOND; [exact L2|]. unfold y2. rewrite ar_along.
        set (t1 := ar u v x / (ar u v x - ar u v e)) in *. set (t2 := ar v w x / (ar v w x - ar v w e)) in *.
        assert (0 <= (t1 - t2) * (ar u v x - ar u v e)) by (apply Rmult_le_pos; lra). lra.
    + apply FIRST; [exact L1|]. unfold y1. rewrite ar_along. destruct (FR (ar u v x) (ar u v e) X1 L1) as [T1 Z1].
      apply Rplus_le_le_0_compat; apply Rmult_le_pos; lra.
  - destruct (Rlt_le_dec (ar v w e) 0) as [L2|L2].
    + apply SECOND; [exact L2|]. unfold y2. rewrite ar_along. destruct (FR (ar v w x) (ar v w e) X2 L2) as [T1 Z1].
      apply Rplus_le_le_0_compat; apply Rmult_le_pos; lra.
    + exfalso. apply NE. repeat split; assumption.
Qed.

Lemma inT_rot : forall u v w p, inT u v w p -> inT v w u p.
Proof. unfold inT. tauto. Qed.

(** A vertex next to z inside the angle of a triangle at z is in the triangle or its edge
    crosses the opposite side. *)
Lemma cone_block : forall z p q t, 0 < ar z p q -> ~ inT z p q t -> (forall x, on_segment z t x -> on_segment p q x -> False) ->
  ~ ccw z p t q.
Proof.
  intros z p q t D NT NM K.
  assert (A : 0 < ar z p t /\ 0 < ar z t q).
  { unfold ccw in K. rewrite (ar_swap1 z p q) in K. lra. }
  destruct A as [A1 A2].
  assert (E : ar q z t = ar z t q) by (unfold ar, cross; ring).
  destruct (tri_exit p q z z t) as (y & Y1 & Y2).
  - now rewrite ar_rot.
  - unfold inT. split; [|split]; [rewrite ar_rot; lra| |]; unfold ar, cross; right; ring.
  - intros I. apply NT. now apply inT_rot, inT_rot.
  - lra.
  - destruct Y2 as [Y2|Y2]; [exact (NM y Y1 Y2)|].
    (* y on q z and on z t, with t strictly to one side *)
    destruct Y1 as (s & Hs & ->). destruct Y2 as (r & Hr & F).
    assert (G : ar q z (along z t s) = 0) by (rewrite F; unfold ar, cross, along; simpl; ring).
    rewrite ar_along in G. assert (Z : ar q z z = 0) by (unfold ar, cross; ring). rewrite Z, E in G.
    assert (s = 0) by nra. subst s. rewrite along0 in *.
    (* then t is not reached: leave again *)
    clear F G Z. 
    assert (B : ar p q t < 0 \/ 0 <= ar p q t) by lra. destruct B as [B|B].
    + apply (NM (along z t (ar p q z / (ar p q z - ar p q t)))).
      * assert (M : 0 < ar p q z) by (now rewrite ar_rot).
        eexists; split; [|reflexivity]. split.
        -- apply Rmult_le_pos; [lra|left; apply Rinv_0_lt_compat; lra].
        -- apply (Rmult_le_reg_r (ar p q z - ar p q t)); [lra|]. unfold Rdiv. rewrite Rmult_assoc, Rinv_l by lra. lra.
      * assert (M : 0 < ar p q z) by (now rewrite ar_rot).
        assert (T : 0 <= ar p q z / (ar p q z - ar p q t)) by (apply Rmult_le_pos; [lra|left; apply Rinv_0_lt_compat; lra]).
        apply (on_side p q z); [exact M| | |].
        -- rewrite ar_along. field. lra.
        -- rewrite ar_along. assert (Z : ar q z z = 0) by (unfold ar, cross; ring). rewrite Z, E. 
           rewrite Rmult_0_r, Rplus_0_l. apply Rmult_le_pos; lra.
        -- rewrite ar_along. assert (Z : ar z p z = 0) by (unfold ar, cross; ring). rewrite Z.
           rewrite Rmult_0_r, Rplus_0_l. apply Rmult_le_pos; lra.
    + apply NT. unfold inT. repeat split; lra.
Qed.
