(** * Drawings with room to spare: plane geometry. *)
From Coq Require Import Reals List Arith Bool Lia Lra Psatz.
From Flocq Require Import Core.Core.
From Verif Require GeoOn GeoRound.
From Verif Require Import Scalar Utils Graph GraphSpec PlaneSpec UtilsReal PlanarSpec GridSpec GeoSpec MarginSpec
  Laws GraphAdd GraphPlanar.
Import ListNotations.
Local Open Scope R_scope.

Lemma off_sym : forall dl a b p, off dl a b p -> off dl b a p.
Proof. intros dl a b p H x Hx. apply H. now apply on_sym. Qed.
Lemma off_half : forall dl a b x p, on_segment a b x -> off dl a b p -> off dl a x p.
Proof. intros dl a b x p Hx H y Hy. apply H. eapply on_half; eassumption. Qed.
Lemma off_left : forall dl a b p, off dl a b p -> dl <= dist p a.
Proof. intros dl a b p H. apply H, on_left. Qed.

(** Moving from (t, s) in the unit square towards a point outside of it, one meets the
    boundary. *)
Lemma exit_one : forall t t0, 0 <= t <= 1 -> (t0 < 0 \/ 1 < t0) ->
  exists w, 0 <= w <= 1 /\ (t + w * (t0 - t) = 0 \/ t + w * (t0 - t) = 1) /\
    forall v, 0 <= v <= w -> 0 <= t + v * (t0 - t) <= 1.
Proof.
  intros t t0 Ht [H|H].
  - exists (t / (t - t0)). assert (E : t / (t - t0) * (t - t0) = t) by (field; lra).
    set (w := t / (t - t0)) in *. assert (0 <= w) by (unfold w; apply Rmult_le_pos; [lra|apply Rlt_le, Rinv_0_lt_compat; lra]).
    split; [split; [assumption|]|split].
    + apply (Rmult_le_reg_r (t - t0)); lra.
    + left. lra.
    + intros v Hv. assert (v * (t - t0) <= w * (t - t0)) by (apply Rmult_le_compat_r; lra).
      assert (0 <= v * (t - t0)) by (apply Rmult_le_pos; lra). lra.
  - exists ((1 - t) / (t0 - t)). assert (E : (1 - t) / (t0 - t) * (t0 - t) = 1 - t) by (field; lra).
    set (w := (1 - t) / (t0 - t)) in *. assert (0 <= w) by (unfold w; apply Rmult_le_pos; [lra|apply Rlt_le, Rinv_0_lt_compat; lra]).
    split; [split; [assumption|]|split].
    + apply (Rmult_le_reg_r (t0 - t)); lra.
    + right. lra.
    + intros v Hv. assert (v * (t0 - t) <= w * (t0 - t)) by (apply Rmult_le_compat_r; lra).
      assert (0 <= v * (t0 - t)) by (apply Rmult_le_pos; lra). lra.
Qed.
Lemma stay_one : forall t t0 v, 0 <= t <= 1 -> 0 <= t0 <= 1 -> 0 <= v <= 1 -> 0 <= t + v * (t0 - t) <= 1.
Proof. intros. nra. Qed.
Lemma exit_two : forall t s t0 s0, 0 <= t <= 1 -> 0 <= s <= 1 -> ~ (0 <= t0 <= 1 /\ 0 <= s0 <= 1) ->
  exists w, 0 <= w <= 1 /\ let t' := t + w * (t0 - t) in let s' := s + w * (s0 - s) in
    0 <= t' <= 1 /\ 0 <= s' <= 1 /\ (t' = 0 \/ t' = 1 \/ s' = 0 \/ s' = 1).
Proof.
  intros t s t0 s0 Ht Hs N. cbv zeta.
  assert (Dt : (0 <= t0 <= 1) \/ (t0 < 0 \/ 1 < t0)) by lra. assert (Ds : (0 <= s0 <= 1) \/ (s0 < 0 \/ 1 < s0)) by lra.
  destruct Dt as [Dt|Dt], Ds as [Ds|Ds].
  - tauto.
  - destruct (exit_one s s0 Hs Ds) as (w & Hw & E & I). exists w. split; [exact Hw|].
    split; [now apply stay_one|]. split; [apply I; lra|tauto].
  - destruct (exit_one t t0 Ht Dt) as (w & Hw & E & I). exists w. split; [exact Hw|].
    split; [apply I; lra|]. split; [now apply stay_one|tauto].
  - destruct (exit_one s s0 Hs Ds) as (w & Hw & E & I). destruct (exit_one t t0 Ht Dt) as (w' & Hw' & E' & I').
    destruct (Rle_dec w w') as [L|L].
    + exists w. split; [exact Hw|]. split; [apply I'; lra|]. split; [apply I; lra|tauto].
    + exists w'. split; [exact Hw'|]. split; [apply I'; lra|]. split; [apply I; lra|tauto].
Qed.

Lemma dist_scale : forall (x y x' y' : point) k, 0 <= k <= 1 -> vx y' - vx x' = k * (vx y - vx x) -> vy y' - vy x' = k * (vy y - vy x) ->
  dist x' y' <= dist x y.
Proof.
  intros x y x' y' k Hk E1 E2. apply sq_le; [apply dist_nonneg|]. rewrite !dist_sq, E1, E2.
  set (A := vx y - vx x). set (B := vy y - vy x).
  replace (k * A * (k * A) + k * B * (k * B)) with ((k * k) * (A * A + B * B)) by ring.
  assert (0 <= A * A + B * B) by apply sumsq_nonneg. assert (k * k <= 1) by nra.
  rewrite <- (Rmult_1_l (A * A + B * B)) at 2. apply Rmult_le_compat_r; assumption.
Qed.

(** Two segments without a common point are as far apart as their ends are from the other
    segment. *)
Lemma segments_apart : forall dl a b c d, a <> b -> c <> d ->
  off dl a b c -> off dl a b d -> off dl c d a -> off dl c d b ->
  (forall x, on_segment a b x -> on_segment c d x -> False) ->
  forall x y, on_segment a b x -> on_segment c d y -> dl <= dist x y.
Proof.
  intros dl a b c d Nab Ncd Hc Hd Ha Hb Dj x y (t & Ht & ->) (s & Hs & ->).
  assert (Fin : forall t' s' k, 0 <= t' <= 1 -> 0 <= s' <= 1 -> (t' = 0 \/ t' = 1 \/ s' = 0 \/ s' = 1) -> 0 <= k <= 1 ->
    vx (along c d s') - vx (along a b t') = k * (vx (along c d s) - vx (along a b t)) ->
    vy (along c d s') - vy (along a b t') = k * (vy (along c d s) - vy (along a b t)) ->
    dl <= dist (along a b t) (along c d s)).
  { intros t' s' k Ht' Hs' E Hk E1 E2. apply Rle_trans with (dist (along a b t') (along c d s')); [|now apply (dist_scale _ _ _ _ k)].
    assert (O1 : on_segment a b (along a b t')) by (exists t'; auto). assert (O2 : on_segment c d (along c d s')) by (exists s'; auto).
    destruct E as [->|[->|[->| ->]]].
    - rewrite along_0. now apply Ha.
    - rewrite along_1. now apply Hb.
    - rewrite along_0, dist_sym. now apply Hc.
    - rewrite along_1, dist_sym. now apply Hd. }
  destruct (Req_dec (cross a b c d) 0) as [Z|Z].
  - assert (Ec : exists k, vx b - vx a = k * (vx d - vx c) /\ vy b - vy a = k * (vy d - vy c)).
    { unfold cross in Z. destruct (Req_dec (vx d) (vx c)) as [E|E].
      - assert (E' : vy d <> vy c) by (intros E'; apply Ncd; destruct c as [cx cy], d as [dx dy]; cbn [vx vy] in *; congruence).
        exists ((vy b - vy a) / (vy d - vy c)). split; [|field; lra].
        apply (Rmult_eq_reg_r (vy d - vy c)); [|lra]. rewrite E in *. replace (vx c - vx c) with 0 in * by ring. lra.
      - exists ((vx b - vx a) / (vx d - vx c)). split; [field; lra|].
        apply (Rmult_eq_reg_r (vx d - vx c)); [|lra]. replace ((vx b - vx a) / (vx d - vx c) * (vy d - vy c) * (vx d - vx c))
          with ((vx b - vx a) * (vy d - vy c)) by (field; lra). lra. }
    destruct Ec as (k & C1 & C2).
    destruct (exit_two t s (t + 2) (s + 2 * k) Ht Hs ltac:(lra)) as (w & Hw & Ht' & Hs' & E).
    apply (Fin _ _ 1 Ht' Hs' E ltac:(lra)); unfold along; cbn [vx vy]; [rewrite C1|rewrite C2]; ring.
  - set (D := cross a b c d) in *. set (t0 := cross c d c a / D). set (s0 := cross a b c a / D).
    assert (E0 : along a b t0 = along c d s0).
    { unfold along, t0, s0, D, cross in *. destruct a as [ax ay], b as [bx by'], c as [cx cy], d as [dx dy]. cbn [vx vy] in *. f_equal; field; exact Z. }
    destruct (exit_two t s t0 s0 Ht Hs) as (w & Hw & Ht' & Hs' & E).
    { intros [H1 H2]. apply (Dj (along a b t0)); [exists t0; auto|]. rewrite E0. exists s0; auto. }
    unfold along in E0. injection E0 as E1 E2.
    apply (Fin _ _ (1 - w) Ht' Hs' E ltac:(lra)); unfold along; cbn [vx vy].
    + replace (vx c + (s + w * (s0 - s)) * (vx d - vx c) - (vx a + (t + w * (t0 - t)) * (vx b - vx a)))
        with ((1 - w) * (vx c + s * (vx d - vx c) - (vx a + t * (vx b - vx a))) + w * ((vx c + s0 * (vx d - vx c)) - (vx a + t0 * (vx b - vx a)))) by ring.
      rewrite E1. ring.
    + replace (vy c + (s + w * (s0 - s)) * (vy d - vy c) - (vy a + (t + w * (t0 - t)) * (vy b - vy a)))
        with ((1 - w) * (vy c + s * (vy d - vy c) - (vy a + t * (vy b - vy a))) + w * ((vy c + s0 * (vy d - vy c)) - (vy a + t0 * (vy b - vy a)))) by ring.
      rewrite E2. ring.
Qed.

(** Two segments with a common end that meet elsewhere overlap. *)
Lemma fork : forall k a b x, on_segment k a x -> on_segment k b x -> x = k \/ on_segment k b a \/ on_segment k a b.
Proof.
  intros k a b x (t & Ht & E) (s & Hs & E').
  destruct (Req_dec t 0) as [->|Nt]; [left; rewrite E; apply along_0|].
  destruct (Req_dec s 0) as [->|Ns]; [left; rewrite E'; apply along_0|]. right.
  rewrite E in E'. unfold along in E'. injection E' as E1 E2. destruct k as [kx ky], a as [ax ay], b as [bx by']. cbn [vx vy] in *.
  destruct (Rle_dec s t) as [L|L].
  - left. exists (s / t). split.
    + split; [apply Rmult_le_pos; [lra|apply Rlt_le, Rinv_0_lt_compat; lra]|]. apply (Rmult_le_reg_r t); [lra|]. unfold Rdiv. rewrite Rmult_assoc, Rinv_l; lra.
    + unfold along. cbn [vx vy]. f_equal; apply (Rmult_eq_reg_r t); try lra.
      * replace ((kx + s / t * (bx - kx)) * t) with (kx * t + s * (bx - kx)) by (field; exact Nt). lra.
      * replace ((ky + s / t * (by' - ky)) * t) with (ky * t + s * (by' - ky)) by (field; exact Nt). lra.
  - right. exists (t / s). split.
    + split; [apply Rmult_le_pos; [lra|apply Rlt_le, Rinv_0_lt_compat; lra]|]. apply (Rmult_le_reg_r s); [lra|]. unfold Rdiv. rewrite Rmult_assoc, Rinv_l; lra.
    + unfold along. cbn [vx vy]. f_equal; apply (Rmult_eq_reg_r s); try lra.
      * replace ((kx + t / s * (ax - kx)) * s) with (kx * s + t * (ax - kx)) by (field; exact Ns). lra.
      * replace ((ky + t / s * (ay - ky)) * s) with (ky * s + t * (ay - ky)) by (field; exact Ns). lra.
Qed.

(** Points of segments with close ends. *)
Lemma along_close : forall a b a' b' t h, 0 <= t <= 1 -> dist a a' <= h -> dist b b' <= h -> dist (along a b t) (along a' b' t) <= h.
Proof.
  intros a b a' b' t h Ht Ha Hb.
  assert (Ph : 0 <= h) by (pose proof (dist_nonneg a a'); lra).
  set (m := along a' b t).
  assert (D1 : dist (along a b t) m = (1 - t) * dist a a').
  { apply sq_eq; [apply dist_nonneg|apply Rmult_le_pos; [lra|apply dist_nonneg]|].
    replace ((1 - t) * dist a a' * ((1 - t) * dist a a')) with ((1 - t) * (1 - t) * (dist a a' * dist a a')) by ring.
    rewrite !dist_sq. unfold m, along. cbn [vx vy]. ring. }
  assert (D2 : dist m (along a' b' t) = t * dist b b').
  { apply sq_eq; [apply dist_nonneg|apply Rmult_le_pos; [lra|apply dist_nonneg]|].
    replace (t * dist b b' * (t * dist b b')) with (t * t * (dist b b' * dist b b')) by ring.
    rewrite !dist_sq. unfold m, along. cbn [vx vy]. ring. }
  pose proof (triangle (along a b t) m (along a' b' t)).
  assert ((1 - t) * dist a a' <= (1 - t) * h) by (apply Rmult_le_compat_l; lra).
  assert (t * dist b b' <= t * h) by (apply Rmult_le_compat_l; lra). lra.
Qed.

(** A point behind [x]. *)
Lemma behind : forall a b x y z, on_segment a b x -> on_segment a x z -> on_segment b x y -> dist y x <= dist y z.
Proof.
  intros a b x y z Hx Hz Hy. pose proof (on_segment_dist _ _ _ Hx). pose proof (on_segment_dist _ _ _ Hz). pose proof (on_segment_dist _ _ _ Hy).
  pose proof (triangle a z y). pose proof (triangle a y b). rewrite (dist_sym b y), (dist_sym b x) in *. rewrite (dist_sym z y) in *.
  pose proof (triangle x z y). pose proof (dist_nonneg z x).
  pose proof (triangle b y z). pose proof (triangle a z b). rewrite (dist_sym b y), (dist_sym b z) in *. lra.
Qed.

Section Drawing.
Context {U : Type}.
Local Notation edge := (Edge U).

(** ** Drawings with pending splitting points *)
Definition minv (dl : R) (X : list point) (es : list edge) (pend : list point) : Prop :=
  spaced dl X es /\ ForallOrdPairs (meet X pend) es /\ (forall y, In y pend -> lone dl X es y) /\
  ForallOrdPairs (fun x y => dl <= dist x y) pend.

Definition boxed (M : R) (l : list point) : Prop := forall p, In p l -> Rabs (vx p) <= M /\ Rabs (vy p) <= M.
Lemma box_dist : forall M p q, Rabs (vx p) <= M -> Rabs (vy p) <= M -> Rabs (vx q) <= M -> Rabs (vy q) <= M -> dist p q <= 17 / 6 * M.
Proof.
  intros M p q A B C D. assert (0 <= M) by (pose proof (Rabs_pos (vx p)); lra). apply Rabs_le_inv in A, B, C, D.
  apply sq_le; [lra|]. rewrite dist_sq. set (x := vx q - vx p). set (y := vy q - vy p).
  assert (- (2 * M) <= x <= 2 * M) by (unfold x; lra). assert (- (2 * M) <= y <= 2 * M) by (unfold y; lra). nra.
Qed.
Lemma boxed_pt : forall M X k, boxed M X -> (k < length X)%nat -> Rabs (vx (pt X k)) <= M /\ Rabs (vy (pt X k)) <= M.
Proof. intros M X k B H. apply B. now apply nth_In. Qed.
Lemma box_along : forall M a b x, Rabs (vx a) <= M /\ Rabs (vy a) <= M -> Rabs (vx b) <= M /\ Rabs (vy b) <= M -> on_segment a b x ->
  Rabs (vx x) <= M /\ Rabs (vy x) <= M.
Proof.
  intros M a b x [A1 A2] [B1 B2] (t & Ht & ->). unfold along. cbn [vx vy]. apply Rabs_le_inv in A1, A2, B1, B2.
  split; apply Rabs_le; nra.
Qed.

Lemma eps_u : eps32 = 2 * u32.
Proof. rewrite GeoRound.eps_num. unfold u32. lra. Qed.
Lemma u_pos : 0 < u32. Proof. unfold u32. lra. Qed.

Lemma off_detour : forall M K dl a b p e, fine M K dl -> dist a b <= 17 / 6 * M -> off dl a b p -> 0 <= e <= 4 * u32 ->
  ~ dist a p + dist p b <= dist a b + e.
Proof.
  intros M K dl a b p e (HM & HK & HS & H8 & HD) HL Off He Hn.
  destruct (GeoOn.detour_close a b p e (proj1 He) Hn) as (z & Hz & Dz). specialize (Off z Hz).
  pose proof u_pos as Pu. pose proof (dist_nonneg a b) as P0. set (L := dist a b) in *.
  assert (Pw : 0 <= e * (2 * L + e)) by nra. pose proof (sqrt_pos (e * (2 * L + e))) as Ps. pose proof (sqrt_sqrt _ Pw) as Es.
  set (q := sqrt (e * (2 * L + e))) in *. assert (Q : 2 * dl <= q) by lra.
  assert (Q2 : (2 * dl) * (2 * dl) <= q * q) by nra. rewrite Es in Q2.
  assert (W : e * (2 * L + e) <= (4 * u32) * (2 * (17 / 6 * M) + 4 * u32)) by (apply Rmult_le_compat; nra). nra.
Qed.
Lemma off_not_near : forall M K dl a b p, fine M K dl -> dist a b <= 17 / 6 * M -> off dl a b p -> ~ near a b p.
Proof.
  intros M K dl a b p Fn HL Off (N & _). pose proof u_pos. rewrite eps_u in N.
  apply (off_detour M K dl a b p (2 * u32) Fn HL Off); lra.
Qed.

Lemma fine_eps : forall M K dl, fine M K dl -> eps32 < dl.
Proof. intros M K dl (_ & _ & _ & H & _). rewrite eps_u. pose proof u_pos. lra. Qed.

Section Box.
Variables (M K dl : R).
Hypothesis Fn : fine M K dl.
Let EL : eps32 < dl := fine_eps M K dl Fn.

Lemma edge_len : forall X (es : list edge) e, boxed M X -> spaced dl X es -> In e es -> dist (pt X (src e)) (pt X (dst e)) <= 17 / 6 * M.
Proof.
  intros X es e B (V & _) He. destruct (V e He) as (_ & H1 & H2).
  destruct (boxed_pt M X _ B H1). destruct (boxed_pt M X _ B H2). now apply box_dist.
Qed.

(** With room to spare, being in the needle of an edge is being on it. *)
Lemma lone_near : forall X (es : list edge) x e, boxed M X -> spaced dl X es -> lone dl X es x -> In e es -> (edge_near X e x <-> edge_on X e x).
Proof.
  intros X es x e B S (F1 & F2) He. destruct (proj1 S e He) as (_ & H1 & H2). split; intros H.
  - destruct (F2 e He) as [G|G]; [exact G|]. exfalso. revert H. apply (off_not_near M K dl); [exact Fn| |exact G]. now apply (edge_len X es).
  - apply on_near; [exact H| |]; [rewrite dist_sym; specialize (F1 _ H1)|specialize (F1 _ H2)]; lra.
Qed.
Lemma lone_fresh : forall X (es : list edge) x, boxed M X -> spaced dl X es -> lone dl X es x -> fresh X es x.
Proof.
  intros X es x B S F. split.
  - intros k Hk. pose proof (proj1 F k Hk). lra.
  - intros e He H. now apply (lone_near X es).
Qed.

Lemma spaced_clear : forall X (es : list edge), boxed M X -> spaced dl X es -> clear X es.
Proof.
  intros X es B S k e Hk He N. destruct (Nat.eq_dec (src e) k) as [E|N1].
  { destruct N as (_ & N & _). rewrite E, dist_self0 in N. pose proof eps32_pos. lra. }
  destruct (Nat.eq_dec (dst e) k) as [E|N2].
  { destruct N as (_ & _ & N). rewrite E, dist_self0 in N. pose proof eps32_pos. lra. }
  revert N. apply (off_not_near M K dl); [exact Fn|now apply (edge_len X es)|]. apply S; auto. unfold touches. tauto.
Qed.

Lemma pairs_impl : forall A (P Q : A -> A -> Prop) l, (forall x y, P x y -> Q x y) -> ForallOrdPairs P l -> ForallOrdPairs Q l.
Proof.
  intros A P Q l H F. induction F as [|a l F1 F2 IH]; constructor; [|exact IH]. eapply Forall_impl; [|exact F1]. intros b. apply H.
Qed.

Lemma minv_inv : forall X (es : list edge) pend, boxed M X -> minv dl X es pend -> inv_drawn X es pend.
Proof.
  intros X es pend B (S & Me & L & Pw). destruct S as (V & A & C).
  split; [exact V|]. split; [intros i j Hi Hj N; specialize (A i j Hi Hj N); lra|].
  split; [apply spaced_clear; [exact B|]; split; [exact V|split; assumption]|].
  split; [exact Me|]. split; [|eapply pairs_impl; [|exact Pw]; cbv beta; intros; lra].
  intros y Hy. right. apply lone_fresh; auto. split; [exact V|split; assumption].
Qed.

Section Step.
Variables (X : list point) (es : list edge) (pend : list point) (x : point) (on : edge -> bool).
Hypothesis B : boxed M X.
Hypothesis I : minv dl X es (x :: pend).
Hypothesis On : forall e, In e es -> (on e = true <-> edge_on X e x).

Let S : spaced dl X es := proj1 I.
Let Lx : lone dl X es x := proj1 (proj2 (proj2 I)) x (or_introl eq_refl).
Let Iv : inv_drawn X es (x :: pend) := minv_inv X es (x :: pend) B I.
Let Fx : fresh X es x := lone_fresh X es x B S Lx.
Lemma on_near' : forall e, In e es -> (on e = true <-> edge_near X e x).
Proof. intros e He. rewrite (On e He). symmetry. now apply (lone_near X es). Qed.

Lemma mstep : minv dl (X ++ [x]) (split_edges on (length X) es) pend.
Proof.
  pose proof (step_inv X es pend x on Iv Fx on_near') as (V' & _ & _ & Me & _).
  assert (PI := piece_inv X es pend x on Iv Fx on_near').
  assert (HO := @half_on U X x). assert (Lg : length (X ++ [x]) = Datatypes.S (length X)) by (rewrite app_length; simpl; lia).
  assert (Dx : forall y, In y pend -> dl <= dist y x).
  { intros y Hy. pose proof I as (_ & _ & _ & Pw). inversion Pw as [|? ? F1 F2]; subst. rewrite Forall_forall in F1. rewrite dist_sym. now apply F1. }
  split; [split; [exact V'|split]|split; [exact Me|split]].
  - intros i j Hi Hj N. rewrite Lg in Hi, Hj.
    destruct (Nat.eq_dec i (length X)) as [->|Ni], (Nat.eq_dec j (length X)) as [->|Nj]; [contradiction| | |].
    + rewrite pt_new, pt_app by lia. apply Lx. lia.
    + rewrite pt_new, pt_app, dist_sym by lia. apply Lx. lia.
    + rewrite !pt_app by lia. apply S; lia.
  - intros k e' Hk He' NT z Hz. rewrite Lg in Hk. apply split_edges_in in He'. destruct He' as (e & He & H).
    specialize (PI e e' He H). specialize (HO e').
    destruct (Nat.eq_dec k (length X)) as [->|Nk].
    + rewrite pt_new. destruct PI as [(F & ->)|(_ & D & _)]; [|exfalso; apply NT; now right].
      apply (edge_on_app X [x] es) in Hz; [|exact (proj1 S)|exact He].
      destruct (proj2 Lx e He) as [O|O]; [apply On in O; [congruence|exact He]|]. now apply O.
    + rewrite pt_app by lia. destruct PI as [(F & ->)|(_ & D & a & b & Sr & La & Lb & N & Ta & Tk & Ox & Nx & Q)].
      * apply (edge_on_app X [x] es) in Hz; [|exact (proj1 S)|exact He]. apply (proj2 (proj2 S) k e); auto. lia.
      * subst a. apply HO in Hz; auto.
        destruct (Nat.eq_dec k b) as [->|Nb].
        -- apply Rle_trans with (dist (pt X b) x); [rewrite dist_sym; now apply Lx|].
           apply (behind (pt X (src e')) (pt X b) x (pt X b) z Ox Hz). apply on_left.
        -- assert (Hz' : edge_on X e z) by (apply Q; eapply on_half; eassumption).
           apply (proj2 (proj2 S) k e); auto; [lia|]. intros T. destruct (Tk k T) as [E|E]; [|contradiction].
           apply NT. now left.
  - intros y Hy. destruct (proj1 (proj2 (proj2 I)) y (or_intror Hy)) as (L1 & L2). split.
    + intros k Hk. rewrite Lg in Hk. destruct (Nat.eq_dec k (length X)) as [->|Nk].
      * rewrite pt_new. now apply Dx.
      * rewrite pt_app by lia. apply L1. lia.
    + intros e' He'. apply split_edges_in in He'. destruct He' as (e & He & H). specialize (PI e e' He H). specialize (HO e').
      destruct PI as [(F & ->)|(_ & D & a & b & Sr & La & Lb & N & Ta & Tk & Ox & Nx & Q)].
      * destruct (L2 e He) as [O|O]; [left|right].
        -- now apply (edge_on_app X [x] es); [exact (proj1 S)| |].
        -- intros z Hz. apply O. now apply (edge_on_app X [x] es) in Hz; [|exact (proj1 S)|].
      * subst a. destruct (L2 e He) as [O|O].
        -- apply Q in O. destruct (two_on _ _ _ _ Ox O) as [G|G].
           ++ left. apply HO; auto.
           ++ right. intros z Hz. apply HO in Hz; auto. apply Rle_trans with (dist y x); [now apply Dx|].
              exact (behind _ _ _ _ _ Ox Hz G).
        -- right. intros z Hz. apply HO in Hz; auto. apply O. apply Q. eapply on_half; eassumption.
  - pose proof I as (_ & _ & _ & Pw). now inversion Pw.
Qed.
Lemma mstep_covers : forall y, covers (X ++ [x]) (split_edges on (length X) es) y <-> covers X es y.
Proof. exact (step_covers X es pend x on Iv Fx on_near'). Qed.
End Step.
End Box.

(** ** A drawing close to one with room to spare *)
Lemma touch_join : forall k (e : edge), touches k e -> exists a, joins k a e.
Proof. intros k e [H|H]; [exists (dst e)|exists (src e)]; unfold joins; auto. Qed.
Lemma join_on : forall ps k a (e : edge) x, joins k a e -> (edge_on ps e x <-> on_segment (pt ps k) (pt ps a) x).
Proof. intros ps k a e x [(<- & <-)|(<- & <-)]; unfold edge_on; [reflexivity|]. split; apply on_sym. Qed.

Section Perturb.
Variables (dl h : R) (X P : list point) (es : list edge).
Hypothesis I : minv dl X es [].
Hypothesis Lg : length P = length X.
Hypothesis Cl : forall k, (k < length X)%nat -> dist (pt P k) (pt X k) <= h.
Hypothesis Hh : 2 * h < dl.

Lemma on_shadow : forall e z, In e es -> edge_on P e z -> exists y, edge_on X e y /\ dist z y <= h.
Proof.
  intros e z He (t & Ht & ->). destruct (proj1 (proj1 I) e He) as (_ & H1 & H2).
  exists (along (pt X (src e)) (pt X (dst e)) t). split; [exists t; auto|]. apply along_close; auto.
Qed.
Lemma off_shadow : forall k e, (k < length X)%nat -> In e es -> ~ touches k e -> edge_off (dl - 2 * h) P e (pt P k).
Proof.
  intros k e Hk He NT z Hz. destruct (on_shadow e z He Hz) as (y & Hy & D).
  pose proof (proj2 (proj2 (proj1 I)) k e Hk He NT y Hy) as G. pose proof (Cl k Hk) as C.
  pose proof (triangle (pt X k) (pt P k) y). pose proof (triangle (pt P k) z y). rewrite (dist_sym (pt X k) (pt P k)) in *. lra.
Qed.
Lemma spaced_shadow : spaced (dl - 2 * h) P es.
Proof.
  destruct I as ((V & A & C) & _). split; [|split].
  - intros e He. rewrite Lg. now apply V.
  - intros i j Hi Hj N. rewrite Lg in Hi, Hj. pose proof (A i j Hi Hj N). pose proof (Cl i Hi). pose proof (Cl j Hj).
    pose proof (triangle (pt X i) (pt P i) (pt X j)). pose proof (triangle (pt P i) (pt P j) (pt X j)).
    rewrite (dist_sym (pt X i) (pt P i)) in *. lra.
  - intros k e Hk He NT. rewrite Lg in Hk. now apply off_shadow.
Qed.

Lemma shadow_nodes : forall k e, (k < length X)%nat -> In e es -> ~ touches k e -> ~ edge_on P e (pt P k).
Proof.
  intros k e Hk He NT H. pose proof (off_shadow k e Hk He NT (pt P k) H) as G. rewrite dist_self0 in G. lra.
Qed.

Lemma shadow_planar : planar_drawing (pt P) (length P) es.
Proof.
  rewrite Lg. destruct I as ((V & A & C) & Me & _).
  assert (Pdl : 0 <= h -> 0 < dl) by lra.
  split; [exact shadow_nodes|].
  intros i j e f x N Hi Hj H1 H2. pose proof (nth_error_In _ _ Hi) as He. pose proof (nth_error_In _ _ Hj) as Hf.
  pose proof (proj1 (pairs_nth _ (meet_sym X []) es) Me i j e f N Hi Hj) as Mef.
  destruct (V e He) as (Ne & Le1 & Le2). destruct (V f Hf) as (Nf & Lf1 & Lf2).
  assert (Ph : 0 <= h) by (pose proof (Cl _ Le1); pose proof (dist_nonneg (pt P (src e)) (pt X (src e))); lra). specialize (Pdl Ph).
  assert (Inj : forall i j, (i < length X)%nat -> (j < length X)%nat -> pt X i = pt X j -> i = j).
  { intros a b Ha Hb E. destruct (Nat.eq_dec a b) as [|Nab]; [assumption|]. pose proof (A a b Ha Hb Nab) as G. rewrite E, dist_self0 in G. lra. }
  assert (Lt : forall k g, In g es -> touches k g -> (k < length X)%nat) by (intros k g Hg [<-|<-]; apply V; exact Hg).
  destruct (Nat.eq_dec (src e) (src f)) as [E1|N1]; [|destruct (Nat.eq_dec (src e) (dst f)) as [E2|N2];
    [|destruct (Nat.eq_dec (dst e) (src f)) as [E3|N3]; [|destruct (Nat.eq_dec (dst e) (dst f)) as [E4|N4]]]].
  5:{ exfalso. destruct H1 as (t & Ht & ->). destruct H2 as (s & Hs & E).
    assert (G : dl <= dist (along (pt X (src e)) (pt X (dst e)) t) (along (pt X (src f)) (pt X (dst f)) s)).
    { apply (segments_apart dl (pt X (src e)) (pt X (dst e)) (pt X (src f)) (pt X (dst f))).
      - intros Q. apply Ne. now apply Inj.
      - intros Q. apply Nf. now apply Inj.
      - apply (C (src f) e Lf1 He). unfold touches. intros [Q|Q]; congruence.
      - apply (C (dst f) e Lf2 He). unfold touches. intros [Q|Q]; congruence.
      - apply (C (src e) f Le1 Hf). unfold touches. intros [Q|Q]; congruence.
      - apply (C (dst e) f Le2 Hf). unfold touches. intros [Q|Q]; congruence.
      - intros y Hy1 Hy2. destruct (Mef y Hy1 Hy2) as [(k & [T1|T1] & [T2|T2] & _)|[]]; congruence.
      - exists t; auto.
      - exists s; auto. }
    pose proof (along_close (pt P (src e)) (pt P (dst e)) (pt X (src e)) (pt X (dst e)) t h Ht (Cl _ Le1) (Cl _ Le2)) as G1.
    pose proof (along_close (pt P (src f)) (pt P (dst f)) (pt X (src f)) (pt X (dst f)) s h Hs (Cl _ Lf1) (Cl _ Lf2)) as G2.
    rewrite <- E in G2. pose proof (triangle (along (pt X (src e)) (pt X (dst e)) t) (along (pt P (src e)) (pt P (dst e)) t) (along (pt X (src f)) (pt X (dst f)) s)) as G3.
    rewrite (dist_sym _ (along (pt P (src e)) (pt P (dst e)) t)) in G3. lra. }
  all: assert (Sh : exists k, touches k e /\ touches k f) by
    (first [exists (src e); unfold touches; solve [auto|rewrite E1; auto]|exists (dst e); unfold touches; auto]).
  all: destruct Sh as (k & Te & Tf); exists k; split; [exact Te|]; split; [exact Tf|].
  all: destruct (touch_join k e Te) as (a & Ja); destruct (touch_join k f Tf) as (b & Jb).
  all: apply (join_on P k a e x Ja) in H1; apply (join_on P k b f x Jb) in H2.
  all: assert (Nka : k <> a) by (destruct Ja as [(<- & <-)|(<- & <-)]; congruence).
  all: assert (Nkb : k <> b) by (destruct Jb as [(<- & <-)|(<- & <-)]; congruence).
  all: assert (La : (a < length X)%nat) by (destruct Ja as [(<- & <-)|(<- & <-)]; assumption).
  all: assert (Lb : (b < length X)%nat) by (destruct Jb as [(<- & <-)|(<- & <-)]; assumption).
  all: assert (Nab : a <> b) by (intros <-;
    assert (Mid : on_segment (pt X k) (pt X a) (along (pt X k) (pt X a) (/ 2))) by (exists (/ 2); split; [lra|reflexivity]);
    destruct (Mef _ (proj2 (join_on X k a e _ Ja) Mid) (proj2 (join_on X k a f _ Jb) Mid)) as [(m & Tm & _ & Em)|[]];
    pose proof (A k a (Lt k e He Te) La Nka) as Dka;
    assert (Em' : pt X m = pt X k \/ pt X m = pt X a) by
      (destruct Ja as [(<- & <-)|(<- & <-)]; destruct Tm as [<-|<-]; auto);
    pose proof (dist_nonneg (pt X k) (pt X a)); pose proof (dist_sq (pt X k) (pt X a)) as DQ;
    unfold along in Em; destruct (pt X k) as [kx ky], (pt X a) as [ax ay]; cbn [vx vy] in *;
    destruct Em' as [Q|Q]; rewrite <- Em in Q; injection Q as Q1 Q2; nra).
  all: destruct (fork _ _ _ _ H1 H2) as [G|[G|G]]; [exact G| |]; exfalso.
  all: first [apply (shadow_nodes a f La Hf); [|now apply (join_on P k b f)]; destruct Jb as [(<- & <-)|(<- & <-)]; intros [Q|Q]; congruence
    |apply (shadow_nodes b e Lb He); [|now apply (join_on P k a e)]; destruct Ja as [(<- & <-)|(<- & <-)]; intros [Q|Q]; congruence].
Qed.
End Perturb.
End Drawing.
