(** * Distance thresholds and the point-on-segment test in f32, in terms of exact distances. *)
From Coq Require Import ZArith Reals Lia Lra Psatz List Bool.
From Flocq Require Import Core.Core IEEE754.BinarySingleNaN.
From Verif Require Import Scalar Utils F32 Laws PlaneSpec GeoSpec Format RoundSpec Rounding NearCalc GeoRound Closest UtilsReal.
Import ListNotations.
Local Open Scope R_scope.

(** ** Plane geometry *)
Lemma dist_nonneg : forall p q, 0 <= dist p q. Proof. intros. apply sqrt_pos. Qed.
Lemma dist_sq : forall p q, dist p q * dist p q = (vx q - vx p) * (vx q - vx p) + (vy q - vy p) * (vy q - vy p).
Proof. intros. unfold dist. apply sqrt_sqrt. apply Rplus_le_le_0_compat; apply Rle_0_sqr. Qed.
Lemma dist_comm : forall p q, dist p q = dist q p.
Proof. intros. unfold dist. f_equal. ring. Qed.
Lemma sq_le : forall x y, 0 <= y -> x * x <= y * y -> x <= y.
Proof. intros. nra. Qed.
(** p lies in the ellipse with foci a, b: it is close to the segment. *)
Lemma detour_close : forall (a b p : point) e, 0 <= e -> dist a p + dist p b <= dist a b + e ->
  exists x, on_segment a b x /\ dist p x <= sqrt (e * (2 * dist a b + e)) / 2.
Proof.
  intros a b p e Pe H. pose proof (dist_nonneg a p) as N1. pose proof (dist_nonneg p b) as N2. pose proof (dist_nonneg a b) as N3.
  pose proof (dist_sq a p) as Q1. pose proof (dist_sq p b) as Q2. pose proof (dist_sq a b) as Q3.
  set (m := dist a p) in *. set (n := dist p b) in *. set (L := dist a b) in *.
  destruct a as [ax ay], b as [bx by'], p as [px py]. cbn [vx vy] in *.
  set (w := e * (2 * L + e)). assert (Pw : 0 <= w) by (unfold w; nra).
  pose proof (sqrt_pos w) as Ps. pose proof (sqrt_sqrt w Pw) as Es.
  assert (SL : sqrt w <= L + e) by (apply sq_le; [lra|rewrite Es; unfold w; nra]).
  assert (far : forall z o, 0 <= z -> 0 <= o -> z + o <= L + e -> L * L + o * o <= z * z -> o <= sqrt w / 2).
  { intros z o Pz Po S Q. assert (2 * (L + e) * o <= w) by (unfold w; nra).
    assert (2 * (L + e) * o <= sqrt w * (L + e)) by (rewrite <- Es in H0; nra).
    destruct (Req_dec (L + e) 0); [|nra]. lra. }
  set (t := (px - ax) * (bx - ax) + (py - ay) * (by' - ay)).
  destruct (Rle_dec t 0) as [T0|T0].
  - exists (P2 ax ay). split; [exists 0; split; [lra|]; unfold along; cbn; f_equal; ring|].
    rewrite dist_comm. change (m <= sqrt w / 2). apply (far n m); try lra. unfold t in T0. nra.
  - destruct (Rle_dec (L * L) t) as [T1|T1].
    + exists (P2 bx by'). split; [exists 1; split; [lra|]; unfold along; cbn; f_equal; ring|].
      change (n <= sqrt w / 2). apply (far m n); try lra. unfold t in T1. nra.
    + assert (PL : 0 < L * L) by lra. set (s := t / (L * L)). assert (Hs : s * (L * L) = t) by (unfold s; field; intro Z; rewrite Z in PL; lra).
      assert (0 <= s <= 1) by (split; nra).
      exists (P2 (ax + s * (bx - ax)) (ay + s * (by' - ay))). split; [exists s; split; [assumption|reflexivity]|].
      apply sq_le; [lra|]. rewrite dist_sq. cbn [vx vy].
      set (h := _ + _). assert (Eh : h * (L * L) = (m * m) * (L * L) - t * t).
      { rewrite Q1. assert (E : h = ((px - ax) * (px - ax) + (py - ay) * (py - ay)) - 2 * s * t + s * s * (L * L)).
        { rewrite Q3. unfold h, t. ring. }
        rewrite E. replace (s * s * (L * L)) with (s * t) by (rewrite <- Hs; ring).
        replace ((_ - 2 * s * t + s * t) * (L * L)) with (((px - ax) * (px - ax) + (py - ay) * (py - ay)) * (L * L) - t * (s * (L * L))) by ring.
        rewrite Hs. ring. }
      assert (Et : 2 * t = m * m + L * L - n * n) by (rewrite Q1, Q2, Q3; unfold t; ring).
      replace (sqrt w / 2 * (sqrt w / 2)) with (w / 4) by (transitivity (sqrt w * sqrt w / 4); [now rewrite Es|field]).
      (* 4 L^2 h = (2mL)^2 - (2t)^2 = (2mL+2t)(2mL-2t) = ((m+L)^2-n^2)(n^2-(m-L)^2) *)
      assert (K : 4 * (h * (L * L)) = ((m + n) * (m + n) - L * L) * (L * L - (m - n) * (m - n))).
      { rewrite Eh. replace (4 * (m * m * (L * L) - t * t)) with (4 * (m * m * (L * L)) - (2 * t) * (2 * t)) by ring. rewrite Et. ring. }
      assert (B1 : (m + n) * (m + n) - L * L <= w) by (unfold w; nra).
      assert (Ph : 0 <= h) by (apply Rplus_le_le_0_compat; apply Rle_0_sqr).
      assert (B2 : L * L - (m - n) * (m - n) <= L * L) by (pose proof (Rle_0_sqr (m - n)) as Z; unfold Rsqr in Z; lra).
      assert (C : 4 * (h * (L * L)) <= w * (L * L)); [|apply Rmult_le_reg_r with (L * L); [exact PL|lra]].
      rewrite K. destruct (Rle_dec 0 (L * L - (m - n) * (m - n))) as [P|P].
      * apply Rle_trans with (w * (L * L - (m - n) * (m - n))); [apply Rmult_le_compat_r; assumption|apply Rmult_le_compat_l; assumption].
      * assert (0 <= (m + n) * (m + n) - L * L \/ (m + n) * (m + n) - L * L < 0) as [G|G] by lra; [|nra].
        apply Rle_trans with 0; [nra|apply Rmult_le_pos; lra].
Qed.

Lemma max_big : bpow radix2 62 <= B2R (f32_of 16777215 104).
Proof.
  assert (E : B2SF (f32_of 16777215 104) = SpecFloat.S754_finite false 16777215 104) by reflexivity.
  destruct (f32_of 16777215 104) as [s|s| |s m e H]; try discriminate E. injection E as -> -> ->. cbn [B2R cond_Zopp]. unfold F2R. cbn [Fnum Fexp].
  apply Rle_trans with (1 * bpow radix2 104); [rewrite Rmult_1_l; apply bpow_le; lia|]. apply Rmult_le_compat_r; [apply bpow_ge_0|lra].
Qed.
Lemma max_fin : is_finite (f32_of 16777215 104) = true. Proof. vm_compute. reflexivity. Qed.
Lemma inf_not_lt : forall x : f32, is_finite x = true -> Bltb (B754_infinity false) x = false.
Proof. intros [s|s| |[|] m e H] Fx; try discriminate; reflexivity. Qed.

Section On.
Variable lm : Libm.
Local Notation F := (FO lm).

Lemma inbox_dist : forall a b : Vec2 F, inbox a -> inbox b -> dist (real_point a) (real_point b) <= bpow radix2 62.
Proof.
  intros [ax ay] [bx by'] (_ & A1 & A2) (_ & B1 & B2). cbn [vx vy real_point] in *.
  apply Rabs_le_inv in A1, A2, B1, B2. apply sq_le; [apply bpow_ge_0|]. rewrite dist_sq. cbn [vx vy real_point].
  change 62%Z with (2 + 60)%Z. rewrite bpow_plus. change (bpow radix2 2) with 4. set (M := bpow radix2 60) in *.
  set (X := B2R bx - B2R ax). set (Y := B2R by' - B2R ay). assert (- (2 * M) <= X <= 2 * M) by (unfold X; lra). assert (- (2 * M) <= Y <= 2 * M) by (unfold Y; lra). nra.
Qed.
Lemma inbox_fin : forall a : Vec2 F, inbox a -> pfin a. Proof. now intros a [H _]. Qed.
Lemma distance_box : forall a b : Vec2 F, inbox a -> inbox b -> within (32 / 10 * u32 * dist (real_point a) (real_point b) + bpow radix2 (-73)) (distance a b : f32) (dist (real_point a) (real_point b)).
Proof.
  intros a b Ha Hb. apply distance_error; try now apply inbox_fin. pose proof (inbox_dist a b Ha Hb). apply Rle_trans with (bpow radix2 62); [assumption|apply bpow_le; lia].
Qed.

(** ** The nearest point *)
Lemma closest_real : forall (t : Vec2 F) ps i d, pfin t -> Forall pfin ps -> find_closest_to t ps = (i, d) ->
  forall j q, nth_error ps j = Some q -> dist (real_point t) (real_point q) <= bpow radix2 61 ->
  exists p, nth_error ps i = Some p /\ d = distance t p /\
    dist (real_point t) (real_point p) <= (1 + 7 * u32) * dist (real_point t) (real_point q) + bpow radix2 (-71).
Proof.
  intros t ps i d Ft Fps H j q Hq Lq. rewrite Forall_forall in Fps. assert (Fq : pfin q) by (apply Fps; eapply nth_error_In; exact Hq).
  pose proof (dist_nonneg (real_point t) (real_point q)) as Pq.
  assert (B61 : bpow radix2 63 = 4 * bpow radix2 61) by (change 63%Z with (2 + 61)%Z; now rewrite bpow_plus).
  assert (B62 : bpow radix2 62 = 2 * bpow radix2 61) by (change 62%Z with (1 + 61)%Z; now rewrite bpow_plus).
  assert (S73 : bpow radix2 (-71) = 4 * bpow radix2 (-73)) by (change (-71)%Z with (2 + -73)%Z; now rewrite bpow_plus).
  assert (S1 : bpow radix2 (-73) <= / 100 * bpow radix2 61).
  { apply Rle_trans with (/ 128 * bpow radix2 61). - change (/ 128) with (bpow radix2 (-7)). rewrite <- bpow_plus. apply bpow_le. lia. - pose proof (bpow_gt_0 radix2 61). lra. }
  destruct (distance_error lm t q Ft Fq ltac:(pose proof (bpow_gt_0 radix2 61); lra)) as [Fdq Hdq]. apply Rabs_le_inv in Hdq.
  set (dq := dist (real_point t) (real_point q)) in *.
  assert (Q62 : B2R (distance t q : f32) < bpow radix2 62) by (unfold u32 in Hdq; pose proof (bpow_gt_0 radix2 61); lra).
  apply (find_closest_spec (FO_laws lm)) in H. destruct H as [(_ & _ & H)|(p & Hp & -> & Hm & H)].
  - exfalso. specialize (H j q Hq). cbn [olt FO cmax] in H.
    rewrite (Bltb_correct 24 128 _ _ Fdq max_fin) in H. revert H. rewrite Rlt_bool_true; [discriminate|].
    apply Rlt_le_trans with (1 := Q62). apply max_big.
  - exists p. split; [exact Hp|]. split; [reflexivity|]. assert (Fp : pfin p) by (apply Fps; eapply nth_error_In; exact Hp).
    destruct (H j q Hq) as [Hle _]. cbn [olt FO] in Hle, Hm.
    destruct (Rle_dec (bpow radix2 63) (dist (real_point t) (real_point p))) as [L|L].
    + exfalso. destruct (distance_far lm t p Ft Fp L) as [E|[Fd G]].
      * rewrite E in Hm. cbn [cmax FO] in Hm. rewrite (inf_not_lt _ max_fin) in Hm. discriminate Hm.
      * rewrite (Bltb_correct 24 128 _ _ Fdq Fd) in Hle. revert Hle. rewrite Rlt_bool_true; [discriminate|lra].
    + destruct (distance_error lm t p Ft Fp ltac:(lra)) as [Fd G]. apply Rabs_le_inv in G.
      rewrite (Bltb_correct 24 128 _ _ Fdq Fd) in Hle. destruct (Rlt_bool_spec (B2R (distance t q : f32)) (B2R (distance t p : f32))) as [|Hle']; [discriminate|].
      pose proof (bpow_gt_0 radix2 (-73)). unfold u32 in *. lra.
Qed.

(** ** The point-on-segment test *)
Lemma on_values : forall (a b p : Vec2 F) i, inbox a -> inbox b -> inbox p ->
  let A := dist (real_point a) (real_point p) in let B := dist (real_point p) (real_point b) in let L := dist (real_point a) (real_point b) in
  exists r ap pb, is_on_line_segment a b p i = (Rlt_bool (Rabs r) eps32 && Rlt_bool eps32 ap && Rlt_bool eps32 pb)%bool /\
    Rabs (r - (A + B - L)) <= 43 / 10 * u32 * (A + B) + 33 / 10 * u32 * L + 11 / 10 * u32 * Rabs r + bpow radix2 (-70) /\
    Rabs (ap - A) <= 32 / 10 * u32 * A + bpow radix2 (-73) /\ Rabs (pb - B) <= 32 / 10 * u32 * B + bpow radix2 (-73).
Proof.
  intros a b p i Ha Hb Hp A B L. pose proof (distance_box a p Ha Hp) as DA. pose proof (distance_box p b Hp Hb) as DB. pose proof (distance_box a b Ha Hb) as DL.
  fold A in DA. fold B in DB. fold L in DL.
  pose proof (inbox_dist a p Ha Hp) as UA. pose proof (inbox_dist p b Hp Hb) as UB. pose proof (inbox_dist a b Ha Hb) as UL. fold A in UA. fold B in UB. fold L in UL.
  assert (PA : 0 <= A) by apply dist_nonneg. assert (PB : 0 <= B) by apply dist_nonneg. assert (PL : 0 <= L) by apply dist_nonneg.
  unfold is_on_line_segment. generalize dependent (distance a p : f32). intros ap [FA DA]. generalize dependent (distance p b : f32). intros pb [FB DB].
  generalize dependent (distance a b : f32). intros ab [FL DL]. apply Rabs_le_inv in DA, DB, DL.
  assert (B62 : bpow radix2 128 = bpow radix2 64 * (4 * bpow radix2 62)) by (change 128%Z with (64 + (2 + 62))%Z; now rewrite !bpow_plus).
  assert (B64 : 16 <= bpow radix2 64) by (apply Rle_trans with (bpow radix2 4); [cbn; lra|apply bpow_le; lia]).
  assert (P62 : 1 <= bpow radix2 62) by (change 1 with (bpow radix2 0); apply bpow_le; lia).
  assert (BB : 64 * bpow radix2 62 <= bpow radix2 128) by nra.
  assert (S73 : bpow radix2 (-70) = 8 * bpow radix2 (-73)) by (change (-70)%Z with (3 + -73)%Z; now rewrite bpow_plus).
  assert (K0 : 0 < bpow radix2 (-73) <= 1) by (split; [apply bpow_gt_0|change 1 with (bpow radix2 0); apply bpow_le; lia]).
  set (k := bpow radix2 (-73)) in *. set (M := bpow radix2 62) in *.
  destruct (add_ok (single lm) ap pb FA FB) as (Fs & d1 & Hd1 & Es).
  { rewrite huge_eq, u_eq. apply Rle_lt_trans with (16 * M); [|lra]. assert (Rabs (B2R ap + B2R pb) <= 8 * M) by (apply Rabs_le; unfold u32 in *; lra).
    unfold u32 in *. change (Rabs (B2R ap + B2R pb) * (1 + / 16777216) <= 16 * M). pose proof (Rabs_pos (B2R ap + B2R pb)). lra. }
  rewrite u_eq in Hd1. apply Rabs_le_inv in Hd1.
  change (B2R (Bplus mode_NE ap pb : f32) = (B2R ap + B2R pb) * (1 + d1)) in Es. change (is_finite (Bplus mode_NE ap pb : f32) = true) in Fs.
  set (s := Bplus mode_NE ap pb : f32) in *.
  assert (Hs : Rabs (B2R s - (A + B)) <= 42 / 10 * u32 * (A + B) + 3 * k + u32 / 10 * (A + B)).
  { rewrite Es. replace ((B2R ap + B2R pb) * (1 + d1) - (A + B)) with ((B2R ap - A) + (B2R pb - B) + d1 * (B2R ap + B2R pb)) by ring.
    assert (Rabs (d1 * (B2R ap + B2R pb)) <= u32 * (11 / 10 * (A + B) + 2 * k)).
    { rewrite Rabs_mult. apply Rmult_le_compat; try apply Rabs_pos; [apply Rabs_le; lra|]. apply Rabs_le. unfold u32 in *. lra. }
    apply Rabs_le_inv in H. apply Rabs_le. unfold u32 in *. lra. }
  apply Rabs_le_inv in Hs.
  destruct (sub_ok (single lm) s ab Fs FL) as (Fr & d2 & Hd2 & Er).
  { rewrite huge_eq, u_eq. apply Rle_lt_trans with (16 * M); [|lra]. assert (Rabs (B2R s - B2R ab) <= 8 * M) by (apply Rabs_le; unfold u32 in *; lra).
    unfold u32 in *. change (Rabs (B2R s - B2R ab) * (1 + / 16777216) <= 16 * M). pose proof (Rabs_pos (B2R s - B2R ab)). lra. }
  rewrite u_eq in Hd2. change (B2R (Bminus mode_NE s ab : f32) = (B2R s - B2R ab) * (1 + d2)) in Er. change (is_finite (Bminus mode_NE s ab : f32) = true) in Fr.
  assert (AB : forall x X e, 0 <= X -> Rabs (x - X) <= e -> Rabs (Rabs x - X) <= e).
  { intros x X e PX H. rewrite <- (Rabs_pos_eq X) at 1 by exact PX. eapply Rle_trans; [apply Rabs_triang_inv2|exact H]. }
  exists (B2R (Bminus mode_NE s ab : f32)), (Rabs (B2R ap)), (Rabs (B2R pb)). destruct (eps_val lm) as [Fe Ee]. split; [|split; [|split; apply AB; try assumption; apply Rabs_le; lra]].
  - cbn [oabs olt oadd osub FO ceps] in *. fold s. cbn [ceps FO] in Ee.
    rewrite !(Bltb_correct 24 128 _ _) by (rewrite ?is_finite_Babs; assumption). rewrite !B2R_Babs, Ee. reflexivity.
  - rewrite Er at 1. assert (R1 : Rabs (B2R s - B2R ab) <= (1 + 2 * u32) * Rabs (B2R (Bminus mode_NE s ab : f32))).
    { rewrite Er, Rabs_mult. apply Rabs_le_inv in Hd2. rewrite (Rabs_pos_eq (1 + d2)) by (unfold u32 in *; lra). pose proof (Rabs_pos (B2R s - B2R ab)).
      assert (1 <= (1 + 2 * u32) * (1 + d2)) by (unfold u32 in *; lra). nra. }
    set (r := B2R (Bminus mode_NE s ab : f32)) in *.
    replace ((B2R s - B2R ab) * (1 + d2) - (A + B - L)) with ((B2R s - (A + B)) - (B2R ab - L) + d2 * (B2R s - B2R ab)) by ring.
    assert (R2 : Rabs (d2 * (B2R s - B2R ab)) <= u32 * ((1 + 2 * u32) * Rabs r)).
    { rewrite Rabs_mult. apply Rmult_le_compat; try apply Rabs_pos; assumption. }
    apply Rabs_le_inv in R2. pose proof (Rabs_pos r). rewrite S73. apply Rabs_le. unfold u32 in *. lra.
Qed.

Lemma small70 : 0 < bpow radix2 (-70) <= / 1000000 * u32 * eps32.
Proof.
  split; [apply bpow_gt_0|]. change (-70)%Z with (3 + -73)%Z. rewrite bpow_plus. pose proof small73. change (bpow radix2 3) with 8. rewrite eps_num in *. unfold u32 in *. lra.
Qed.
Lemma on_sound : forall (a b p : Vec2 F) i, inbox a -> inbox b -> inbox p -> is_on_line_segment a b p i = true ->
  let A := dist (real_point a) (real_point p) in let B := dist (real_point p) (real_point b) in let L := dist (real_point a) (real_point b) in
  A + B <= L + (eps32 * (1 + 6 * u32) + 8 * u32 * L) /\ eps32 * (1 - 4 * u32) < A /\ eps32 * (1 - 4 * u32) < B.
Proof.
  intros a b p i Ha Hb Hp H A B L. destruct (on_values a b p i Ha Hb Hp) as (r & ap & pb & E & H1 & H2 & H3). fold A B L in H1, H2, H3.
  rewrite E in H. apply andb_prop in H. destruct H as [H G3]. apply andb_prop in H. destruct H as [G1 G2].
  destruct (Rlt_bool_spec (Rabs r) eps32) as [K1|]; [|discriminate]. destruct (Rlt_bool_spec eps32 ap) as [K2|]; [|discriminate].
  destruct (Rlt_bool_spec eps32 pb) as [K3|]; [|discriminate]. pose proof small73. pose proof small70 as S70. rewrite eps_num in *.
  assert (PA : 0 <= A) by apply dist_nonneg. assert (PB : 0 <= B) by apply dist_nonneg. assert (PL : 0 <= L) by apply dist_nonneg.
  pose proof (Rle_abs r) as R1. apply Rabs_le_inv in H1, H2, H3. unfold u32 in *. repeat split; lra.
Qed.
Lemma on_complete : forall (a b p : Vec2 F) i, inbox a -> inbox b -> inbox p ->
  let A := dist (real_point a) (real_point p) in let B := dist (real_point p) (real_point b) in let L := dist (real_point a) (real_point b) in
  A + B - L + 8 * u32 * (A + B) < eps32 * (1 - 6 * u32) -> eps32 * (1 + 4 * u32) < A -> eps32 * (1 + 4 * u32) < B ->
  is_on_line_segment a b p i = true.
Proof.
  intros a b p i Ha Hb Hp A B L G1 G2 G3. destruct (on_values a b p i Ha Hb Hp) as (r & ap & pb & E & H1 & H2 & H3). fold A B L in H1, H2, H3.
  assert (PA : 0 <= A) by apply dist_nonneg. assert (PB : 0 <= B) by apply dist_nonneg. assert (PL : 0 <= L) by apply dist_nonneg.
  assert (TL : L <= A + B) by apply triangle.
  pose proof small73. pose proof small70 as S70.
  rewrite E, !Rlt_bool_true; [reflexivity| | |].
  - apply Rabs_le_inv in H3. rewrite eps_num in *. unfold u32 in *. lra.
  - apply Rabs_le_inv in H2. rewrite eps_num in *. unfold u32 in *. lra.
  - assert (Q : Rabs r <= (A + B - L) + Rabs (r - (A + B - L))).
    { replace r with ((A + B - L) + (r - (A + B - L))) at 1 by ring. eapply Rle_trans; [apply Rabs_triang|]. rewrite (Rabs_pos_eq (A + B - L)) by lra. lra. }
    set (w := Rabs (r - (A + B - L))) in *. set (z := Rabs r) in *. rewrite eps_num in *. unfold u32 in *. lra.
Qed.
End On.
