(** * The geometric decisions of the graph code in f32 on small integer grids. *)
From Coq Require Import ZArith Reals List Bool Lia Lra Psatz Arith.
From Flocq Require Import Core.Core IEEE754.BinarySingleNaN.
From Verif Require Import Scalar Utils PlaneSpec F32 Laws UtilsReal UtilsF32 PolyF32 PolyNewF32 GridUtils GridSeg.
Import ListNotations.
Local Open Scope R_scope.

(** ** Rounding commutes with scaling away from underflow *)
Lemma rnd_scale : forall x e, (-60 <= e)%Z -> x = 0 \/ bpow radix2 (-60) <= Rabs x ->
  rnd32 (x * bpow radix2 e) = rnd32 x * bpow radix2 e.
Proof.
  intros x e He [->|Hx].
  - rewrite Rmult_0_l, round_0 by apply rnd32_valid. ring.
  - assert (N : x <> 0) by (intros ->; rewrite Rabs_R0 in Hx; pose proof (bpow_gt_0 radix2 (-60)); lra).
    assert (M : (-60 < mag radix2 x)%Z) by (apply (mag_gt_bpow radix2 x (-60)); exact Hx).
    assert (C : cexp radix2 fexp32 (x * bpow radix2 e) = (cexp radix2 fexp32 x + e)%Z).
    { unfold cexp. rewrite mag_mult_bpow by exact N.
      change (fexp32 (mag radix2 x + e)) with (Z.max (mag radix2 x + e - 24) (-149)).
      change (fexp32 (mag radix2 x)) with (Z.max (mag radix2 x - 24) (-149)). lia. }
    unfold round, F2R, scaled_mantissa; cbn [Fnum Fexp]. rewrite C.
    rewrite bpow_plus, <- Rmult_assoc. do 2 f_equal. f_equal. f_equal.
    replace (- (cexp radix2 fexp32 x + e))%Z with (- e + - cexp radix2 fexp32 x)%Z by ring.
    rewrite bpow_plus, <- Rmult_assoc, (Rmult_assoc x), <- bpow_plus.
    replace (e + - e)%Z with 0%Z by ring. cbn [bpow]. ring.
Qed.

(** ** (j / l) * l = j for 0 <= j <= l <= 12 *)
Definition back_ok (l j : nat) : bool :=
  Beqb (Bmult mode_NE (Bdiv mode_NE (f32_Z (Z.of_nat j)) (f32_Z (Z.of_nat l))) (f32_Z (Z.of_nat l))) (f32_Z (Z.of_nat j)).
Lemma back_table : forallb (fun l => forallb (back_ok l) (seq 0 (S l))) (seq 1 12) = true.
Proof. vm_compute. reflexivity. Qed.
(** The bound 12 cannot be raised. *)
Lemma back_13 : back_ok 13 7 = false.
Proof. vm_compute. reflexivity. Qed.

Lemma quot_back : forall j l, (0 <= j <= l)%Z -> (1 <= l <= 12)%Z ->
  rnd32 (rnd32 (IZR j / IZR l) * IZR l) = IZR j.
Proof.
  intros j l Hj Hl. pose proof back_table as B. rewrite forallb_forall in B.
  specialize (B (Z.to_nat l)). rewrite forallb_forall in B.
  specialize (B ltac:(apply in_seq; lia) (Z.to_nat j) ltac:(apply in_seq; lia)). unfold back_ok in B.
  rewrite !Z2Nat.id in B by lia.
  assert (Rj : rel 0 (f32_Z j) j) by (destruct (f32_Z_exact j ltac:(lia)) as [F E]; split; [exact F|rewrite E; cbn [bpow]; ring]).
  assert (Rl : rel 0 (f32_Z l) l) by (destruct (f32_Z_exact l ltac:(lia)) as [F E]; split; [exact F|rewrite E; cbn [bpow]; ring]).
  destruct (div_ints j l ltac:(lia) ltac:(lia) 0 _ _ Rj Rl) as [Fq Eq].
  pose proof (Bmult_correct 24 128 _ _ mode_NE (Bdiv mode_NE (f32_Z j) (f32_Z l)) (f32_Z l)) as C.
  rewrite Eq, (proj2 Rl) in C. change (bpow radix2 0) with 1 in C. rewrite Rmult_1_r in C.
  assert (Q : 0 <= rnd32 (IZR j / IZR l) <= 1).
  { destruct (quot_range j l ltac:(lia) ltac:(lia) ltac:(lia)) as [Q0 Q1].
    assert (1 <= IZR l) by (apply IZR_le; lia). assert (0 <= IZR j <= IZR l) by (split; apply IZR_le; lia).
    split; [apply Q0|apply Q1].
    - apply Rmult_le_pos; [lra|]. apply Rlt_le, Rinv_0_lt_compat. lra.
    - apply Rmult_le_reg_r with (IZR l); [lra|]. unfold Rdiv. rewrite Rmult_assoc, Rinv_l; lra. }
  rewrite Rlt_bool_true in C.
  2:{ change (Rabs (rnd32 (rnd32 (IZR j / IZR l) * IZR l)) < bpow radix2 128).
      assert (L : 0 <= rnd32 (IZR j / IZR l) * IZR l <= 16) by (assert (1 <= IZR l <= 12) by (split; apply IZR_le; lia); nra).
      assert (P : 0 <= rnd32 (rnd32 (IZR j / IZR l) * IZR l)) by
        (pose proof (rnd_ge_grid (rnd32 (IZR j / IZR l) * IZR l) 0 0 ltac:(lia) ltac:(lia)) as X; cbn [bpow] in X; lra).
      rewrite Rabs_right by lra. apply Rle_lt_trans with (IZR 16 * bpow radix2 0).
      - apply rnd_le_grid; [lia|lia|]. cbn [bpow]. lra.
      - change (bpow radix2 0) with 1. apply Rle_lt_trans with (bpow radix2 4); [simpl; lra|apply bpow_lt; lia]. }
  destruct C as (C1 & C2 & _). rewrite Fq, (proj1 Rl) in C2. cbn [andb] in C2.
  rewrite (proj2 (proj2 (cmp_exact _ _ C2 (proj1 Rj)))) in B. apply Reqb_true in B.
  change (B2R (Bmult mode_NE (Bdiv mode_NE (f32_Z j) (f32_Z l)) (f32_Z l)) = rnd32 (rnd32 (IZR j / IZR l) * IZR l)) in C1.
  rewrite <- C1, B, (proj2 Rj). cbn [bpow]. ring.
Qed.

(** A multiple of the rounded ratio is exact. *)
Lemma ratio_back : forall q j l, 0 <= q <= 1 -> (Z.abs l <= 12)%Z -> q * IZR l = IZR j ->
  rnd32 (rnd32 q * IZR l) = IZR j.
Proof.
  intros q j l Hq Hl E. destruct (Z.lt_trichotomy l 0) as [N|[->|P]].
  - assert (L : IZR l < 0) by (now apply IZR_lt).
    assert (J : (0 <= - j <= - l)%Z) by (split; apply le_IZR; rewrite !opp_IZR; nra).
    pose proof (quot_back (- j) (- l) J ltac:(lia)) as B.
    replace (IZR (- j) / IZR (- l)) with q in B by (rewrite !opp_IZR, <- E; field; lra).
    rewrite !opp_IZR, Ropp_mult_distr_r_reverse in B. rewrite round_NE_opp in B.
    apply Ropp_eq_compat in B. rewrite !Ropp_involutive in B. exact B.
  - rewrite Rmult_0_r in *. rewrite <- E. apply round_0. apply rnd32_valid.
  - assert (L : 0 < IZR l) by (now apply IZR_lt).
    assert (J : (0 <= j <= l)%Z) by (split; apply le_IZR; nra).
    pose proof (quot_back j l J ltac:(lia)) as B.
    replace (IZR j / IZR l) with q in B by (rewrite <- E; field; lra). exact B.
Qed.

(** ** The grid *)
Section Prim.
Context (lm : Libm) (e : Z) (He : (-22 <= e <= 51)%Z).
Let He' : (-74 <= e <= 51)%Z.
Proof. lia. Qed.

Definition up (p : Vec2 f32) : Vec2 XO := xp (toR p).
Let G := grid_le 6 e.

Lemma grid_724 : forall p, G p -> grid_le 724 e p.
Proof.
  intros p H. apply grid_le_at in H. destruct H as (k & [W1 W2] & A). apply grid_le_at. exists k.
  split; [split; lia|exact A].
Qed.

Lemma eps_below : eps32 < bpow radix2 e.
Proof. unfold eps32. apply bpow_lt. lia. Qed.
Lemma eps_f32 : is_finite (f32_of 1 (-23)) = true /\ B2R (f32_of 1 (-23)) = eps32.
Proof. split; [reflexivity|]. vm_compute. lra. Qed.

Lemma root_ge : forall n, (1 <= n)%Z -> bpow radix2 e <= sqrt (IZR n) * bpow radix2 e.
Proof.
  intros n Hn. pose proof (bpow_gt_0 radix2 e). assert (1 <= sqrt (IZR n)); [|nra].
  rewrite <- sqrt_1. apply sqrt_le_1_alt. now apply IZR_le.
Qed.
Lemma stands_ge : forall d n, stands e d n -> (1 <= n)%Z -> bpow radix2 e <= B2R d.
Proof.
  intros d n (N & F & E) Hn. rewrite E. pose proof (rnd_ge_grid (sqrt (IZR n) * bpow radix2 e) 1 e ltac:(lia) ltac:(lia)) as X.
  rewrite !Rmult_1_l in X. apply X, root_ge, Hn.
Qed.
Lemma stands_0 : forall d, stands e d 0 -> B2R d = 0.
Proof. intros d (_ & _ & E). rewrite E, sqrt_0, Rmult_0_l. apply round_0, rnd32_valid. Qed.

(** Computed distances compare with epsilon as the exact ones. *)
Lemma stands_eps : forall d n, stands e d n ->
  Bltb d (f32_of 1 (-23)) = Rltb (sqrt (IZR n) * bpow radix2 e) eps32 /\
  Bleb d (f32_of 1 (-23)) = Rleb (sqrt (IZR n) * bpow radix2 e) eps32 /\
  Bltb (f32_of 1 (-23)) d = Rltb eps32 (sqrt (IZR n) * bpow radix2 e).
Proof.
  intros d n S. pose proof S as (N & F & E). destruct eps_f32 as [Fe Ee].
  destruct (cmp_exact d _ F Fe) as (A1 & A2 & _). destruct (cmp_exact _ d Fe F) as (A3 & _).
  rewrite A1, A2, A3, Ee. pose proof eps_below as EB. assert (E0 : 0 < eps32) by apply bpow_gt_0.
  destruct (Z.eq_dec n 0) as [->|N0].
  - rewrite (stands_0 d S), sqrt_0, Rmult_0_l. now repeat split.
  - pose proof (stands_ge d n S ltac:(lia)). pose proof (root_ge n ltac:(lia)).
    repeat split; apply eq_true_iff_eq; rewrite ?Rltb_true, ?Rleb_true; lra.
Qed.

Lemma grid_closest : forall p ps, G p -> Forall G ps ->
  fst (find_closest_to (O := XO) (up p) (map up ps)) = fst (find_closest_to (O := FO lm) p ps) /\
  @olt XO (snd (find_closest_to (O := XO) (up p) (map up ps))) ceps = @olt (FO lm) (snd (find_closest_to (O := FO lm) p ps)) ceps.
Proof.
  intros p ps Hp Hps.
  assert (F : Forall (grid_le 724 e) ps) by (eapply Forall_impl; [|exact Hps]; intros; now apply grid_724).
  destruct (find_closest_grid lm e He' p ps (grid_724 p Hp) F) as [E1 E2].
  split; [symmetry; exact E1|].
  change (@olt XO) with (xcmp Rltb). change (@olt (FO lm)) with (@Bltb 24 128).
  change (@ceps (FO lm)) with (f32_of 1 (-23)). change (@ceps XO) with (Some eps32).
  destruct E2 as [(n & Sn & Ex)|[Ed Ex]]; fold (up p) in Ex; change (fun q => xp (toR q)) with up in Ex; rewrite Ex.
  - cbn [xcmp]. symmetry. apply (stands_eps _ n Sn).
  - rewrite Ed. cbn [xcmp]. transitivity false; [|reflexivity].
    apply not_true_iff_false. rewrite Rltb_true. pose proof eps32_lt_max32. lra.
Qed.

Lemma grid_dist : forall p q, G p -> G q -> exists n, stands e (distance (O := FO lm) p q) n /\
  dist (toR p) (toR q) = sqrt (IZR n) * bpow radix2 e.
Proof.
  intros p q Hp Hq. apply grid_724, grid_le_at in Hp. apply grid_724, grid_le_at in Hq.
  destruct Hp as (k & Wk & Ak), Hq as (l & Wl & Al). exists (dist2 k l).
  split; [exact (distance_stands lm e He' p q k l Wk Wl Ak Al)|exact (dist_at _ _ _ _ _ Ak Al)].
Qed.

Lemma grid_close : forall p q, G p -> G q -> close_to (O := XO) (up p) (up q) = close_to (O := FO lm) p q.
Proof.
  intros p q Hp Hq. destruct (grid_dist p q Hp Hq) as (n & Sn & En). unfold close_to, up. rewrite distance_xp, En.
  symmetry. exact (proj1 (proj2 (stands_eps _ n Sn))).
Qed.

(** ** Crossings *)
(** A coordinate of the crossing that lies on the grid is computed exactly. *)
Lemma coord_exact : forall (x y tf : f32) k l q m, rel e x k -> rel e y l -> (Z.abs l <= 12)%Z -> (Z.abs m <= 16777216)%Z ->
  is_finite tf = true -> B2R tf = rnd32 q -> 0 <= q <= 1 -> IZR k + q * IZR l = IZR m ->
  rel e (Bplus mode_NE x (Bmult mode_NE tf y)) m.
Proof.
  intros x y tf k l q m Hx [Fy Ey] Bl Bm Ft Et Hq E.
  assert (J : q * IZR l = IZR (m - k)) by (rewrite minus_IZR; lra).
  assert (BJ : (Z.abs (m - k) <= 12)%Z).
  { apply IZR_le in Bl. rewrite abs_IZR in Bl. apply le_IZR. rewrite abs_IZR, <- J, Rabs_mult, (Rabs_right q) by lra.
    pose proof (Rabs_pos (IZR l)). nra. }
  pose proof (ratio_back q (m - k) l Hq Bl J) as B.
  assert (P : rel e (Bmult mode_NE tf y) (m - k)).
  { pose proof (Bmult_correct 24 128 _ _ mode_NE tf y) as C. rewrite Et, Ey, <- Rmult_assoc in C.
    rewrite rnd_scale in C; [|lia|].
    - rewrite B in C. rewrite Rlt_bool_true in C by (apply representable; lia).
      destruct C as (C1 & C2 & _). split; [now rewrite C2, Ft, Fy|exact C1].
    - destruct (Z.eq_dec l 0) as [->|L0]; [left; ring|]. destruct (Z.eq_dec (m - k) 0) as [M0|M0].
      + left. rewrite M0 in J. assert (q = 0) by (apply Rmult_integral in J; destruct J as [J|J]; [exact J|apply eq_IZR in J; contradiction]).
        subst q. rewrite round_0 by apply rnd32_valid. ring.
      + right. assert (L1 : 1 <= Rabs (IZR l)) by (rewrite <- abs_IZR; apply IZR_le; lia).
        assert (L2 : Rabs (IZR l) <= 12) by (rewrite <- abs_IZR; apply IZR_le; lia).
        assert (M1 : 1 <= Rabs (q * IZR l)) by (rewrite J, <- abs_IZR; apply IZR_le; lia).
        rewrite Rabs_mult, (Rabs_right q) in M1 by lra.
        assert (Q : / 16 <= q) by nra.
        pose proof (rnd_ge_grid q 1 (-4) ltac:(lia) ltac:(lia)) as X.
        change (bpow radix2 (-4)) with (/ 16) in X.
        rewrite Rabs_mult. assert (/ 16 <= rnd32 q) by lra. rewrite (Rabs_right (rnd32 q)) by lra.
        apply Rle_trans with (bpow radix2 (-4)); [apply bpow_le; lia|]. change (bpow radix2 (-4)) with (/ 16). nra. }
  replace m with (k + (m - k))%Z by ring. apply add_exact; [exact Hx|exact P| |lia].
  replace (k + (m - k))%Z with m by ring. exact Bm.
Qed.

Lemma grid_cross : forall a b c d, G a -> G b -> G c -> G d ->
  (forall p, cross (toR a) (toR b) (toR c) (toR d) <> 0 -> on_segment (toR a) (toR b) p -> on_segment (toR c) (toR d) p ->
     exists m, p = P2 (IZR (fst m) * bpow radix2 e) (IZR (snd m) * bpow radix2 e)) ->
  calculate_line_segment_intersection (O := XO) (up a) (up b) (up c) (up d) =
    option_map up (calculate_line_segment_intersection (O := FO lm) a b c d) /\
  forall q, calculate_line_segment_intersection (O := FO lm) a b c d = Some q -> G q.
Proof.
  intros a b c d Ga Gb Gc Gd Hl.
  apply grid_le_at in Ga. destruct Ga as (ka & Wa & Aa). apply grid_le_at in Gb. destruct Gb as (kb & Wb & Ab).
  apply grid_le_at in Gc. destruct Gc as (kc & Wc & Ac). apply grid_le_at in Gd. destruct Gd as (kd & Wd & Ad).
  pose proof (seg_grid lm e 6 He' ltac:(lia) ltac:(lia) a b c d ka kb kc kd Wa Wb Wc Wd Aa Ab Ac Ad) as SG.
  fold (up a) (up b) (up c) (up d) in SG.
  destruct (Z.eq_dec (zden ka kb kc kd) 0) as [Z|NZ].
  - assert (N : calculate_line_segment_intersection (O := XO) (up a) (up b) (up c) (up d) = None).
    { destruct (calculate_line_segment_intersection (O := XO) _ _ _ _) eqn:E; [|reflexivity].
      apply segment_intersection_spec in E. destruct E as (p & _ & C & _). exfalso. apply C.
      rewrite (cross_zden e a b c d ka kb kc kd Aa Ab Ac Ad), Z. ring. }
    rewrite N in SG. destruct (calculate_line_segment_intersection (O := FO lm) a b c d).
    + destruct SG as (p & X & _). discriminate.
    + split; [exact N|discriminate].
  - assert (EF := seg_float lm e 6 He' ltac:(lia) ltac:(lia) a b c d ka kb kc kd Wa Wb Wc Wd Aa Ab Ac Ad NZ).
    assert (EX := seg_exact e a b c d ka kb kc kd Aa Ab Ac Ad NZ). fold (up a) (up b) (up c) (up d) in EX.
    set (s := IZR (zsn ka kb kc kd) / IZR (zden ka kb kc kd)) in *.
    set (t := IZR (ztn ka kb kc kd) / IZR (zden ka kb kc kd)) in *.
    rewrite EF. rewrite EX.
    destruct (Rleb 0 s && Rleb s 1 && Rleb 0 t && Rleb t 1) eqn:Tst; [|split; [reflexivity|discriminate]].
    rewrite !andb_true_iff, !Rleb_true in Tst. destruct Tst as [[[S0 S1] T0] T1].
    destruct (proj1 (segment_intersection_spec _ _ _ _ _) EX) as (p & Ep & C & On1 & On2).
    assert (Epp : along (toR a) (toR b) t = p).
    { destruct p as [px py]. unfold xp in Ep. injection Ep. cbn. intros Y X. unfold along. cbn in *. congruence. }
    destruct (Hl p C On1 On2) as (m & Em). rewrite Em in Epp.
    rewrite (toR_at _ _ _ Aa), (toR_at _ _ _ Ab) in Epp. unfold along in Epp; cbn [vx vy] in Epp. injection Epp. intros Ey Ex.
    assert (U : bpow radix2 e <> 0) by (apply Rgt_not_eq, bpow_gt_0).
    assert (Ex' : IZR (fst ka) + t * IZR (fst kb - fst ka) = IZR (fst m)).
    { apply Rmult_eq_reg_r with (bpow radix2 e); [|exact U]. rewrite <- Ex, minus_IZR. ring. }
    assert (Ey' : IZR (snd ka) + t * IZR (snd kb - snd ka) = IZR (snd m)).
    { apply Rmult_eq_reg_r with (bpow radix2 e); [|exact U]. rewrite <- Ey, minus_IZR. ring. }
    assert (CV : forall k l z, (Z.abs k <= 6)%Z -> (Z.abs l <= 6)%Z -> IZR k + t * IZR (l - k) = IZR z -> (Z.abs z <= 6)%Z).
    { intros k l z Hk Hl' Hz. apply IZR_le in Hk. apply IZR_le in Hl'. rewrite abs_IZR in Hk, Hl'. rewrite minus_IZR in Hz.
      apply le_IZR. rewrite abs_IZR, <- Hz. apply Rabs_le. apply Rabs_le_inv in Hk. apply Rabs_le_inv in Hl'. split; nra. }
    destruct (dets e 6 He' ltac:(lia) ltac:(lia) a b c d ka kb kc kd Wa Wb Wc Wd Aa Ab Ac Ad) as [[RD BD] [_ [RT BT]]].
    destruct (div_ints _ _ BT NZ _ _ _ RT RD) as [FT ET]. fold t in ET.
    pose proof (CV _ _ _ (proj1 Wa) (proj1 Wb) Ex') as Mx. pose proof (CV _ _ _ (proj2 Wa) (proj2 Wb) Ey') as My.
    assert (DX : rel e (Bminus mode_NE (vx b) (vx a)) (fst kb - fst ka)) by (apply sub_exact; [apply Ab|apply Aa| |lia]; destruct Wa, Wb; lia).
    assert (DY : rel e (Bminus mode_NE (vy b) (vy a)) (snd kb - snd ka)) by (apply sub_exact; [apply Ab|apply Aa| |lia]; destruct Wa, Wb; lia).
    pose proof (coord_exact _ _ _ _ _ t (fst m) (proj1 Aa) DX ltac:(destruct Wa, Wb; lia) ltac:(lia) FT ET (conj T0 T1) Ex') as QX.
    pose proof (coord_exact _ _ _ _ _ t (snd m) (proj2 Aa) DY ltac:(destruct Wa, Wb; lia) ltac:(lia) FT ET (conj T0 T1) Ey') as QY.
    assert (AQ : at_grid e (fx a b (Bdiv mode_NE (ftn a c d) (fden a b c d))) m) by (split; [exact QX|exact QY]).
    split.
    + cbn [option_map]. unfold up. rewrite (toR_at _ _ _ AQ), <- Em. f_equal. exact Ep.
    + intros q H. injection H as <-. apply grid_le_at. exists m. split; [split; assumption|exact AQ].
Qed.
End Prim.
