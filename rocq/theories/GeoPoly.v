(** * Orientation tests, diagonals and triangulation in f32 for points in robust general
    position (no grid): they agree with exact arithmetic. *)
From Coq Require Import ZArith Reals List Bool Lia Lra Psatz Arith.
From Flocq Require Import Core.Core IEEE754.BinarySingleNaN.
From Verif Require Import Scalar Utils Polygon PlaneSpec PolySpec F32 Laws PolyArea PolyDiag PolyF32 GeoSpec Format RoundSpec Rounding NearCalc GeoRound GeoOn.
Import ListNotations.
Local Open Scope R_scope.

Lemma zero_plus : forall x : f32, is_finite x = true ->
  is_finite (Bplus mode_NE zero32 x) = true /\ B2R (Bplus mode_NE zero32 x) = B2R x.
Proof.
  intros x F. pose proof (Bplus_correct 24 128 _ _ mode_NE zero32 x eq_refl F) as C.
  change (B2R zero32) with 0 in C. rewrite Rplus_0_l in C. rewrite round_generic in C by (apply rnd32_valid || apply generic_format_B2R).
  rewrite Rlt_bool_true in C by apply abs_B2R_lt_emax. destruct C as (C1 & C2 & _). now split.
Qed.

(** ** Any set of points on which the sign of the determinant is right *)
Section Sim.
Context (lm : Libm) (good : Vec2 f32 -> Prop).
Local Notation area2F := (area2 (O := FO lm)).
Context (good_fin : forall p, good p -> pfin p).
Context (good_area : forall a b c, good a -> good b -> good c -> is_finite (area2F a b c) = true /\
  Rltb 0 (B2R (area2F a b c)) = Rltb 0 (area2 (O := RO) (toR a) (toR b) (toR c)) /\
  Rltb (B2R (area2F a b c)) 0 = Rltb (area2 (O := RO) (toR a) (toR b) (toR c)) 0 /\
  Reqb (B2R (area2F a b c)) 0 = Reqb (area2 (O := RO) (toR a) (toR b) (toR c)) 0).

Lemma sign_exact : forall a b c, good a -> good b -> good c ->
  left (O := FO lm) a b c = left (O := RO) (toR a) (toR b) (toR c) /\
  left_on (O := FO lm) a b c = left_on (O := RO) (toR a) (toR b) (toR c) /\
  collinear (O := FO lm) a b c = collinear (O := RO) (toR a) (toR b) (toR c).
Proof.
  intros a b c Ha Hb Hc. destruct (good_area a b c Ha Hb Hc) as (F & S1 & S2 & S3).
  assert (Z0 : B2R zero32 = 0) by reflexivity.
  destruct (cmp_exact zero32 (area2F a b c) eq_refl F) as (A1 & A2 & _).
  destruct (cmp_exact (area2F a b c) zero32 F eq_refl) as (_ & _ & A3).
  rewrite Z0 in A1, A2, A3. assert (LE : forall x, Rleb 0 x = negb (Rltb x 0)) by (intros x; unfold Rleb, Rltb; destruct (Rle_dec 0 x), (Rlt_dec x 0); try reflexivity; lra).
  split; [|split].
  - unfold left. change (Bltb zero32 (area2F a b c) = Rltb 0 (area2 (O := RO) (toR a) (toR b) (toR c))). now rewrite A1.
  - unfold left_on. change (Bleb zero32 (area2F a b c) = Rleb 0 (area2 (O := RO) (toR a) (toR b) (toR c))). now rewrite A2, !LE, S2.
  - unfold collinear. change (Beqb (area2F a b c) zero32 = Reqb (area2 (O := RO) (toR a) (toR b) (toR c)) 0). now rewrite A3.
Qed.

Lemma between_exact : forall a b c, good a -> good b -> good c ->
  between (O := FO lm) a b c = between (O := RO) (toR a) (toR b) (toR c).
Proof.
  intros a b c Ha Hb Hc.
  change ((if negb (collinear (O := FO lm) a b c) then false
    else if negb (Beqb (vx a) (vx b))
    then (Bleb (vx a) (vx c) && Bleb (vx c) (vx b)) || (Bleb (vx c) (vx a) && Bleb (vx b) (vx c))
    else (Bleb (vy a) (vy c) && Bleb (vy c) (vy b)) || (Bleb (vy c) (vy a) && Bleb (vy b) (vy c)))
    = between (O := RO) (toR a) (toR b) (toR c)).
  unfold between.
  destruct (sign_exact a b c Ha Hb Hc) as (_ & _ & ->).
  destruct (good_fin _ Ha) as [Fax Fay], (good_fin _ Hb) as [Fbx Fby], (good_fin _ Hc) as [Fcx Fcy].
  rewrite (proj2 (proj2 (cmp_exact _ _ Fax Fbx))).
  rewrite (proj1 (proj2 (cmp_exact _ _ Fax Fcx))), (proj1 (proj2 (cmp_exact _ _ Fcx Fbx))),
    (proj1 (proj2 (cmp_exact _ _ Fcx Fax))), (proj1 (proj2 (cmp_exact _ _ Fbx Fcx))),
    (proj1 (proj2 (cmp_exact _ _ Fay Fcy))), (proj1 (proj2 (cmp_exact _ _ Fcy Fby))),
    (proj1 (proj2 (cmp_exact _ _ Fcy Fay))), (proj1 (proj2 (cmp_exact _ _ Fby Fcy))).
  reflexivity.
Qed.

Lemma intersect_prop_exact : forall a b c d, good a -> good b -> good c -> good d ->
  intersect_prop (O := FO lm) a b c d = intersect_prop (O := RO) (toR a) (toR b) (toR c) (toR d).
Proof.
  intros a b c d Ha Hb Hc Hd. unfold intersect_prop.
  destruct (sign_exact a b c Ha Hb Hc) as (-> & _ & ->), (sign_exact a b d Ha Hb Hd) as (-> & _ & ->),
    (sign_exact c d a Hc Hd Ha) as (-> & _ & ->), (sign_exact c d b Hc Hd Hb) as (-> & _ & ->). reflexivity.
Qed.

Lemma intersect_exact : forall a b c d, good a -> good b -> good c -> good d ->
  intersect (O := FO lm) a b c d = intersect (O := RO) (toR a) (toR b) (toR c) (toR d).
Proof.
  intros a b c d Ha Hb Hc Hd. unfold intersect.
  now rewrite intersect_prop_exact, !between_exact by assumption.
Qed.

Lemma cone_exact : forall a0 a a1 b, good a0 -> good a -> good a1 -> good b ->
  cone (O := FO lm) a0 a a1 b = cone (O := RO) (toR a0) (toR a) (toR a1) (toR b).
Proof.
  intros a0 a a1 b H0 Ha H1 Hb. unfold cone.
  destruct (sign_exact a a1 a0 Ha H1 H0) as (_ & -> & _), (sign_exact a b a0 Ha Hb H0) as (-> & _ & _),
    (sign_exact b a a1 Hb Ha H1) as (-> & _ & _), (sign_exact a b a1 Ha Hb H1) as (_ & -> & _),
    (sign_exact b a a0 Hb Ha H0) as (_ & -> & _). reflexivity.
Qed.

Lemma nth_good : forall vs i, Forall good vs -> (i < length vs)%nat -> good (nth i vs (P2 zero32 zero32)).
Proof. intros vs i H Hi. rewrite Forall_forall in H. now apply H, nth_In. Qed.

Lemma diag_exact : forall vs i j, Forall good vs -> (i < length vs)%nat -> (j < length vs)%nat ->
  diag (O := FO lm) vs i j = diag (O := RO) (map toR vs) i j.
Proof.
  intros vs i j G Hi Hj. unfold diag.
  change (negb (Nat.eqb i j) && forallb (fun k => negb (apart (length vs) i j k &&
      intersect (O := FO lm) (nth i vs (P2 zero32 zero32)) (nth j vs (P2 zero32 zero32))
        (nth k vs (P2 zero32 zero32)) (nth (nxt (length vs) k) vs (P2 zero32 zero32)))) (seq 0 (length vs)) &&
    cone (O := FO lm) (nth (prv (length vs) i) vs (P2 zero32 zero32)) (nth i vs (P2 zero32 zero32))
      (nth (nxt (length vs) i) vs (P2 zero32 zero32)) (nth j vs (P2 zero32 zero32)) &&
    cone (O := FO lm) (nth (prv (length vs) j) vs (P2 zero32 zero32)) (nth j vs (P2 zero32 zero32))
      (nth (nxt (length vs) j) vs (P2 zero32 zero32)) (nth i vs (P2 zero32 zero32)) =
   (negb (Nat.eqb i j) && forallb (fun k => negb (apart (length (map toR vs)) i j k &&
      intersect (O := RO) (vtx (map toR vs) i) (vtx (map toR vs) j) (vtx (map toR vs) k)
        (vtx (map toR vs) (nxt (length (map toR vs)) k)))) (seq 0 (length (map toR vs))) &&
    cone (O := RO) (vtx (map toR vs) (prv (length (map toR vs)) i)) (vtx (map toR vs) i)
      (vtx (map toR vs) (nxt (length (map toR vs)) i)) (vtx (map toR vs) j) &&
    cone (O := RO) (vtx (map toR vs) (prv (length (map toR vs)) j)) (vtx (map toR vs) j)
      (vtx (map toR vs) (nxt (length (map toR vs)) j)) (vtx (map toR vs) i))).
  rewrite map_length, !nth_toR.
  rewrite !cone_exact by (apply nth_good; auto using prv_lt, nxt_lt). f_equal. f_equal. f_equal.
  assert (X : forall (f g : nat -> bool) l, (forall k, In k l -> f k = g k) -> forallb f l = forallb g l).
  { intros f g l. induction l as [|k l IH]; intros H; [reflexivity|]. simpl. rewrite H by now left. rewrite IH; [reflexivity|]. intros; apply H; now right. }
  apply X. intros k Hk. apply in_seq in Hk. rewrite !nth_toR. rewrite intersect_exact; [reflexivity|..]; apply nth_good; auto; try apply nxt_lt; lia.
Qed.

Lemma ear_exact : forall vs i, Forall good vs -> (i < length vs)%nat -> ear (O := FO lm) vs i = ear (O := RO) (map toR vs) i.
Proof.
  intros vs i G Hi. unfold ear. rewrite diag_exact by (auto using prv_lt, nxt_lt).
  change (@length (Vec2 RO) (map toR vs)) with (length (map toR vs)). now rewrite map_length.
Qed.

Lemma new3_exact : forall a b c, good a -> good b -> good c ->
  polygon_new (O := RO) [toR a; toR b; toR c] = option_map polyR (polygon_new (O := FO lm) [a; b; c]).
Proof.
  intros a b c Ha Hb Hc. unfold polygon_new. cbn [length Nat.ltb Nat.leb].
  destruct (good_area a b c Ha Hb Hc) as (F & _ & S & _).
  change (area_poly2 (O := FO lm) [a; b; c]) with (Bplus mode_NE zero32 (area2F a b c)).
  change (area_poly2 (O := RO) [toR a; toR b; toR c]) with (0 + area2 (O := RO) (toR a) (toR b) (toR c)).
  change (@olt (FO lm)) with (@Bltb 24 128). change (@c0 (FO lm)) with zero32.
  destruct (zero_plus _ F) as [F0 E0].
  rewrite (proj1 (cmp_exact _ zero32 F0 eq_refl)), E0.
  change (@olt RO) with Rltb. change (@c0 RO) with 0. change (B2R zero32) with 0.
  change (0 + area2 (O := RO) (toR a) (toR b) (toR c)) with (Rplus 0 (area2 (O := RO) (toR a) (toR b) (toR c))).
  rewrite Rplus_0_l, S.
  destruct (Rltb (area2 (O := RO) (toR a) (toR b) (toR c)) 0); reflexivity.
Qed.

Lemma loop_exact : forall fuel vs fl (ts : list (Polygon f32)), Forall good vs -> length fl = length vs ->
  triangulate_loop (O := RO) fuel (map toR vs) fl (map polyR ts) =
  option_map (fun r => match r with Ok us => Ok (map polyR us) | Panic => Panic end)
    (triangulate_loop (O := FO lm) fuel vs fl ts).
Proof.
  induction fuel as [|fuel IH]; intros vs fl ts G Hl; [reflexivity|].
  cbn [triangulate_loop].
  change (@length (Vec2 RO) (map toR vs)) with (length (map toR vs)). rewrite map_length.
  change (@length (Vec2 (FO lm)) vs) with (length vs).
  destruct (Nat.ltb_spec 3 (length vs)) as [L|L].
  - destruct (find_ear fl 0) as [v|] eqn:E; [|now apply IH].
    destruct (find_ear_some _ _ _ E) as (k & Ek & Nk). simpl in Ek. subst k.
    assert (Hv : (v < length vs)%nat) by (rewrite <- Hl; apply nth_error_Some; congruence).
    destruct (clip_ear_ok (O := FO lm) vs fl v L Hl Hv) as (t & fl' & C & T & L' & K).
    destruct (clip_ear_ok (O := RO) (map toR vs) fl v) as (t2 & fl2 & C2 & T2 & L2 & K2).
    1,2,3: change (@length (Vec2 RO) (map toR vs)) with (length (map toR vs)); now rewrite map_length.
    rewrite C, C2.
    assert (Et : t2 = polyR t).
    { change (polygon_new (O := FO lm) [nth (prv (length vs) v) vs (P2 zero32 zero32); nth v vs (P2 zero32 zero32);
        nth (nxt (length vs) v) vs (P2 zero32 zero32)] = Some t) in T.
      change (polygon_new (O := RO) [vtx (map toR vs) (prv (length (map toR vs)) v); vtx (map toR vs) v;
        vtx (map toR vs) (nxt (length (map toR vs)) v)] = Some t2) in T2.
      rewrite map_length, !nth_toR in T2.
      pose proof (new3_exact _ _ _ (nth_good vs (prv (length vs) v) G (prv_lt _ _ Hv)) (nth_good vs v G Hv)
        (nth_good vs (nxt (length vs) v) G (nxt_lt _ _ Hv))) as X. rewrite T in X. cbn [option_map] in X.
      assert (Y : Some t2 = Some (polyR t)) by (rewrite <- T2; exact X). now injection Y. }
    assert (G' : Forall good (remove_at v vs)) by (now apply remove_at_Forall).
    assert (Ef : fl2 = fl').
    { apply nth_ext with (d := false) (d' := false).
      - rewrite L2, L'. change (length (remove_at v (map toR vs)) = length (remove_at v vs)).
        now rewrite remove_at_map, map_length.
      - intros k _. rewrite K, K2.
        change (@length (Vec2 RO) (map toR vs)) with (length (map toR vs)). rewrite map_length.
        change (@length (Vec2 (FO lm)) vs) with (length vs).
        change (remove_at v (map toR vs)) with (@remove_at point v (map toR vs)).
        rewrite remove_at_map.
        destruct (shift_nxt_prv _ v L Hv) as (L1 & L3 & _). assert (Lr : length (remove_at v vs) = (length vs - 1)%nat) by now apply remove_at_length.
        rewrite <- !ear_exact by (try exact G'; rewrite Lr; assumption). reflexivity. }
    subst t2 fl2.
    pose proof (IH (remove_at v vs) fl' (ts ++ [t]) G' L') as X.
    rewrite map_app, <- remove_at_map in X. exact X.
  - cbn [option_map]. rewrite map_app. reflexivity.
Qed.

Theorem triangulate_exact : forall fuel (p : Polygon f32), Forall good (vertices p) ->
  triangulate (O := RO) fuel (polyR p) =
  option_map (fun r => match r with Ok us => Ok (map polyR us) | Panic => Panic end)
    (triangulate (O := FO lm) fuel p).
Proof.
  intros fuel [vs] G. unfold triangulate. cbn [vertices] in *.
  change (vertices (polyR (MkPolygon vs))) with (map toR vs).
  change (@length (Vec2 RO) (map toR vs)) with (length (map toR vs)). rewrite map_length.
  change (@length (Vec2 (FO lm)) vs) with (length vs).
  destruct (Nat.eqb (length vs) 3); [reflexivity|].
  rewrite (ear_flags_eq (O := FO lm)) by (intros i Hi; apply in_seq in Hi; change (i < length vs)%nat; lia).
  rewrite (ear_flags_eq (O := RO)).
  2:{ intros i Hi; apply in_seq in Hi. change (i < length (map toR vs))%nat. rewrite map_length. exact (proj2 Hi). }
  rewrite <- (loop_exact fuel vs _ []); [|assumption|now rewrite map_length, seq_length].
  apply f_equal2; [|reflexivity]. apply map_ext_in. intros i Hi. apply in_seq in Hi. symmetry. apply ear_exact; [assumption|lia].
Qed.
End Sim.

(** ** Values of finite results *)
Lemma minus_val : forall x y : f32, is_finite x = true -> is_finite y = true -> is_finite (Bminus mode_NE x y) = true ->
  B2R (Bminus mode_NE x y) = rnd32 (B2R x - B2R y).
Proof.
  intros x y Fx Fy F. pose proof (Bminus_correct 24 128 _ _ mode_NE x y Fx Fy) as C.
  destruct (Rlt_bool _ _) in C; [apply C|]. destruct C as (C & _). revert C F. generalize (Bminus mode_NE x y). intros z C F.
  destruct (Bsign x) in C; destruct z; discriminate.
Qed.
Lemma mult_val : forall x y : f32, is_finite (Bmult mode_NE x y) = true ->
  B2R (Bmult mode_NE x y) = rnd32 (B2R x * B2R y).
Proof.
  intros x y F. pose proof (Bmult_correct 24 128 _ _ mode_NE x y) as C.
  destruct (Rlt_bool _ _) in C; [apply C|]. revert C F. generalize (Bmult mode_NE x y). intros z C F.
  destruct (xorb _ _) in C; destruct z; discriminate.
Qed.

Section Filter.
Variable lm : Libm.
Local Notation f := (single lm).
Local Notation area2F := (area2 (O := FO lm)).

Lemma box_diff : forall x y : f32, is_finite x = true -> is_finite y = true -> Rabs (B2R x) <= bpow radix2 60 -> Rabs (B2R y) <= bpow radix2 60 ->
  nr f 1 (Rabs (B2R x - B2R y)) (Bminus mode_NE x y) (B2R x - B2R y) /\ Rabs (B2R x - B2R y) <= bpow radix2 61.
Proof.
  intros x y Fx Fy Bx By.
  assert (D : Rabs (B2R x - B2R y) <= bpow radix2 61).
  { change 61%Z with (1 + 60)%Z. rewrite bpow_plus. change (bpow radix2 1) with 2. unfold Rminus. eapply Rle_trans; [apply Rabs_triang|]. rewrite Rabs_Ropp. lra. }
  split; [|exact D]. apply (nr_diff f); [exact Fx|exact Fy|]. rewrite huge_eq, u_eq.
  change ((1 + u32) * Rabs (B2R x - B2R y) < bpow radix2 128).
  apply Rle_lt_trans with (2 * bpow radix2 61); [pose proof (Rabs_pos (B2R x - B2R y)); unfold u32; lra|].
  change 2 with (bpow radix2 1). rewrite <- bpow_plus. apply bpow_lt. lia.
Qed.
Lemma box_prod : forall n m x y r s M N, (n <= 4)%nat -> (m <= 4)%nat -> nr f n M x r -> nr f m N y s -> 0 <= M <= bpow radix2 62 -> 0 <= N <= bpow radix2 62 ->
  nr f (S (n + m)) (M * N + tiny f) (Bmult mode_NE x y) (r * s).
Proof.
  intros n m x y r s M N Hn Hm Hx Hy HM HN. apply nr_mul; [exact Hx|exact Hy|]. rewrite huge_eq, u_eq, tiny_eq.
  assert (M * N <= bpow radix2 62 * bpow radix2 62) by (apply Rmult_le_compat; lra). rewrite <- bpow_plus in H. change (62 + 62)%Z with 124%Z in H.
  assert (T1 : bpow radix2 (-126) <= bpow radix2 124) by (apply bpow_le; lia).
  assert (P : (1 + u32) ^ S (n + m) <= 2).
  { apply Rle_trans with ((1 + u32) ^ 9); [|unfold u32; lra]. apply Rle_pow; [unfold u32; lra|lia]. }
  assert (0 <= M * N) by (apply Rmult_le_pos; lra). pose proof (bpow_gt_0 radix2 (-126)).
  apply Rle_lt_trans with (2 * (2 * bpow radix2 124)).
  - apply Rmult_le_compat; try lra. apply pow_le. unfold u32; lra.
  - change 128%Z with (4 + 124)%Z. rewrite bpow_plus. change (bpow radix2 4) with 16. pose proof (bpow_gt_0 radix2 124). lra.
Qed.

(** The two rounded products and their difference. *)
Lemma area2_parts : forall a b c : Vec2 f32, inbox a -> inbox b -> inbox c ->
  let X1 := B2R (vx b) - B2R (vx a) in let Y1 := B2R (vy c) - B2R (vy a) in let X2 := B2R (vx c) - B2R (vx a) in let Y2 := B2R (vy b) - B2R (vy a) in
  exists v1 v2 d, v1 = rnd32 (rnd32 X1 * rnd32 Y1) /\ v2 = rnd32 (rnd32 X2 * rnd32 Y2) /\ Rabs d <= u32 /\
    is_finite (area2F a b c) = true /\ B2R (area2F a b c) = (v1 - v2) * (1 + d) /\
    Rabs (v1 - v2 - (X1 * Y1 - X2 * Y2)) <= ((1 + u32) ^ 3 - 1) * (Rabs X1 * Rabs Y1 + Rabs X2 * Rabs Y2 + 2 * tiny f).
Proof.
  intros a b c ([Fax Fay] & Bax & Bay) ([Fbx Fby] & Bbx & Bby) ([Fcx Fcy] & Bcx & Bcy) X1 Y1 X2 Y2.
  destruct (box_diff (vx b) (vx a) Fbx Fax Bbx Bax) as [D1 U1]. destruct (box_diff (vy c) (vy a) Fcy Fay Bcy Bay) as [D2 U2].
  destruct (box_diff (vx c) (vx a) Fcx Fax Bcx Bax) as [D3 U3]. destruct (box_diff (vy b) (vy a) Fby Fay Bby Bay) as [D4 U4].
  fold X1 in D1, U1. fold Y1 in D2, U2. fold X2 in D3, U3. fold Y2 in D4, U4.
  assert (V1 : B2R (Bminus mode_NE (vx b) (vx a) : f32) = rnd32 X1) by (apply minus_val; [exact Fbx|exact Fax|exact (proj1 (proj2 D1))]).
  assert (V2 : B2R (Bminus mode_NE (vy c) (vy a) : f32) = rnd32 Y1) by (apply minus_val; [exact Fcy|exact Fay|exact (proj1 (proj2 D2))]).
  assert (V3 : B2R (Bminus mode_NE (vx c) (vx a) : f32) = rnd32 X2) by (apply minus_val; [exact Fcx|exact Fax|exact (proj1 (proj2 D3))]).
  assert (V4 : B2R (Bminus mode_NE (vy b) (vy a) : f32) = rnd32 Y2) by (apply minus_val; [exact Fby|exact Fay|exact (proj1 (proj2 D4))]).
  assert (L61 : bpow radix2 61 <= bpow radix2 62) by (apply bpow_le; lia).
  assert (BU : forall r, Rabs r <= bpow radix2 61 -> 0 <= Rabs r <= bpow radix2 62) by (intros r H; pose proof (Rabs_pos r); lra).
  pose proof (box_prod 1 1 _ _ _ _ _ _ ltac:(lia) ltac:(lia) D1 D2 (BU _ U1) (BU _ U2)) as P1.
  pose proof (box_prod 1 1 _ _ _ _ _ _ ltac:(lia) ltac:(lia) D3 D4 (BU _ U3) (BU _ U4)) as P2.
  set (p1 := Bmult mode_NE (Bminus mode_NE (vx b) (vx a)) (Bminus mode_NE (vy c) (vy a)) : f32) in *.
  set (p2 := Bmult mode_NE (Bminus mode_NE (vx c) (vx a)) (Bminus mode_NE (vy b) (vy a)) : f32) in *.
  assert (W1 : B2R p1 = rnd32 (rnd32 X1 * rnd32 Y1)) by (rewrite <- V1, <- V2; apply mult_val; exact (proj1 (proj2 P1))).
  assert (W2 : B2R p2 = rnd32 (rnd32 X2 * rnd32 Y2)) by (rewrite <- V3, <- V4; apply mult_val; exact (proj1 (proj2 P2))).
  pose proof (nr_size _ _ _ _ _ P1) as S1. pose proof (nr_size _ _ _ _ _ P2) as S2.
  destruct P1 as (Q1 & F1 & E1), P2 as (Q2 & F2 & E2).
  assert (PB : forall A B, 0 <= A <= bpow radix2 61 -> 0 <= B <= bpow radix2 61 -> A * B <= bpow radix2 122).
  { intros A B HA HB. change 122%Z with (61 + 61)%Z. rewrite bpow_plus. apply Rmult_le_compat; lra. }
  pose proof (PB _ _ (conj (Rabs_pos X1) U1) (conj (Rabs_pos Y1) U2)) as PB1. pose proof (PB _ _ (conj (Rabs_pos X2) U3) (conj (Rabs_pos Y2) U4)) as PB2.
  destruct (sub_ok f p1 p2 F1 F2) as (F & d & Hd & E).
  { rewrite huge_eq, u_eq. rewrite tiny_eq in *. rewrite u_eq in *.
    assert (bpow radix2 (-126) <= bpow radix2 122) by (apply bpow_le; lia). pose proof (bpow_gt_0 radix2 (-126)).
    assert (0 <= Rabs X1 * Rabs Y1) by (apply Rmult_le_pos; apply Rabs_pos). assert (0 <= Rabs X2 * Rabs Y2) by (apply Rmult_le_pos; apply Rabs_pos).
    assert (B1 : Rabs (B2R p1) <= 4 * bpow radix2 122) by (eapply Rle_trans; [exact S1|]; unfold u32; cbn [Nat.add]; lra).
    assert (B2 : Rabs (B2R p2) <= 4 * bpow radix2 122) by (eapply Rle_trans; [exact S2|]; unfold u32; cbn [Nat.add]; lra).
    assert (B3 : Rabs (B2R p1 - B2R p2) <= 8 * bpow radix2 122) by (unfold Rminus; eapply Rle_trans; [apply Rabs_triang|]; rewrite Rabs_Ropp; lra).
    change (Rabs (B2R p1 - B2R p2) * (1 + u32) < bpow radix2 128).
    apply Rle_lt_trans with (16 * bpow radix2 122); [pose proof (Rabs_pos (B2R p1 - B2R p2)); unfold u32; lra|].
    change 128%Z with (6 + 122)%Z. rewrite bpow_plus. change (bpow radix2 6) with 64. pose proof (bpow_gt_0 radix2 122). lra. }
  exists (B2R p1), (B2R p2), d. split; [exact W1|]. split; [exact W2|]. split; [exact Hd|]. split; [exact F|]. split; [exact E|].
  replace (B2R p1 - B2R p2 - (X1 * Y1 - X2 * Y2)) with ((B2R p1 - X1 * Y1) + - (B2R p2 - X2 * Y2)) by ring.
  eapply Rle_trans; [apply Rabs_triang|]. rewrite Rabs_Ropp. rewrite u_eq in *. cbn [Nat.add] in *.
  match type of E1 with Rabs ?x <= _ => change (Rabs (B2R p1 - X1 * Y1)) with (Rabs x) end.
  match type of E2 with Rabs ?x <= _ => change (Rabs (B2R p2 - X2 * Y2)) with (Rabs x) end. lra.
Qed.

Lemma gamma3 : (1 + u32) ^ 3 - 1 <= 31 / 10 * u32. Proof. unfold u32. lra. Qed.
Lemma two_tiny : 2 * tiny f = bpow radix2 (-125).
Proof. rewrite tiny_eq. change (-125)%Z with (1 + -126)%Z. rewrite bpow_plus. reflexivity. Qed.

(** The determinant up to rounding, and its sign. *)
Lemma area2_error : forall a b c : Vec2 f32, inbox a -> inbox b -> inbox c ->
  let A := real_point a in let B := real_point b in let C := real_point c in
  is_finite (area2F a b c) = true /\
  Rabs (B2R (area2F a b c) - cross A B A C) <= 31 / 10 * u32 * (area_terms A B C + bpow radix2 (-125)) + 11 / 10 * u32 * Rabs (cross A B A C).
Proof.
  intros a b c Ha Hb Hc A B C. destruct (area2_parts a b c Ha Hb Hc) as (v1 & v2 & d & _ & _ & Hd & F & E & H). split; [exact F|]. rewrite E.
  rewrite two_tiny in H. change (vx b) with (vx b) in H.
  assert (EA : area_terms A B C = Rabs (B2R (vx b) - B2R (vx a)) * Rabs (B2R (vy c) - B2R (vy a)) + Rabs (B2R (vx c) - B2R (vx a)) * Rabs (B2R (vy b) - B2R (vy a))) by reflexivity.
  assert (EC : cross A B A C = (B2R (vx b) - B2R (vx a)) * (B2R (vy c) - B2R (vy a)) - (B2R (vx c) - B2R (vx a)) * (B2R (vy b) - B2R (vy a))) by (unfold cross, A, B, C, real_point; cbn [vx vy]; ring).
  rewrite <- EA, <- EC in H. set (x := cross A B A C) in *. set (P := area_terms A B C + bpow radix2 (-125)) in *.
  assert (PP : 0 <= P). { unfold P. rewrite EA. pose proof (bpow_ge_0 radix2 (-125)). assert (forall p q, 0 <= Rabs p * Rabs q) by (intros; apply Rmult_le_pos; apply Rabs_pos). pose proof (H1 (B2R (vx b) - B2R (vx a)) (B2R (vy c) - B2R (vy a))). pose proof (H1 (B2R (vx c) - B2R (vx a)) (B2R (vy b) - B2R (vy a))). lra. }
  replace ((v1 - v2) * (1 + d) - x) with ((v1 - v2 - x) * (1 + d) + d * x) by ring.
  eapply Rle_trans; [apply Rabs_triang|]. rewrite !Rabs_mult. apply Rabs_le_inv in Hd. pose proof (Rabs_pos x). pose proof (Rabs_pos (v1 - v2 - x)).
  assert (Rabs (1 + d) <= 1 + u32) by (rewrite Rabs_pos_eq; unfold u32 in *; lra).
  assert (Rabs d <= u32) by (apply Rabs_le; lra).
  assert (Rabs (v1 - v2 - x) * Rabs (1 + d) <= ((1 + u32) ^ 3 - 1) * P * (1 + u32)) by (apply Rmult_le_compat; try assumption; apply Rabs_pos).
  assert (Rabs d * Rabs x <= u32 * Rabs x) by (apply Rmult_le_compat_r; assumption).
  unfold u32 in *. lra.
Qed.
Lemma area2_sign : forall a b c : Vec2 f32, inbox a -> inbox b -> inbox c ->
  let A := real_point a in let B := real_point b in let C := real_point c in
  A = B \/ B = C \/ A = C \/ robust A B C ->
  is_finite (area2F a b c) = true /\
  (0 < B2R (area2F a b c) <-> 0 < cross A B A C) /\ (B2R (area2F a b c) < 0 <-> cross A B A C < 0).
Proof.
  intros a b c Ha Hb Hc A B C G. destruct (area2_parts a b c Ha Hb Hc) as (v1 & v2 & d & W1 & W2 & Hd & F & E & H). split; [exact F|]. rewrite E.
  assert (EA : area_terms A B C = Rabs (B2R (vx b) - B2R (vx a)) * Rabs (B2R (vy c) - B2R (vy a)) + Rabs (B2R (vx c) - B2R (vx a)) * Rabs (B2R (vy b) - B2R (vy a))) by reflexivity.
  assert (EC : cross A B A C = (B2R (vx b) - B2R (vx a)) * (B2R (vy c) - B2R (vy a)) - (B2R (vx c) - B2R (vx a)) * (B2R (vy b) - B2R (vy a))) by (unfold cross, A, B, C, real_point; cbn [vx vy]; ring).
  rewrite two_tiny, <- EA, <- EC in H.
  apply Rabs_le_inv in Hd. assert (Hd' : 0 < 1 + d) by (unfold u32 in Hd; lra).
  assert (K : A = B \/ B = C \/ A = C -> v1 - v2 = 0 /\ cross A B A C = 0).
  { intros Q. rewrite EC, W1, W2. destruct Q as [Q|[Q|Q]]; unfold A, B, C, real_point in Q; injection Q as Qx Qy; rewrite Qx, Qy.
    - split; [|ring]. replace (B2R (vx b) - B2R (vx b)) with 0 by ring. replace (B2R (vy b) - B2R (vy b)) with 0 by ring.
      rewrite !round_0, Rmult_0_l, Rmult_0_r, round_0 by apply rnd32_valid. ring.
    - split; ring.
    - split; [|ring]. replace (B2R (vx c) - B2R (vx c)) with 0 by ring. replace (B2R (vy c) - B2R (vy c)) with 0 by ring.
      rewrite !round_0, Rmult_0_l, Rmult_0_r, round_0 by apply rnd32_valid. ring. }
  assert (D : (v1 - v2 = 0 /\ cross A B A C = 0) \/ robust A B C) by tauto. clear K G.
  destruct D as [[-> ->]|R].
  - rewrite Rmult_0_l. tauto.
  - unfold robust in R. set (x := cross A B A C) in *. set (P := area_terms A B C + bpow radix2 (-125)) in *.
    assert (PP : 0 <= P). { unfold P. rewrite EA. pose proof (bpow_ge_0 radix2 (-125)). assert (Z : forall p q, 0 <= Rabs p * Rabs q) by (intros; apply Rmult_le_pos; apply Rabs_pos). pose proof (Z (B2R (vx b) - B2R (vx a)) (B2R (vy c) - B2R (vy a))). pose proof (Z (B2R (vx c) - B2R (vx a)) (B2R (vy b) - B2R (vy a))). lra. }
    pose proof gamma3 as G3. assert (((1 + u32) ^ 3 - 1) * P <= 31 / 10 * u32 * P) by (apply Rmult_le_compat_r; assumption).
    apply Rabs_le_inv in H. set (w := v1 - v2) in *.
    assert (SG : forall z, (0 < z * (1 + d) <-> 0 < z) /\ (z * (1 + d) < 0 <-> z < 0)).
    { intros z. split; split; intros Z; try nra. }
    destruct (SG w) as [G1 G2]. rewrite G1, G2. unfold Rabs in R. destruct (Rcase_abs x); split; split; intros; lra.
Qed.
End Filter.
