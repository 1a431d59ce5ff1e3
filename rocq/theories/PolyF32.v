(** * The polygon predicates in f32: sign symmetry, and exactness on a grid. *)
From Coq Require Import ZArith Reals List Bool Lia Lra Psatz Arith.
From Flocq Require Import Core.Core IEEE754.BinarySingleNaN.
From Verif Require Import Scalar Utils Polygon PlaneSpec PolySpec F32 Laws PolyArea PolyDiag.
Import ListNotations.
Local Open Scope R_scope.

(** ** Swapping the operands of a subtraction flips its sign *)
Lemma Bminus_flip : forall x y : f32,
  is_nan (Bminus mode_NE x y) = is_nan (Bminus mode_NE y x) /\
  (is_nan (Bminus mode_NE x y) = false -> ext (Bminus mode_NE y x) = - ext (Bminus mode_NE x y)).
Proof.
  intros x y. pose proof bpow128_pos as Hp.
  destruct (is_finite x) eqn:Fx, (is_finite y) eqn:Fy.
  - pose proof (Bminus_correct 24 128 _ _ mode_NE x y Fx Fy) as H1.
    pose proof (Bminus_correct 24 128 _ _ mode_NE y x Fy Fx) as H2.
    replace (B2R y - B2R x) with (- (B2R x - B2R y)) in H2 by ring.
    rewrite F2R_NE_opp, Rabs_Ropp in H2.
    destruct (Rlt_bool _ _) in H1, H2.
    + destruct H1 as (H1 & F1 & _), H2 as (H2 & F2 & _).
      assert (N : forall z : f32, is_finite z = true -> is_nan z = false) by (now intros [| | |]).
      rewrite !N by assumption. split; [reflexivity|]. intros _.
      rewrite !ext_finite by assumption. now rewrite H1, H2.
    + destruct H1 as (H1 & S1), H2 as (H2 & _).
      apply Babs_inf in H1. apply Babs_inf in H2. rewrite H1, H2. split; [reflexivity|].
      intros _. rewrite S1. destruct (Bsign y); simpl; lra.
  - destruct x as [sx|sx| |sx mx ex Hx], y as [sy|[|]| |sy my ey Hy]; try discriminate;
      (split; [reflexivity|]); intros E; try discriminate E; simpl; lra.
  - destruct x as [sx|[|]| |sx mx ex Hx], y as [sy|sy| |sy my ey Hy]; try discriminate;
      (split; [reflexivity|]); intros E; try discriminate E; simpl; lra.
  - destruct x as [sx|[|]| |sx mx ex Hx], y as [sy|[|]| |sy my ey Hy]; try discriminate;
      (split; [reflexivity|]); intros E; try discriminate E; simpl; lra.
Qed.

Definition zero32 : f32 := f32_Z 0.
Lemma zero32_nan : is_nan zero32 = false. Proof. reflexivity. Qed.
Lemma zero32_ext : ext zero32 = 0. Proof. reflexivity. Qed.

Lemma sign_flip : forall x y : f32,
  Bltb zero32 (Bminus mode_NE x y) = Bltb (Bminus mode_NE y x) zero32 /\
  Bleb zero32 (Bminus mode_NE x y) = Bleb (Bminus mode_NE y x) zero32 /\
  Beqb (Bminus mode_NE x y) zero32 = Beqb (Bminus mode_NE y x) zero32.
Proof.
  intros x y. destruct (Bminus_flip x y) as [N E].
  destruct (is_nan (Bminus mode_NE x y)) eqn:Nx.
  - destruct (cmp_nan zero32 (Bminus mode_NE x y) (or_intror Nx)) as (A1 & A2 & _).
    destruct (cmp_nan (Bminus mode_NE x y) zero32 (or_introl Nx)) as (_ & _ & A3).
    destruct (cmp_nan (Bminus mode_NE y x) zero32 (or_introl (eq_sym N))) as (B1 & B2 & B3).
    now rewrite A1, A2, A3, B1, B2, B3.
  - specialize (E eq_refl). symmetry in N. rewrite !Bltb_ext, !Bleb_ext, !Beqb_ext by auto using zero32_nan.
    rewrite E, zero32_ext. repeat split; rbool.
Qed.

Lemma area2_swap_f32 : forall lm (a b c : Vec2 f32),
  left (O := FO lm) a b c = Bltb (area2 (O := FO lm) a c b) zero32 /\
  left_on (O := FO lm) a b c = Bleb (area2 (O := FO lm) a c b) zero32 /\
  collinear (O := FO lm) a b c = collinear (O := FO lm) a c b.
Proof. intros lm a b c. exact (sign_flip _ _). Qed.

(** ** Exactness on a grid of spacing 2^e *)
Definition toR (p : Vec2 f32) : point := P2 (B2R (vx p)) (B2R (vy p)).

(** Both coordinates are integers of magnitude at most 2048, times 2^e. *)
Definition grid_num (e : Z) (x : f32) : Prop :=
  is_finite x = true /\ exists k, (Z.abs k <= 2048)%Z /\ B2R x = IZR k * bpow radix2 e.
Definition grid (e : Z) (p : Vec2 f32) : Prop := grid_num e (vx p) /\ grid_num e (vy p).

Definition rel (e : Z) (x : f32) (k : Z) : Prop := is_finite x = true /\ B2R x = IZR k * bpow radix2 e.

Lemma representable : forall k e, (Z.abs k <= 16777216)%Z -> (-149 <= e <= 103)%Z ->
  rnd32 (IZR k * bpow radix2 e) = IZR k * bpow radix2 e /\
  Rabs (IZR k * bpow radix2 e) < bpow radix2 128.
Proof.
  intros k e Hk He. split.
  - apply round_generic; [apply rnd32_valid|].
    destruct (Z.eq_dec (Z.abs k) 16777216) as [E|E].
    + assert (G : IZR k * bpow radix2 e = F2R (Float radix2 (Z.sgn k) (e + 24))).
      { unfold F2R; simpl. rewrite bpow_plus. change (bpow radix2 24) with (IZR 16777216).
        replace k with (Z.sgn k * 16777216)%Z at 1 by lia. rewrite mult_IZR. ring. }
      rewrite G. apply generic_format_FLT. exists (Float radix2 (Z.sgn k) (e + 24)); simpl; [reflexivity| |].
      * destruct k; simpl; lia.
      * unfold SpecFloat.emin. lia.
    + apply generic_format_FLT. exists (Float radix2 k e); simpl; [reflexivity|lia|unfold SpecFloat.emin; lia].
  - rewrite Rabs_mult, <- abs_IZR, (Rabs_right (bpow radix2 e)) by (apply Rle_ge, bpow_ge_0).
    apply Rle_lt_trans with (bpow radix2 24 * bpow radix2 e).
    + apply Rmult_le_compat_r; [apply bpow_ge_0|]. change (bpow radix2 24) with (IZR 16777216). now apply IZR_le.
    + rewrite <- bpow_plus. apply bpow_lt. lia.
Qed.

Lemma f32_Z_exact : forall x, (Z.abs x <= 16777216)%Z -> is_finite (f32_Z x) = true /\ B2R (f32_Z x) = IZR x.
Proof.
  intros x Hx. pose proof (binary_normalize_correct 24 128 _ _ mode_NE x 0 false) as C. cbv zeta in C.
  replace (F2R (Float radix2 x 0)) with (IZR x * bpow radix2 0) in C by (unfold F2R; reflexivity).
  destruct (representable x 0 ltac:(lia) ltac:(lia)) as [R1 R2]. rewrite R1, Rlt_bool_true in C by exact R2.
  destruct C as (C1 & C2 & _). split; [exact C2|]. unfold f32_Z, f32_of. rewrite C1. simpl. ring.
Qed.

Lemma sub_exact : forall e x y a b, rel e x a -> rel e y b -> (Z.abs (a - b) <= 16777216)%Z ->
  (-149 <= e <= 103)%Z -> rel e (Bminus mode_NE x y) (a - b).
Proof.
  intros e x y a b [Fx Ex] [Fy Ey] H He.
  pose proof (Bminus_correct 24 128 _ _ mode_NE x y Fx Fy) as C.
  replace (B2R x - B2R y) with (IZR (a - b) * bpow radix2 e) in C by (rewrite minus_IZR, Ex, Ey; ring).
  destruct (representable (a - b) e H He) as [R1 R2]. rewrite R1 in C. rewrite Rlt_bool_true in C by exact R2.
  destruct C as (C1 & C2 & _). now split.
Qed.

Lemma add_exact : forall e x y a b, rel e x a -> rel e y b -> (Z.abs (a + b) <= 16777216)%Z ->
  (-149 <= e <= 103)%Z -> rel e (Bplus mode_NE x y) (a + b).
Proof.
  intros e x y a b [Fx Ex] [Fy Ey] H He.
  pose proof (Bplus_correct 24 128 _ _ mode_NE x y Fx Fy) as C.
  replace (B2R x + B2R y) with (IZR (a + b) * bpow radix2 e) in C by (rewrite plus_IZR, Ex, Ey; ring).
  destruct (representable (a + b) e H He) as [R1 R2]. rewrite R1 in C. rewrite Rlt_bool_true in C by exact R2.
  destruct C as (C1 & C2 & _). now split.
Qed.

Lemma mul_exact : forall e x y a b, rel e x a -> rel e y b -> (Z.abs (a * b) <= 16777216)%Z ->
  (-149 <= e + e <= 103)%Z -> rel (e + e) (Bmult mode_NE x y) (a * b).
Proof.
  intros e x y a b [Fx Ex] [Fy Ey] H He.
  pose proof (Bmult_correct 24 128 _ _ mode_NE x y) as C.
  replace (B2R x * B2R y) with (IZR (a * b) * bpow radix2 (e + e)) in C by (rewrite mult_IZR, bpow_plus, Ex, Ey; ring).
  destruct (representable (a * b) (e + e) H He) as [R1 R2]. rewrite R1 in C. rewrite Rlt_bool_true in C by exact R2.
  destruct C as (C1 & C2 & _). rewrite Fx, Fy in C2. now split.
Qed.

Section Grid.
Context (lm : Libm) (e : Z) (He : (-74 <= e <= 51)%Z).
Local Notation area2F := (area2 (O := FO lm)).

Lemma mul_bound : forall a b, (Z.abs a <= 4096)%Z -> (Z.abs b <= 4096)%Z -> (Z.abs (a * b) <= 16777216)%Z.
Proof. intros a b Ha Hb. rewrite Z.abs_mul. nia. Qed.

(** Twice the area of a triangle in the square [-m,m]^2 is at most that of the square. *)
Lemma det_bound : forall m ax ay bx by_ cx cy : Z,
  (Z.abs ax <= m)%Z -> (Z.abs ay <= m)%Z -> (Z.abs bx <= m)%Z -> (Z.abs by_ <= m)%Z -> (Z.abs cx <= m)%Z -> (Z.abs cy <= m)%Z ->
  (Z.abs ((bx - ax) * (cy - ay) - (cx - ax) * (by_ - ay)) <= 4 * (m * m))%Z.
Proof.
  intros m ax ay bx by_ cx cy Hax Hay Hbx Hby Hcx Hcy.
  replace ((bx - ax) * (cy - ay) - (cx - ax) * (by_ - ay))%Z
    with (ax * (by_ - cy) + bx * (cy - ay) + cx * (ay - by_))%Z by ring.
  assert (A : (Z.abs (by_ - cy) + Z.abs (cy - ay) + Z.abs (ay - by_) <= 4 * m)%Z) by lia.
  assert (M : forall x d, (Z.abs x <= m)%Z -> (Z.abs (x * d) <= m * Z.abs d)%Z).
  { intros x d Hx. rewrite Z.abs_mul. apply Z.mul_le_mono_nonneg_r; [apply Z.abs_nonneg|exact Hx]. }
  pose proof (M ax (by_ - cy)%Z Hax) as M1. pose proof (M bx (cy - ay)%Z Hbx) as M2. pose proof (M cx (ay - by_)%Z Hcx) as M3.
  pose proof (Z.abs_triangle (ax * (by_ - cy) + bx * (cy - ay)) (cx * (ay - by_))) as T1.
  pose proof (Z.abs_triangle (ax * (by_ - cy)) (bx * (cy - ay))) as T2.
  assert (Hm : (0 <= m)%Z) by (pose proof (Z.abs_nonneg ax); clear - Hax H; eapply Z.le_trans; eassumption).
  pose proof (Z.mul_le_mono_nonneg_l _ _ m Hm A) as S. rewrite !Z.mul_add_distr_l in S.
  clear - T1 T2 M1 M2 M3 S.
  set (u := Z.abs (ax * (by_ - cy) + bx * (cy - ay) + cx * (ay - by_))%Z) in *.
  set (u1 := Z.abs (ax * (by_ - cy) + bx * (cy - ay))%Z) in *.
  set (u2 := Z.abs (ax * (by_ - cy))%Z) in *. set (u3 := Z.abs (bx * (cy - ay))%Z) in *.
  set (u4 := Z.abs (cx * (ay - by_))%Z) in *.
  set (w1 := Z.abs (by_ - cy)%Z) in *. set (w2 := Z.abs (cy - ay)%Z) in *. set (w3 := Z.abs (ay - by_)%Z) in *.
  clearbody u u1 u2 u3 u4 w1 w2 w3. nia.
Qed.

Lemma area2_exact : forall a b c, grid e a -> grid e b -> grid e c ->
  exists k, (Z.abs k <= 16777216)%Z /\ rel (e + e) (area2F a b c) k /\
    @eq R (area2 (O := RO) (toR a) (toR b) (toR c)) (IZR k * bpow radix2 (e + e)).
Proof.
  intros a b c [[Fax (ax & Bax & Eax)] [Fay (ay & Bay & Eay)]] [[Fbx (bx & Bbx & Ebx)] [Fby (by_ & Bby & Eby)]]
    [[Fcx (cx & Bcx & Ecx)] [Fcy (cy & Bcy & Ecy)]].
  assert (R1 : rel e (Bminus mode_NE (vx b) (vx a)) (bx - ax)) by (apply sub_exact; [now split|now split|lia|lia]).
  assert (R2 : rel e (Bminus mode_NE (vy c) (vy a)) (cy - ay)) by (apply sub_exact; [now split|now split|lia|lia]).
  assert (R3 : rel e (Bminus mode_NE (vx c) (vx a)) (cx - ax)) by (apply sub_exact; [now split|now split|lia|lia]).
  assert (R4 : rel e (Bminus mode_NE (vy b) (vy a)) (by_ - ay)) by (apply sub_exact; [now split|now split|lia|lia]).
  pose proof (mul_bound (bx - ax) (cy - ay) ltac:(lia) ltac:(lia)) as M1.
  pose proof (mul_bound (cx - ax) (by_ - ay) ltac:(lia) ltac:(lia)) as M2.
  assert (P1 := mul_exact e _ _ _ _ R1 R2 ltac:(lia) ltac:(lia)).
  assert (P2 := mul_exact e _ _ _ _ R3 R4 ltac:(lia) ltac:(lia)).
  pose proof (det_bound 2048 ax ay bx by_ cx cy Bax Bay Bbx Bby Bcx Bcy) as D.
  exists ((bx - ax) * (cy - ay) - (cx - ax) * (by_ - ay))%Z. split; [lia|]. split.
  - exact (sub_exact (e + e) _ _ _ _ P1 P2 ltac:(lia) ltac:(lia)).
  - rewrite area2_cross. unfold cross, toR; simpl. rewrite Eax, Eay, Ebx, Eby, Ecx, Ecy.
    rewrite minus_IZR, !mult_IZR, !minus_IZR, bpow_plus. ring.
Qed.

Lemma cmp_exact : forall x y : f32, is_finite x = true -> is_finite y = true ->
  Bltb x y = Rltb (B2R x) (B2R y) /\ Bleb x y = Rleb (B2R x) (B2R y) /\ Beqb x y = Reqb (B2R x) (B2R y).
Proof.
  intros x y Fx Fy. rewrite Bltb_correct, Bleb_correct, Beqb_correct by assumption.
  unfold Rltb, Rleb, Reqb.
  destruct (Rlt_dec (B2R x) (B2R y)), (Rle_dec (B2R x) (B2R y)), (Req_EM_T (B2R x) (B2R y)); repeat split; rbool.
Qed.

Lemma sign_exact : forall a b c, grid e a -> grid e b -> grid e c ->
  left (O := FO lm) a b c = left (O := RO) (toR a) (toR b) (toR c) /\
  left_on (O := FO lm) a b c = left_on (O := RO) (toR a) (toR b) (toR c) /\
  collinear (O := FO lm) a b c = collinear (O := RO) (toR a) (toR b) (toR c).
Proof.
  intros a b c Ha Hb Hc. destruct (area2_exact a b c Ha Hb Hc) as (k & _ & [F E] & E').
  assert (Z0 : B2R zero32 = 0) by reflexivity.
  unfold left, left_on, collinear. rewrite E', <- E.
  destruct (cmp_exact zero32 (area2F a b c) eq_refl F) as (A1 & A2 & _).
  destruct (cmp_exact (area2F a b c) zero32 F eq_refl) as (_ & _ & A3).
  rewrite Z0 in A1, A2, A3. now repeat split.
Qed.

Lemma between_exact : forall a b c, grid e a -> grid e b -> grid e c ->
  between (O := FO lm) a b c = between (O := RO) (toR a) (toR b) (toR c).
Proof.
  intros a b c Ha Hb Hc.
  change ((if negb (collinear (O := FO lm) a b c) then false
    else if negb (Beqb (vx a) (vx b))
    then (Bleb (vx a) (vx c) && Bleb (vx c) (vx b)) || (Bleb (vx c) (vx a) && Bleb (vx b) (vx c))
    else (Bleb (vy a) (vy c) && Bleb (vy c) (vy b)) || (Bleb (vy c) (vy a) && Bleb (vy b) (vy c)))
    = between (O := RO) (toR a) (toR b) (toR c)).
  unfold between.
  destruct (sign_exact a b c Ha Hb Hc) as (_ & _ & ->).
  destruct Ha as [[Fax _] [Fay _]], Hb as [[Fbx _] [Fby _]], Hc as [[Fcx _] [Fcy _]].
  rewrite (proj2 (proj2 (cmp_exact _ _ Fax Fbx))).
  rewrite (proj1 (proj2 (cmp_exact _ _ Fax Fcx))), (proj1 (proj2 (cmp_exact _ _ Fcx Fbx))),
    (proj1 (proj2 (cmp_exact _ _ Fcx Fax))), (proj1 (proj2 (cmp_exact _ _ Fbx Fcx))),
    (proj1 (proj2 (cmp_exact _ _ Fay Fcy))), (proj1 (proj2 (cmp_exact _ _ Fcy Fby))),
    (proj1 (proj2 (cmp_exact _ _ Fcy Fay))), (proj1 (proj2 (cmp_exact _ _ Fby Fcy))).
  reflexivity.
Qed.

Lemma intersect_prop_exact : forall a b c d, grid e a -> grid e b -> grid e c -> grid e d ->
  intersect_prop (O := FO lm) a b c d = intersect_prop (O := RO) (toR a) (toR b) (toR c) (toR d).
Proof.
  intros a b c d Ha Hb Hc Hd. unfold intersect_prop.
  destruct (sign_exact a b c Ha Hb Hc) as (-> & _ & ->), (sign_exact a b d Ha Hb Hd) as (-> & _ & ->),
    (sign_exact c d a Hc Hd Ha) as (-> & _ & ->), (sign_exact c d b Hc Hd Hb) as (-> & _ & ->). reflexivity.
Qed.

Lemma intersect_exact : forall a b c d, grid e a -> grid e b -> grid e c -> grid e d ->
  intersect (O := FO lm) a b c d = intersect (O := RO) (toR a) (toR b) (toR c) (toR d).
Proof.
  intros a b c d Ha Hb Hc Hd. unfold intersect.
  now rewrite intersect_prop_exact, !between_exact by assumption.
Qed.

Lemma cone_exact : forall a0 a a1 b, grid e a0 -> grid e a -> grid e a1 -> grid e b ->
  cone (O := FO lm) a0 a a1 b = cone (O := RO) (toR a0) (toR a) (toR a1) (toR b).
Proof.
  intros a0 a a1 b H0 Ha H1 Hb. unfold cone.
  destruct (sign_exact a a1 a0 Ha H1 H0) as (_ & -> & _), (sign_exact a b a0 Ha Hb H0) as (-> & _ & _),
    (sign_exact b a a1 Hb Ha H1) as (-> & _ & _), (sign_exact a b a1 Ha Hb H1) as (_ & -> & _),
    (sign_exact b a a0 Hb Ha H0) as (_ & -> & _). reflexivity.
Qed.

Lemma zero_grid : grid e (P2 zero32 zero32).
Proof. split; (split; [reflexivity|exists 0%Z; split; [lia|simpl; ring]]). Qed.

Lemma nth_grid : forall vs i, Forall (grid e) vs -> grid e (nth i vs (P2 zero32 zero32)).
Proof.
  intros vs i H. destruct (Nat.lt_ge_cases i (length vs)).
  - rewrite Forall_forall in H. now apply H, nth_In.
  - rewrite nth_overflow by assumption. apply zero_grid.
Qed.

Lemma nth_toR : forall vs i, vtx (map toR vs) i = toR (nth i vs (P2 zero32 zero32)).
Proof. intros. unfold vtx. exact (map_nth toR vs (P2 zero32 zero32) i). Qed.

Lemma diag_exact : forall vs i j, Forall (grid e) vs ->
  diag (O := FO lm) vs i j = diag (O := RO) (map toR vs) i j.
Proof.
  intros vs i j G. unfold diag.
  change (negb (Nat.eqb i j) && forallb (fun k => negb (apart (length vs) i j k &&
      intersect (O := FO lm) (nth i vs (P2 zero32 zero32)) (nth j vs (P2 zero32 zero32))
        (nth k vs (P2 zero32 zero32)) (nth (nxt (length vs) k) vs (P2 zero32 zero32)))) (seq 0 (length vs)) &&
    cone (O := FO lm) (nth (prv (length vs) i) vs (P2 zero32 zero32)) (nth i vs (P2 zero32 zero32))
      (nth (nxt (length vs) i) vs (P2 zero32 zero32)) (nth j vs (P2 zero32 zero32)) &&
    cone (O := FO lm) (nth (prv (length vs) j) vs (P2 zero32 zero32)) (nth j vs (P2 zero32 zero32))
      (nth (nxt (length vs) j) vs (P2 zero32 zero32)) (nth i vs (P2 zero32 zero32)) =
   (negb (Nat.eqb i j) && forallb (fun k => negb (apart (length (map toR vs)) i j k &&
      intersect (O := RO) (vtx (map toR vs) i) (vtx (map toR vs) j) (vtx (map toR vs) k)
        (vtx (map toR vs) (nxt (length (map toR vs)) k)))) (seq 0 (length (map toR vs))) &&
    cone (O := RO) (vtx (map toR vs) (prv (length (map toR vs)) i)) (vtx (map toR vs) i)
      (vtx (map toR vs) (nxt (length (map toR vs)) i)) (vtx (map toR vs) j) &&
    cone (O := RO) (vtx (map toR vs) (prv (length (map toR vs)) j)) (vtx (map toR vs) j)
      (vtx (map toR vs) (nxt (length (map toR vs)) j)) (vtx (map toR vs) i))).
  rewrite map_length, !nth_toR.
  rewrite !cone_exact by (now apply nth_grid). f_equal. f_equal. f_equal.
  assert (X : forall (f g : nat -> bool) l, (forall k, f k = g k) -> forallb f l = forallb g l).
  { intros f g l H. induction l as [|k l IH]; [reflexivity|]. simpl. now rewrite H, IH. }
  apply X. intros k. rewrite !nth_toR. now rewrite intersect_exact by (now apply nth_grid).
Qed.

(** The image of a result under [toR]. *)
Definition polyR (p : Polygon f32) : Polygon R := MkPolygon (map toR (vertices p)).

Lemma ear_exact : forall vs i, Forall (grid e) vs -> ear (O := FO lm) vs i = ear (O := RO) (map toR vs) i.
Proof.
  intros vs i G. unfold ear. rewrite diag_exact by assumption.
  change (@length (Vec2 RO) (map toR vs)) with (length (map toR vs)). now rewrite map_length.
Qed.

Lemma new3_exact : forall a b c, grid e a -> grid e b -> grid e c ->
  polygon_new (O := RO) [toR a; toR b; toR c] = option_map polyR (polygon_new (O := FO lm) [a; b; c]).
Proof.
  intros a b c Ha Hb Hc. unfold polygon_new. cbn [length Nat.ltb Nat.leb].
  destruct (area2_exact a b c Ha Hb Hc) as (k & Bk & [F E] & E').
  assert (R0 : rel (e + e) (Bplus mode_NE zero32 (area2F a b c)) (0 + k)).
  { apply add_exact; [|now split|lia|lia]. split; [reflexivity|simpl; ring]. }
  destruct R0 as [F0 E0].
  change (area_poly2 (O := FO lm) [a; b; c]) with (Bplus mode_NE zero32 (area2F a b c)).
  change (area_poly2 (O := RO) [toR a; toR b; toR c]) with (0 + area2 (O := RO) (toR a) (toR b) (toR c)).
  change (@olt (FO lm)) with (@Bltb 24 128). change (@c0 (FO lm)) with zero32.
  rewrite (proj1 (cmp_exact _ zero32 F0 eq_refl)), E0.
  change (@olt RO) with Rltb. change (@c0 RO) with 0. change (B2R zero32) with 0.
  change (0 + area2 (O := RO) (toR a) (toR b) (toR c)) with (Rplus 0 (area2 (O := RO) (toR a) (toR b) (toR c))).
  rewrite E', Rplus_0_l. rewrite Z.add_0_l.
  destruct (Rltb _ 0); reflexivity.
Qed.

Lemma remove_at_map : forall A B (f : A -> B) l i, remove_at i (map f l) = map f (remove_at i l).
Proof.
  intros A B f l. induction l as [|x l IH]; intros [|i]; try reflexivity. simpl. now rewrite IH.
Qed.

Lemma remove_at_Forall : forall A (P : A -> Prop) l i, Forall P l -> Forall P (remove_at i l).
Proof.
  intros A P l. induction l as [|x l IH]; intros [|i] H; inversion H; subst; simpl; auto.
Qed.

Lemma loop_exact : forall fuel vs fl (ts : list (Polygon f32)), Forall (grid e) vs -> length fl = length vs ->
  triangulate_loop (O := RO) fuel (map toR vs) fl (map polyR ts) =
  option_map (fun r => match r with Ok us => Ok (map polyR us) | Panic => Panic end)
    (triangulate_loop (O := FO lm) fuel vs fl ts).
Proof.
  induction fuel as [|fuel IH]; intros vs fl ts G Hl; [reflexivity|].
  cbn [triangulate_loop].
  change (@length (Vec2 RO) (map toR vs)) with (length (map toR vs)). rewrite map_length.
  change (@length (Vec2 (FO lm)) vs) with (length vs).
  destruct (Nat.ltb_spec 3 (length vs)) as [L|L].
  - destruct (find_ear fl 0) as [v|] eqn:E; [|now apply IH].
    destruct (find_ear_some _ _ _ E) as (k & Ek & Nk). simpl in Ek. subst k.
    assert (Hv : (v < length vs)%nat) by (rewrite <- Hl; apply nth_error_Some; congruence).
    destruct (clip_ear_ok (O := FO lm) vs fl v L Hl Hv) as (t & fl' & C & T & L' & K).
    destruct (clip_ear_ok (O := RO) (map toR vs) fl v) as (t2 & fl2 & C2 & T2 & L2 & K2).
    1,2,3: change (@length (Vec2 RO) (map toR vs)) with (length (map toR vs)); now rewrite map_length.
    rewrite C, C2.
    assert (Et : t2 = polyR t).
    { change (polygon_new (O := FO lm) [nth (prv (length vs) v) vs (P2 zero32 zero32); nth v vs (P2 zero32 zero32);
        nth (nxt (length vs) v) vs (P2 zero32 zero32)] = Some t) in T.
      change (polygon_new (O := RO) [vtx (map toR vs) (prv (length (map toR vs)) v); vtx (map toR vs) v;
        vtx (map toR vs) (nxt (length (map toR vs)) v)] = Some t2) in T2.
      rewrite map_length, !nth_toR in T2.
      pose proof (new3_exact _ _ _ (nth_grid vs (prv (length vs) v) G) (nth_grid vs v G)
        (nth_grid vs (nxt (length vs) v) G)) as X. rewrite T in X. cbn [option_map] in X.
      assert (Y : Some t2 = Some (polyR t)) by (rewrite <- T2; exact X). now injection Y. }
    assert (G' : Forall (grid e) (remove_at v vs)) by (now apply remove_at_Forall).
    assert (Ef : fl2 = fl').
    { apply nth_ext with (d := false) (d' := false).
      - rewrite L2, L'. change (length (remove_at v (map toR vs)) = length (remove_at v vs)).
        now rewrite remove_at_map, map_length.
      - intros k _. rewrite K, K2.
        change (@length (Vec2 RO) (map toR vs)) with (length (map toR vs)). rewrite map_length.
        change (@length (Vec2 (FO lm)) vs) with (length vs).
        change (remove_at v (map toR vs)) with (@remove_at point v (map toR vs)).
        rewrite remove_at_map, <- !ear_exact by exact G'. reflexivity. }
    subst t2 fl2.
    pose proof (IH (remove_at v vs) fl' (ts ++ [t]) G' L') as X.
    rewrite map_app, <- remove_at_map in X. exact X.
  - cbn [option_map]. rewrite map_app. reflexivity.
Qed.

Theorem triangulate_exact : forall fuel (p : Polygon f32), Forall (grid e) (vertices p) ->
  triangulate (O := RO) fuel (polyR p) =
  option_map (fun r => match r with Ok us => Ok (map polyR us) | Panic => Panic end)
    (triangulate (O := FO lm) fuel p).
Proof.
  intros fuel [vs] G. unfold triangulate. cbn [vertices] in *.
  change (vertices (polyR (MkPolygon vs))) with (map toR vs).
  change (@length (Vec2 RO) (map toR vs)) with (length (map toR vs)). rewrite map_length.
  change (@length (Vec2 (FO lm)) vs) with (length vs).
  destruct (Nat.eqb (length vs) 3); [reflexivity|].
  rewrite (ear_flags_eq (O := FO lm)) by (intros i Hi; apply in_seq in Hi; change (i < length vs)%nat; lia).
  rewrite (ear_flags_eq (O := RO)).
  2:{ intros i Hi; apply in_seq in Hi. change (i < length (map toR vs))%nat. rewrite map_length. exact (proj2 Hi). }
  rewrite <- (loop_exact fuel vs _ []); [|assumption|now rewrite map_length, seq_length].
  apply f_equal2; [|reflexivity]. apply map_ext. intros i. symmetry. now apply ear_exact.
Qed.
End Grid.
