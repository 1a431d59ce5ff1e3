(** * The tests and intersections of the graph code in f32, on drawings with room to spare. *)
From Coq Require Import ZArith Reals Lia Lra Psatz List Bool Arith.
From Flocq Require Import Core.Core IEEE754.BinarySingleNaN.
From Verif Require Import Scalar Utils F32 Laws PlaneSpec GeoSpec Format RoundSpec Rounding NearCalc GeoRound Closest GeoOn GeoSeg UtilsReal
  Graph GraphSpec PlanarSpec GridSpec GraphAdd GraphPlanar MarginSpec MarginReal.
Import ListNotations.
Local Open Scope R_scope.

(** ** Exact values of the rounded operations *)
Definition rn : R -> R := round radix2 (SpecFloat.fexp 24 128) ZnearestE.
Lemma rn_0 : rn 0 = 0. Proof. unfold rn. apply round_0, valid_rnd_N. Qed.
Lemma rn_opp : forall x, rn (- x) = - rn x. Proof. intros. apply round_NE_opp. Qed.
Lemma rn_bound : forall x k, (-100 <= k <= 127)%Z -> Rabs x <= bpow radix2 k -> Rabs (rn x) <= bpow radix2 k.
Proof.
  intros x k Hk H. unfold rn. refine (abs_round_le_generic _ _ _ _ _ _ H).
  apply generic_format_bpow. unfold SpecFloat.fexp, SpecFloat.emin. lia.
Qed.
Lemma rn_small : forall x k, (-100 <= k <= 127)%Z -> Rabs x <= bpow radix2 k -> Rlt_bool (Rabs (rn x)) (bpow radix2 128) = true.
Proof. intros x k Hk H. apply Rlt_bool_true. apply Rle_lt_trans with (bpow radix2 k); [now apply rn_bound|apply bpow_lt; lia]. Qed.

Definition val (k : Z) (x : f32) : Prop := is_finite x = true /\ Rabs (B2R x) <= bpow radix2 k.
Lemma sub_val : forall (x y : f32) k, (-100 <= k <= 126)%Z -> val k x -> val k y ->
  val (k + 1) (Bminus mode_NE x y) /\ B2R (Bminus mode_NE x y) = rn (B2R x - B2R y).
Proof.
  intros x y k Hk [Fx Bx] [Fy By].
  assert (S : Rabs (B2R x - B2R y) <= bpow radix2 (k + 1)).
  { rewrite bpow_plus. change (bpow radix2 1) with 2. unfold Rminus. eapply Rle_trans; [apply Rabs_triang|]. rewrite Rabs_Ropp. lra. }
  pose proof (Bminus_correct 24 128 _ _ mode_NE x y Fx Fy) as C. cbn [round_mode] in C. fold (rn (B2R x - B2R y)) in C.
  rewrite (rn_small _ (k + 1)) in C by (auto; lia). destruct C as (E & F & _). split; [|exact E]. split; [exact F|]. rewrite E. apply rn_bound; [lia|exact S].
Qed.
Lemma add_val : forall (x y : f32) k, (-100 <= k <= 126)%Z -> val k x -> val k y ->
  val (k + 1) (Bplus mode_NE x y) /\ B2R (Bplus mode_NE x y) = rn (B2R x + B2R y).
Proof.
  intros x y k Hk [Fx Bx] [Fy By].
  assert (S : Rabs (B2R x + B2R y) <= bpow radix2 (k + 1)).
  { rewrite bpow_plus. change (bpow radix2 1) with 2. eapply Rle_trans; [apply Rabs_triang|]. lra. }
  pose proof (Bplus_correct 24 128 _ _ mode_NE x y Fx Fy) as C. cbn [round_mode] in C. fold (rn (B2R x + B2R y)) in C.
  rewrite (rn_small _ (k + 1)) in C by (auto; lia). destruct C as (E & F & _). split; [|exact E]. split; [exact F|]. rewrite E. apply rn_bound; [lia|exact S].
Qed.
Lemma mul_val : forall (x y : f32) k, (-50 <= k <= 63)%Z -> val k x -> val k y ->
  val (k + k) (Bmult mode_NE x y) /\ B2R (Bmult mode_NE x y) = rn (B2R x * B2R y).
Proof.
  intros x y k Hk [Fx Bx] [Fy By].
  assert (S : Rabs (B2R x * B2R y) <= bpow radix2 (k + k)).
  { rewrite bpow_plus, Rabs_mult. apply Rmult_le_compat; auto using Rabs_pos. }
  pose proof (Bmult_correct 24 128 _ _ mode_NE x y) as C. cbn [round_mode] in C. fold (rn (B2R x * B2R y)) in C.
  rewrite (rn_small _ (k + k)) in C by (auto; lia). destruct C as (E & F & _). rewrite Fx, Fy in F. split; [|exact E]. split; [exact F|]. rewrite E. apply rn_bound; [lia|exact S].
Qed.
Lemma opp_val : forall (x : f32) k, val k x -> val k (Bopp x) /\ B2R (Bopp x) = - B2R x.
Proof. intros x k [Fx Bx]. rewrite B2R_Bopp. split; [|reflexivity]. split; [now rewrite is_finite_Bopp|]. now rewrite B2R_Bopp, Rabs_Ropp. Qed.

Lemma div_zero : forall x y : f32, is_finite x = true -> is_finite y = true -> B2R y = 0 -> is_finite (Bdiv mode_NE x y) = false.
Proof.
  intros x y Fx Fy E. destruct y as [sy|sy| |sy my ey Hy]; try discriminate.
  - destruct x as [sx|sx| |sx mx ex Hx]; try discriminate; reflexivity.
  - exfalso. cbn [B2R] in E. apply eq_0_F2R in E. cbn [Fnum] in E. destruct sy; discriminate.
Qed.
Lemma div_val : forall x y : f32, is_finite x = true -> is_finite y = true -> is_finite (Bdiv mode_NE x y) = true ->
  B2R y <> 0 /\ B2R (Bdiv mode_NE x y) = rn (B2R x / B2R y).
Proof.
  intros x y Fx Fy Fq. assert (Ny : B2R y <> 0) by (intros E; rewrite (div_zero x y Fx Fy E) in Fq; discriminate).
  split; [exact Ny|]. pose proof (Bdiv_correct 24 128 _ _ mode_NE x y Ny) as C. cbn [round_mode] in C. fold (rn (B2R x / B2R y)) in C.
  destruct (Rlt_bool (Rabs (rn (B2R x / B2R y))) (bpow radix2 128)); [exact (proj1 C)|].
  exfalso. revert C Fq. generalize (Bdiv mode_NE x y). intros z C Fz. destruct (xorb _ _) in C; destruct z; discriminate.
Qed.
Lemma rn_1 : rn 1 = 1.
Proof. unfold rn. apply round_generic; [apply valid_rnd_N|]. change 1 with (bpow radix2 0). apply generic_format_bpow. unfold SpecFloat.fexp, SpecFloat.emin. lia. Qed.

(** ** Segments with a common end: the parameter comes out as 0 or 1 exactly *)
Section Shared.
Variable lm : Libm.
Local Notation F := (FO lm).
Local Notation rp := real_point.
Lemma inbox_val : forall p : Vec2 f32, inbox p -> val 60 (vx p) /\ val 60 (vy p).
Proof. intros p ([F1 F2] & B1 & B2). split; split; assumption. Qed.

Definition ft (a b c d : Vec2 f32) : f32 := Bdiv mode_NE (seg_nt lm a b c d : f32) (seg_den lm a b c d).
Definition fs (a b c d : Vec2 f32) : f32 := Bdiv mode_NE (seg_ns lm a b c d : f32) (seg_den lm a b c d).
Definition inter (a b c d : Vec2 f32) : option (Vec2 f32) := calculate_line_segment_intersection (O := F) a b c d.

Lemma parts_val : forall a b c d : Vec2 f32, inbox a -> inbox b -> inbox c -> inbox d ->
  let X := B2R (vx d) in let Y := B2R (vy d) in
  let d1x := rn (B2R (vx d) - B2R (vx c)) in let d1y := rn (B2R (vy d) - B2R (vy c)) in
  let d0x := rn (B2R (vx b) - B2R (vx a)) in let d0y := rn (B2R (vy b) - B2R (vy a)) in
  let ex := rn (B2R (vx a) - B2R (vx c)) in let ey := rn (B2R (vy a) - B2R (vy c)) in
  (is_finite (seg_nt lm a b c d : f32) = true /\ B2R (seg_nt lm a b c d : f32) = rn (rn (d1x * ey) - rn (d1y * ex))) /\
  (is_finite (seg_den lm a b c d : f32) = true /\ B2R (seg_den lm a b c d : f32) = rn (rn (- d1x * d0y) + rn (d0x * d1y))).
Proof.
  intros a b c d Ha Hb Hc Hd. cbv zeta. apply inbox_val in Ha, Hb, Hc, Hd. destruct Ha as [Ax Ay], Hb as [Bx By], Hc as [Cx Cy], Hd as [Dx Dy].
  destruct (sub_val _ _ 60 ltac:(lia) Dx Cx) as [V1 E1]. destruct (sub_val _ _ 60 ltac:(lia) Dy Cy) as [V2 E2].
  destruct (sub_val _ _ 60 ltac:(lia) Bx Ax) as [V3 E3]. destruct (sub_val _ _ 60 ltac:(lia) By Ay) as [V4 E4].
  destruct (sub_val _ _ 60 ltac:(lia) Ax Cx) as [V5 E5]. destruct (sub_val _ _ 60 ltac:(lia) Ay Cy) as [V6 E6]. cbn [Z.add Pos.add Pos.succ] in *.
  destruct (opp_val _ _ V1) as [V7 E7].
  destruct (mul_val _ _ 61 ltac:(lia) V1 V6) as [M1 N1]. destruct (mul_val _ _ 61 ltac:(lia) V2 V5) as [M2 N2].
  destruct (mul_val _ _ 61 ltac:(lia) V7 V4) as [M3 N3]. destruct (mul_val _ _ 61 ltac:(lia) V3 V2) as [M4 N4].
  destruct (sub_val _ _ 122 ltac:(lia) M1 M2) as [[F1 _] R1]. destruct (add_val _ _ 122 ltac:(lia) M3 M4) as [[F2 _] R2].
  rewrite N1, N2, E1, E2, E5, E6 in R1. rewrite N3, N4, E7, E1, E2, E3, E4 in R2. split; split; assumption.
Qed.

Lemma inter_some : forall a b c d q, inter a b c d = Some q ->
  is_finite (ft a b c d) = true /\ 0 <= B2R (ft a b c d) <= 1 /\ is_finite (fs a b c d) = true /\ 0 <= B2R (fs a b c d) <= 1.
Proof.
  intros a b c d q H. unfold inter in H. rewrite (seg_eq lm a b c d) in H. cbv zeta in H.
  change (@odiv F (seg_ns lm a b c d) (seg_den lm a b c d)) with (fs a b c d) in H. change (@odiv F (seg_nt lm a b c d) (seg_den lm a b c d)) with (ft a b c d) in H.
  change (@ole F) with (@Bleb 24 128) in H. change (@c0 F) with (f32_Z 0) in H. change (@c1 F) with (f32_Z 1) in H.
  destruct (_ && Bleb (ft a b c d) (f32_Z 1))%bool eqn:E in H; [|discriminate].
  apply andb_prop in E. destruct E as [E E4]. apply andb_prop in E. destruct E as [E E3]. apply andb_prop in E. destruct E as [E1 E2].
  destruct (unit_finite _ E3 E4) as [Ft Ht]. destruct (unit_finite _ E1 E2) as [Fs Hs]. auto.
Qed.

Lemma shared_param : forall a b c d q, inbox a -> inbox b -> inbox c -> inbox d -> inter a b c d = Some q ->
  (a = c \/ a = d -> B2R (ft a b c d) = 0) /\ (b = c -> B2R (ft a b c d) = 1).
Proof.
  intros a b c d q Ha Hb Hc Hd H. destruct (inter_some a b c d q H) as (Ff & _).
  destruct (parts_val a b c d Ha Hb Hc Hd) as [[F1 E1] [F2 E2]].
  destruct (div_val _ _ F1 F2 Ff) as [Nz E]. unfold ft. rewrite E. split.
  - intros G. replace (B2R (seg_nt lm a b c d : f32)) with 0; [unfold Rdiv; rewrite Rmult_0_l; apply rn_0|].
    rewrite E1. destruct G as [<-|<-].
    + replace (B2R (vx a) - B2R (vx a)) with 0 by ring. replace (B2R (vy a) - B2R (vy a)) with 0 by ring. now rewrite rn_0, !Rmult_0_r, rn_0, Rminus_0_r, rn_0.
    + rewrite (Rmult_comm (rn (B2R (vy a) - B2R (vy c)))). rewrite Rminus_diag_eq by reflexivity. now rewrite rn_0.
  - intros <-. replace (B2R (seg_nt lm a b b d : f32)) with (B2R (seg_den lm a b b d : f32)).
    + unfold Rdiv. rewrite Rinv_r by exact Nz. apply rn_1.
    + rewrite E1, E2. f_equal.
      replace (B2R (vy a) - B2R (vy b)) with (- (B2R (vy b) - B2R (vy a))) by ring.
      replace (B2R (vx a) - B2R (vx b)) with (- (B2R (vx b) - B2R (vx a))) by ring. rewrite !rn_opp.
      rewrite <- !Ropp_mult_distr_r, <- Ropp_mult_distr_l, !rn_opp.
      rewrite (Rmult_comm (rn (B2R (vx b) - B2R (vx a)))). ring.
Qed.

(** ** Segments beside each other *)
Lemma Rmult_le_0_r' : forall x y, 0 <= x -> y <= 0 -> x * y <= 0.
Proof. intros. assert (0 <= x * - y) by (apply Rmult_le_pos; lra). lra. Qed.
Lemma quot_side : forall (n den : f32) N D en ed w G, within en n N -> within ed den D ->
  (w <= N /\ w <= N - D) \/ (N <= - w /\ N - D <= - w) -> Rabs N <= G -> Rabs (N - D) <= G -> en + 2 * ed + 4 * u32 * G < w ->
  is_finite (Bdiv mode_NE n den) = true -> 0 <= B2R (Bdiv mode_NE n den) <= 1 -> False.
Proof.
  intros n den N D en ed w G [Fn Hn] [Fd Hd] Sd GN GD Hw Fq Ht.
  assert (Ny : B2R den <> 0) by (intros E; rewrite (div_zero n den Fn Fd E) in Fq; discriminate).
  destruct (finite_div lm n den Ny Fq) as (d & e & Hd' & He & E). set (t := B2R (Bdiv mode_NE n den)) in *. set (q := B2R n / B2R den) in *.
  assert (Eq : q * B2R den = B2R n) by (unfold q; field; exact Ny).
  assert (Se : bpow radix2 (-150) <= u32 / 4) by (replace (u32 / 4) with (bpow radix2 (-26)) by (unfold u32; cbn; lra); apply bpow_le; lia).
  apply Rabs_le_inv in Hd', He, Hn, Hd, GN, GD. pose proof u_pos as Pu. assert (Su : u32 <= / 1000) by (unfold u32; lra).
  set (ep := bpow radix2 (-150)) in *. assert (Q1 : q * (1 + d) <= 1 + u32 / 4) by lra. assert (Q2 : - (u32 / 4) <= q * (1 + d)) by lra.
  assert (QL : - u32 <= q). { destruct (Rle_dec (- u32) q) as [L|L]; [exact L|]. exfalso. assert (q * (1 + d) <= q * (1 / 2)) by (apply Rmult_le_compat_neg_l; lra). lra. }
  assert (QU : q <= 1 + 2 * u32).
  { destruct (Rle_dec q (1 + 2 * u32)) as [L|L]; [exact L|]. exfalso. assert ((1 + 2 * u32) * (1 - u32) <= q * (1 + d)) by (apply Rmult_le_compat; lra). assert ((1 + 2 * u32) * (1 - u32) = 1 + u32 - 2 * (u32 * u32)) by ring. assert (u32 * u32 <= u32 * / 1000) by (apply Rmult_le_compat_l; lra). lra. }
  assert (PG : 0 <= G) by lra.
  assert (Id : N * (1 - q) + (N - D) * q = (N - B2R n) + q * (B2R den - D)) by (rewrite <- Eq; ring).
  assert (Ped : 0 <= ed) by lra.
  assert (R1 : - (2 * ed) <= q * (B2R den - D) <= 2 * ed).
  { apply Rabs_le_inv. rewrite Rabs_mult. apply Rmult_le_compat; try apply Rabs_pos; apply Rabs_le; lra. }
  assert (K1 : 0 <= u32 * G) by (apply Rmult_le_pos; lra).
  assert (B1 : forall z, - G <= z <= G -> q < 0 -> - (u32 * G) <= z * q <= u32 * G).
  { intros z Hz L. apply Rabs_le_inv. rewrite Rabs_mult, Rmult_comm. apply Rmult_le_compat; try apply Rabs_pos; apply Rabs_le; lra. }
  assert (B2 : forall z, - G <= z <= G -> 1 < q -> - (2 * u32 * G) <= z * (1 - q) <= 2 * u32 * G).
  { intros z Hz L. apply Rabs_le_inv. rewrite Rabs_mult, Rmult_comm. apply Rmult_le_compat; try apply Rabs_pos; apply Rabs_le; lra. }
  destruct (Rlt_dec q 0) as [L|L]; [pose proof (B1 _ GD L); pose proof (B1 _ GN L)|destruct (Rlt_dec 1 q) as [L'|L'];
    [pose proof (B2 _ GN L'); pose proof (B2 _ GD L')|]].
  - assert (En : N * (1 - q) = N - N * q) by ring. destruct Sd as [[A B]|[A B]].
    + assert (N * q <= 0) by (apply Rmult_le_0_r'; lra). lra.
    + assert (0 <= N * q) by (rewrite <- Rmult_opp_opp; apply Rmult_le_pos; lra). lra.
  - assert (En : (N - D) * q = (N - D) - (N - D) * (1 - q)) by ring. destruct Sd as [[A B]|[A B]].
    + assert ((N - D) * (1 - q) <= 0) by (apply Rmult_le_0_r'; lra). lra.
    + assert (0 <= (N - D) * (1 - q)) by (rewrite <- Rmult_opp_opp; apply Rmult_le_pos; lra). lra.
  - destruct Sd as [[A B]|[A B]].
    + assert (w * (1 - q) <= N * (1 - q)) by (apply Rmult_le_compat_r; lra). assert (w * q <= (N - D) * q) by (apply Rmult_le_compat_r; lra). lra.
    + assert (N * (1 - q) <= - w * (1 - q)) by (apply Rmult_le_compat_r; lra). assert ((N - D) * q <= - w * q) by (apply Rmult_le_compat_r; lra). lra.
Qed.
End Shared.

(** ** On a fine drawing *)
Section Fine.
Variable lm : Libm.
Local Notation F := (FO lm).
Local Notation rp := real_point.
Variables (M K dl : R).
Hypothesis Fn : fine M K dl.
Local Notation h := (slip M K).

Lemma fine_nums : u32 <= M /\ 1 <= K <= 1000 /\ 8 * u32 <= dl /\ 0 <= h /\ 6 * h + 24 * (u32 * M) <= 199 / 100 * u32 /\ M <= 1 / 150 /\ 34 * (u32 * (M * K)) <= h /\ 14 * (u32 * M) + 34 * (u32 * (M * K)) = h /\ 0 < u32.
Proof.
  destruct Fn as (H1 & H2 & H3 & H4 & _). pose proof u_pos as Pu. unfold slip.
  assert (PM : 0 < M) by lra. assert (M <= M * K) by (rewrite <- (Rmult_1_r M) at 1; apply Rmult_le_compat_l; lra).
  assert (0 <= u32 * M) by (apply Rmult_le_pos; lra). assert (0 <= u32 * (M * K)) by (apply Rmult_le_pos; lra).
  assert (u32 * (M * (108 + 204 * K)) <= u32 * (199 / 100)) by (apply Rmult_le_compat_l; lra).
  repeat split; lra.
Qed.

Lemma close_inbox : forall (p : Vec2 f32) x, pfin p -> Rabs (vx x) <= M -> Rabs (vy x) <= M -> dist (rp p) x <= h -> inbox p.
Proof.
  intros p x Fp Bx By D. split; [exact Fp|]. destruct fine_nums as (N1 & N2 & N3 & N4 & N5 & N6 & N7 & N8 & N9).
  assert (Hh : h <= 1) by (unfold u32 in *; lra).
  assert (Cc : forall z : R, z * z <= dist (rp p) x * dist (rp p) x -> Rabs z <= 1).
  { intros z Hz. apply Rabs_le. pose proof (dist_nonneg (rp p) x). nra. }
  rewrite dist_sq in Cc. set (X := vx x - vx (rp p)) in *. set (Y := vy x - vy (rp p)) in *.
  assert (C1 : Rabs X <= 1) by (apply Cc; nra). assert (C2 : Rabs Y <= 1) by (apply Cc; nra).
  assert (B60 : 2 <= bpow radix2 60) by (change 2 with (bpow radix2 1); apply bpow_le; lia).
  apply Rabs_le_inv in C1, C2, Bx, By. unfold X, Y, rp in *. cbn [vx vy] in *. split; apply Rabs_le; lra.
Qed.
Lemma pbound_inbox : forall p : Vec2 f32, pbound M p -> inbox p.
Proof.
  intros p (Fp & B1 & B2). destruct fine_nums as (N1 & N2 & N3 & N4 & N5 & N6 & _).
  assert (B60 : 2 <= bpow radix2 60) by (change 2 with (bpow radix2 1); apply bpow_le; lia). split; [exact Fp|]. split; lra.
Qed.

Lemma shift_two : forall a b a' b' : point, dist a a' <= h -> dist b b' <= h -> Rabs (dist a b - dist a' b') <= 2 * h.
Proof.
  intros a b a' b' H1 H2. pose proof (triangle a a' b). pose proof (triangle a' b' b). pose proof (triangle a' a b'). pose proof (triangle a b b').
  rewrite (dist_sym a' a), (dist_sym b' b) in *. apply Rabs_le. lra.
Qed.

Section On.
Variables (a b p : Vec2 f32) (A B x : point).
Hypothesis (Ia : inbox a) (Ib : inbox b) (Ip : inbox p).
Hypothesis (Ca : dist (rp a) A <= h) (Cb : dist (rp b) B <= h) (Cp : dist (rp p) x <= h).
Hypothesis HL : dist A B <= 17 / 6 * M.

Lemma on_accept : forall i, on_segment A B x -> dl <= dist x A -> dl <= dist x B -> is_on_line_segment (O := F) a b p i = true.
Proof.
  intros i On D1 D2. destruct fine_nums as (N1 & N2 & N3 & N4 & N5 & N6 & N7 & N8 & N9).
  pose proof (shift_two _ _ _ _ Ca Cp) as S1. pose proof (shift_two _ _ _ _ Cp Cb) as S2. pose proof (shift_two _ _ _ _ Ca Cb) as S3.
  apply Rabs_le_inv in S1, S2, S3. pose proof (on_segment_dist _ _ _ On) as E. rewrite (dist_sym x A) in D1.
  assert (u32 * h <= / 1000000 * h) by (apply Rmult_le_compat_r; unfold u32; lra). assert (u32 * u32 <= / 1000000 * u32) by (apply Rmult_le_compat_r; unfold u32; lra).
  set (L := dist A B) in *. assert (u32 * L <= 17 / 6 * (u32 * M)) by (replace (17 / 6 * (u32 * M)) with (u32 * (17 / 6 * M)) by ring; apply Rmult_le_compat_l; lra).
  set (d1 := dist (rp a) (rp p)) in *. set (d2 := dist (rp p) (rp b)) in *. set (d0 := dist (rp a) (rp b)) in *.
  assert (u32 * (d1 + d2) <= u32 * L + 4 * (u32 * h)) by (replace (u32 * L + 4 * (u32 * h)) with (u32 * (L + 4 * h)) by ring; apply Rmult_le_compat_l; lra).
  assert (X1 : d1 + d2 - d0 + 8 * u32 * (d1 + d2) < eps32 * (1 - 6 * u32)) by (rewrite eps_u; lra).
  assert (X2 : eps32 * (1 + 4 * u32) < d1) by (rewrite eps_u; lra). assert (X3 : eps32 * (1 + 4 * u32) < d2) by (rewrite eps_u; lra).
  exact (on_complete lm a b p i Ia Ib Ip X1 X2 X3).
Qed.

Lemma on_reject : forall i, off dl A B x -> is_on_line_segment (O := F) a b p i = false.
Proof.
  intros i Off. destruct (is_on_line_segment (O := F) a b p i) eqn:Q; [|reflexivity]. exfalso.
  destruct (on_sound lm a b p i Ia Ib Ip Q) as (H & _).
  change (dist (rp a) (rp p) + dist (rp p) (rp b) <= dist (rp a) (rp b) + (eps32 * (1 + 6 * u32) + 8 * u32 * dist (rp a) (rp b))) in H. destruct fine_nums as (N1 & N2 & N3 & N4 & N5 & N6 & N7 & N8 & N9).
  pose proof (shift_two _ _ _ _ Ca Cp) as S1. pose proof (shift_two _ _ _ _ Cp Cb) as S2. pose proof (shift_two _ _ _ _ Ca Cb) as S3.
  apply Rabs_le_inv in S1, S2, S3.
  assert (u32 * h <= / 1000000 * h) by (apply Rmult_le_compat_r; unfold u32; lra). assert (u32 * u32 <= / 1000000 * u32) by (apply Rmult_le_compat_r; unfold u32; lra).
  apply (off_detour M K dl A B x (4 * u32) Fn HL Off); [lra|].
  set (L := dist A B) in *. assert (u32 * L <= 17 / 6 * (u32 * M)) by (replace (17 / 6 * (u32 * M)) with (u32 * (17 / 6 * M)) by ring; apply Rmult_le_compat_l; lra).
  set (d1 := dist (rp a) (rp p)) in *. set (d2 := dist (rp p) (rp b)) in *. set (d0 := dist (rp a) (rp b)) in *.
  assert (u32 * d0 <= u32 * L + 2 * (u32 * h)) by (replace (u32 * L + 2 * (u32 * h)) with (u32 * (L + 2 * h)) by ring; apply Rmult_le_compat_l; lra).
  rewrite eps_u in H. lra.
Qed.
End On.
Lemma on_end : forall (a b p : Vec2 f32) i, inbox a -> inbox b -> inbox p -> p = a \/ p = b -> is_on_line_segment (O := F) a b p i = false.
Proof.
  intros a b p i Ia Ib Ip E. destruct (is_on_line_segment (O := F) a b p i) eqn:Q; [|reflexivity]. exfalso.
  destruct (on_sound lm a b p i Ia Ib Ip Q) as (_ & H1 & H2). rewrite eps_u in *. assert (0 < 2 * u32 * (1 - 4 * u32)) by (unfold u32; lra).
  destruct E as [-> | ->]; [rewrite dist_self0 in H1|rewrite dist_self0 in H2]; lra.
Qed.

(** ** Intersections *)
Section Inter.
Variables (a b c d : Vec2 f32).
Hypothesis (Pa : pbound M a) (Pb : pbound M b) (Pc : pbound M c) (Pd : pbound M d).
Let A := rp a. Let B := rp b. Let C := rp c. Let D := rp d.
Hypothesis (Hab : dl <= dist A B) (Hcd : dl <= dist C D).

Lemma pb_dist : forall p q : Vec2 f32, pbound M p -> pbound M q -> dist (rp p) (rp q) <= 17 / 6 * M.
Proof. intros p q (_ & H1 & H2) (_ & H3 & H4). now apply box_dist. Qed.
Lemma tiny_small : forall k, (k <= -50)%Z -> bpow radix2 k <= u32 / 1000000.
Proof. intros k Hk. apply Rle_trans with (bpow radix2 (-50)); [apply bpow_le; lia|]. unfold u32. cbn. lra. Qed.

Lemma beside_none : beside dl C D A B \/ beside dl A B C D -> inter lm a b c d = None.
Proof.
  intros Bs. destruct (inter lm a b c d) as [q|] eqn:Q; [|reflexivity]. exfalso.
  destruct (inter_some lm a b c d q Q) as (Ft & Ht & Fs & Hs).
  destruct (seg_parts lm a b c d (pbound_inbox a Pa) (pbound_inbox b Pb) (pbound_inbox c Pc) (pbound_inbox d Pd)) as (Wd & Wt & Ws).
  fold A B C D in Wd, Wt, Ws. destruct fine_nums as (N1 & N2 & N3 & N4 & N5 & N6 & N7 & N8 & N9).
  pose proof (pb_dist a b Pa Pb) as L1. pose proof (pb_dist c d Pc Pd) as L2. pose proof (pb_dist a c Pa Pc) as L3. pose proof (pb_dist a d Pa Pd) as L4. pose proof (pb_dist b c Pb Pc) as L5.
  fold A B C D in L1, L2, L3, L4, L5. pose proof (tiny_small (-125) ltac:(lia)) as Ti. pose proof (bpow_gt_0 radix2 (-125)) as Ti0. set (ti := bpow radix2 (-125)) in *.
  assert (Key : forall l, dl <= l -> 41 / 10 * u32 * (l * (17 / 6 * M) + ti) + 2 * (41 / 10 * u32 * (l * (17 / 6 * M) + ti)) + 4 * u32 * (l * (17 / 6 * M)) < dl * l).
  { intros l Hl. assert (Pl : 0 < l) by lra. assert (u32 * ti <= u32 * (l / 1000000)) by (apply Rmult_le_compat_l; lra).
    assert (u32 * (l * M) <= u32 * (l * (1 / 150))) by (apply Rmult_le_compat_l; [lra|]; apply Rmult_le_compat_l; lra).
    assert (8 * u32 * l <= dl * l) by (apply Rmult_le_compat_r; lra). assert (0 < u32 * l) by (apply Rmult_lt_0_compat; lra).
    replace (41 / 10 * u32 * (l * (17 / 6 * M) + ti)) with (697 / 60 * (u32 * (l * M)) + 41 / 10 * (u32 * ti)) by field.
    replace (4 * u32 * (l * (17 / 6 * M))) with (34 / 3 * (u32 * (l * M))) by field.
    replace (u32 * (l / 1000000)) with (u32 * l / 1000000) in * by field. replace (u32 * (l * (1 / 150))) with (u32 * l / 150) in * by field.
    replace (8 * u32 * l) with (8 * (u32 * l)) in * by ring. lra. }
  assert (Mono : forall l r, 0 <= l -> r <= 17 / 6 * M -> l * r <= l * (17 / 6 * M)) by (intros; apply Rmult_le_compat_l; lra).
  assert (MonE : forall m m', m <= m' -> 41 / 10 * u32 * (m + ti) <= 41 / 10 * u32 * (m' + ti)) by (intros; apply Rmult_le_compat_l; lra).
  pose proof (dist_nonneg A B) as P1. pose proof (dist_nonneg C D) as P2.
  destruct Bs as [Bs|Bs].
  - refine (quot_side lm (seg_nt lm a b c d) (seg_den lm a b c d) _ _ _ _ (dl * dist C D) (dist C D * (17 / 6 * M)) Wt Wd _ _ _ _ Ft Ht).
    + replace (cross C D C A - cross A B C D) with (cross C D C B) by (unfold cross; ring). exact Bs.
    + eapply Rle_trans; [apply cross_le|]. apply Mono; [exact P2|]. now rewrite dist_sym.
    + replace (cross C D C A - cross A B C D) with (cross C D C B) by (unfold cross; ring). eapply Rle_trans; [apply cross_le|]. apply Mono; [exact P2|]. now rewrite dist_sym.
    + eapply Rle_lt_trans; [|apply (Key (dist C D) Hcd)]. apply Rplus_le_compat_r. apply Rplus_le_compat; [apply MonE, Mono; assumption|].
      apply Rmult_le_compat_l; [lra|]. apply MonE. rewrite (Rmult_comm (dist A B)). apply Mono; assumption.
  - refine (quot_side lm (seg_ns lm a b c d) (seg_den lm a b c d) _ _ _ _ (dl * dist A B) (dist A B * (17 / 6 * M)) Ws Wd _ _ _ _ Fs Hs).
    + replace (cross A B C A - cross A B C D) with (- cross A B A D) by (unfold cross; ring). replace (cross A B C A) with (- cross A B A C) by (unfold cross; ring).
      destruct Bs as [[Q1 Q2]|[Q1 Q2]]; [right|left]; lra.
    + eapply Rle_trans; [apply cross_le|]. apply Mono; [exact P1|]. now rewrite dist_sym.
    + replace (cross A B C A - cross A B C D) with (- cross A B A D) by (unfold cross; ring). rewrite Rabs_Ropp. eapply Rle_trans; [apply cross_le|]. now apply Mono.
    + eapply Rle_lt_trans; [|apply (Key (dist A B) Hab)]. apply Rplus_le_compat_r. apply Rplus_le_compat; [apply MonE, Mono; assumption|].
      apply Rmult_le_compat_l; [lra|]. apply MonE, Mono; assumption.
Qed.

Lemma lerp_slip : forall x y : R, Rabs x <= M -> Rabs y <= M -> lerp_err x y <= 28 / 3 * (u32 * M).
Proof.
  intros x y Hx Hy. unfold lerp_err. destruct fine_nums as (N1 & N2 & N3 & N4 & N5 & N6 & N7 & N8 & N9).
  assert (Rabs (y - x) <= 2 * M) by (unfold Rminus; eapply Rle_trans; [apply Rabs_triang|]; rewrite Rabs_Ropp; lra).
  pose proof (tiny_small (-126) ltac:(lia)) as Ti.
  apply Rle_trans with (31 / 10 * u32 * (3 * M + M / 1000000)); [apply Rmult_le_compat_l; lra|].
  assert (0 <= u32 * M) by (apply Rmult_le_pos; lra). lra.
Qed.
Lemma coord_slip : forall (p z : point) l e dx dy L, 0 <= l -> 0 <= e -> 0 <= L -> L * L = dx * dx + dy * dy ->
  Rabs (vx p - vx z) <= l + e * Rabs dx -> Rabs (vy p - vy z) <= l + e * Rabs dy -> dist p z <= 3 / 2 * l + e * L.
Proof.
  intros p z l e dx dy L Pl Pe PL EL H1 H2. assert (0 <= e * L) by now apply Rmult_le_pos. apply sq_le; [lra|]. rewrite dist_sq.
  set (P := Rabs dx) in *. set (Q := Rabs dy) in *. assert (PP : 0 <= P) by apply Rabs_pos. assert (PQ : 0 <= Q) by apply Rabs_pos.
  assert (SQ : forall r, Rabs r * Rabs r = r * r) by (intros r; rewrite <- Rabs_mult; apply Rabs_pos_eq, Rle_0_sqr).
  rewrite <- (SQ dx), <- (SQ dy) in EL. fold P Q in EL.
  rewrite <- (SQ (vx z - _)), <- (SQ (vy z - _)). rewrite (Rabs_minus_sym (vx z)), (Rabs_minus_sym (vy z)).
  assert (0 <= e * P) by now apply Rmult_le_pos. assert (0 <= e * Q) by now apply Rmult_le_pos.
  apply Rle_trans with ((l + e * P) * (l + e * P) + (l + e * Q) * (l + e * Q)).
  { apply Rplus_le_compat; apply Rmult_le_compat; auto using Rabs_pos. }
  assert (PQL : P + Q <= 3 / 2 * L) by (apply sq_le; [lra|]; pose proof (Rle_0_sqr (P - Q)) as Z; unfold Rsqr in Z; nra).
  assert (l * e * (P + Q) <= l * e * (3 / 2 * L)) by (apply Rmult_le_compat_l; [now apply Rmult_le_pos|exact PQL]).
  assert (0 <= l * l) by now apply Rmult_le_pos.
  replace ((l + e * P) * (l + e * P) + (l + e * Q) * (l + e * Q)) with (2 * (l * l) + 2 * (l * e * (P + Q)) + e * e * (P * P + Q * Q)) by ring.
  rewrite <- EL. replace ((3 / 2 * l + e * L) * (3 / 2 * l + e * L)) with (9 / 4 * (l * l) + 2 * (l * e * (3 / 2 * L)) + e * e * (L * L)) by field. lra.
Qed.

Lemma some_fin : forall q, inter lm a b c d = Some q -> pfin q.
Proof.
  intros q Q. destruct (seg_on lm a b c d q (pbound_inbox a Pa) (pbound_inbox b Pb) Q) as (_ & _ & [F1 _] & [F2 _]). split; assumption.
Qed.

(** A common end: the result, if any, is within rounding of it. *)
Lemma shared_close : forall q, inter lm a b c d = Some q ->
  (a = c \/ a = d -> dist (rp q) A <= h) /\ (b = c -> dist (rp q) B <= h).
Proof.
  intros q Q. destruct (shared_param lm a b c d q (pbound_inbox a Pa) (pbound_inbox b Pb) (pbound_inbox c Pc) (pbound_inbox d Pd) Q) as [S0 S1].
  destruct (seg_on lm a b c d q (pbound_inbox a Pa) (pbound_inbox b Pb) Q) as (_ & _ & [_ W1] & [_ W2]).
  change (seg_param lm a b c d) with (ft lm a b c d) in W1, W2. fold A B in W1, W2.
  destruct fine_nums as (N1 & N2 & N3 & N4 & N5 & N6 & N7 & N8 & N9).
  destruct Pa as (_ & Ba1 & Ba2), Pb as (_ & Bb1 & Bb2).
  pose proof (lerp_slip _ _ Ba1 Bb1) as E1. pose proof (lerp_slip _ _ Ba2 Bb2) as E2.
  assert (Z : 0 <= u32 * M) by (apply Rmult_le_pos; lra). assert (0 <= u32 * (M * K)) by (apply Rmult_le_pos; [lra|apply Rmult_le_pos; lra]).
  assert (G : forall z : point, z = along A B (B2R (ft lm a b c d)) -> dist (rp q) z <= h).
  { intros z ->. apply Rle_trans with (3 / 2 * (28 / 3 * (u32 * M)) + 0 * 0); [|lra].
    apply (coord_slip _ _ (28 / 3 * (u32 * M)) 0 0 0 0); try lra; rewrite Rmult_0_l, Rplus_0_r; [exact (Rle_trans _ _ _ W1 E1)|exact (Rle_trans _ _ _ W2 E2)]. }
  split; intros E; apply G.
  - rewrite (S0 E). now rewrite along_0.
  - rewrite (S1 E). now rewrite along_1.
Qed.

(** A well-conditioned crossing of the lines. *)
Lemma par_slip : cross A B C D <> 0 -> cond A B C D <= K -> 0 <= par_err A B C D /\ par_err A B C D * dist A B <= 34 * (u32 * (M * K)).
Proof.
  intros NZ HK. destruct fine_nums as (N1 & N2 & N3 & N4 & N5 & N6 & N7 & N8 & N9). unfold par_err.
  assert (P1 : 0 < dist A B) by lra. pose proof (dist_nonneg A C) as P2.
  assert (Pc0 : 0 <= cond A B C D).
  { unfold cond. apply Rmult_le_pos; [|apply Rlt_le, Rinv_0_lt_compat, Rabs_pos_lt, NZ]. pose proof (bpow_ge_0 radix2 (-100)). pose proof (dist_nonneg C D). assert (0 <= dist A B * dist C D) by (apply Rmult_le_pos; lra). lra. }
  assert (P3 : 0 <= dist A C / dist A B) by (apply Rmult_le_pos; [exact P2|apply Rlt_le, Rinv_0_lt_compat, P1]).
  split; [apply Rmult_le_pos; [apply Rmult_le_pos; lra|lra]|].
  replace (6 * u32 * cond A B C D * (dist A C / dist A B + 1) * dist A B) with (6 * u32 * (cond A B C D * (dist A C + dist A B))) by (field; lra).
  replace (34 * (u32 * (M * K))) with (6 * u32 * (K * (17 / 3 * M))) by field. apply Rmult_le_compat_l; [lra|].
  pose proof (pb_dist a b Pa Pb) as L1. pose proof (pb_dist a c Pa Pc) as L3. fold A B C in L1, L3. apply Rmult_le_compat; lra.
Qed.
Lemma cross_close : forall q x t s, cross A B C D <> 0 -> cond A B C D <= K -> x = along A B t -> x = along C D s ->
  inter lm a b c d = Some q -> dist (rp q) x <= h.
Proof.
  intros q x t s NZ HK Et Es Q. destruct fine_nums as (N1 & N2 & N3 & N4 & N5 & N6 & N7 & N8 & N9).
  assert (HC : 100 * u32 * cond A B C D <= 1).
  { apply Rle_trans with (100 * u32 * 1000); [apply Rmult_le_compat_l; lra|]. unfold u32. lra. }
  destruct (seg_accurate lm a b c d (pbound_inbox a Pa) (pbound_inbox b Pb) (pbound_inbox c Pc) (pbound_inbox d Pd) NZ HC t s (eq_trans (eq_sym Et) Es)) as [_ G].
  destruct (G q Q) as (_ & _ & [_ W1] & [_ W2]). fold A B C D in W1, W2. rewrite <- Et in W1, W2.
  destruct (par_slip NZ HK) as [Pe Le]. pose proof Pa as (_ & Ba1 & Ba2). pose proof Pb as (_ & Bb1 & Bb2).
  pose proof (lerp_slip _ _ Ba1 Bb1) as E1. pose proof (lerp_slip _ _ Ba2 Bb2) as E2.
  assert (Z : 0 <= u32 * M) by (apply Rmult_le_pos; lra).
  apply Rle_trans with (3 / 2 * (28 / 3 * (u32 * M)) + par_err A B C D * dist A B); [|lra].
  apply (coord_slip (rp q) x (28 / 3 * (u32 * M)) (par_err A B C D) (vx B - vx A) (vy B - vy A) (dist A B)); try lra.

  - apply dist_sq.
  - eapply Rle_trans; [exact W1|]. apply Rplus_le_compat_r. exact E1.
  - eapply Rle_trans; [exact W2|]. apply Rplus_le_compat_r. exact E2.
Qed.
End Inter.

Lemma dist_along : forall p q t, 0 <= t -> dist p (along p q t) = t * dist p q.
Proof.
  intros p q t Ht. apply sq_eq; [apply dist_nonneg|apply Rmult_le_pos; [exact Ht|apply dist_nonneg]|].
  replace (t * dist p q * (t * dist p q)) with (t * t * (dist p q * dist p q)) by ring. rewrite !dist_sq. unfold along. cbn [vx vy]. ring.
Qed.
Lemma cross_some : forall a b c d : Vec2 f32, pbound M a -> pbound M b -> pbound M c -> pbound M d ->
  let A := rp a in let B := rp b in let C := rp c in let D := rp d in dl <= dist A B -> dl <= dist C D ->
  cross A B C D <> 0 -> cond A B C D <= K -> forall x, on_segment A B x -> on_segment C D x ->
  dl <= dist x A -> dl <= dist x B -> dl <= dist x C -> dl <= dist x D -> exists q, inter lm a b c d = Some q.
Proof.
  intros a b c d Pa Pb Pc Pd A B C D Hab Hcd NZ HK x (t & Ht & Et) (s & Hs & Es) D1 D2 D3 D4.
  destruct fine_nums as (N1 & N2 & N3 & N4 & N5 & N6 & N7 & N8 & N9).
  assert (HC : 100 * u32 * cond A B C D <= 1).
  { apply Rle_trans with (100 * u32 * 1000); [apply Rmult_le_compat_l; lra|]. unfold u32. lra. }
  destruct (seg_accurate lm a b c d (pbound_inbox a Pa) (pbound_inbox b Pb) (pbound_inbox c Pc) (pbound_inbox d Pd) NZ HC t s (eq_trans (eq_sym Et) Es)) as [G _].
  assert (In : forall p q l w e, 0 <= w <= 1 -> l = dist p q -> dl <= l -> e * l <= h -> dl <= dist (along p q w) p -> dl <= dist (along p q w) q -> e <= w <= 1 - e).
  { intros p q l w e Hw El Hl He Q1 Q2. rewrite dist_sym, dist_along, <- El in Q1 by lra.
    rewrite along_rev, dist_sym, dist_along, (dist_sym q p), <- El in Q2 by lra.
    assert (Hd : h <= dl) by lra. split; [apply (Rmult_le_reg_r l); lra|]. apply (Rmult_le_reg_r l); lra. }
  apply G.
  - apply (In A B (dist A B)); auto; try (rewrite <- Et; assumption). destruct (par_slip a b c d Pa Pb Pc Hab NZ HK) as [_ L]. exact (Rle_trans _ _ _ L N7).
  - apply (In C D (dist C D)); auto; try (rewrite <- Es; assumption).
    assert (NZ' : cross C D A B <> 0) by (replace (cross C D A B) with (- cross A B C D) by (unfold cross; ring); lra).
    destruct (par_slip c d a b Pc Pd Pa Hcd NZ' ltac:(rewrite cond_sym; exact HK)) as [_ L]. exact (Rle_trans _ _ _ L N7).
Qed.
End Fine.
