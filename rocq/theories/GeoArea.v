(** * Polygon area, orientation and triangulation in f32 with rounding. *)
From Coq Require Import ZArith Reals List Bool Lia Lra Psatz Arith.
From Flocq Require Import Core.Core IEEE754.BinarySingleNaN.
From Verif Require Import Scalar Utils Polygon PlaneSpec PolySpec F32 Laws PolyArea PolyDiag PolyF32 SimpleSpec
  GeoSpec Format RoundSpec Rounding NearCalc GeoRound GeoOn GeoPoly.
Import ListNotations.
Local Open Scope R_scope.

Section Area.
Variable lm : Libm.
Local Notation f := (single lm).
Local Notation area2F := (area2 (O := FO lm)).

Lemma terms_nonneg : forall a b c, 0 <= area_terms a b c.
Proof. intros. unfold area_terms. apply Rplus_le_le_0_compat; apply Rmult_le_pos; apply Rabs_pos. Qed.
Lemma cross_terms : forall a b c, Rabs (cross a b a c) <= area_terms a b c.
Proof.
  intros. unfold cross, area_terms, Rminus at 1. eapply Rle_trans; [apply Rabs_triang|]. rewrite Rabs_Ropp, !Rabs_mult. lra.
Qed.
Lemma area2_nr : forall a b c : Vec2 f32, inbox a -> inbox b -> inbox c ->
  nr f 4 (area_terms (real_point a) (real_point b) (real_point c) + bpow radix2 (-125)) (area2F a b c) (cross (real_point a) (real_point b) (real_point a) (real_point c)).
Proof.
  intros a b c Ha Hb Hc. destruct (area2_parts lm a b c Ha Hb Hc) as (v1 & v2 & d & _ & _ & Hd & F & E & H).
  set (A := real_point a) in *. set (B := real_point b) in *. set (C := real_point c) in *.
  assert (EA : area_terms A B C = Rabs (B2R (vx b) - B2R (vx a)) * Rabs (B2R (vy c) - B2R (vy a)) + Rabs (B2R (vx c) - B2R (vx a)) * Rabs (B2R (vy b) - B2R (vy a))) by reflexivity.
  assert (EC : cross A B A C = (B2R (vx b) - B2R (vx a)) * (B2R (vy c) - B2R (vy a)) - (B2R (vx c) - B2R (vx a)) * (B2R (vy b) - B2R (vy a))) by (unfold cross, A, B, C, real_point; cbn [vx vy]; ring).
  rewrite two_tiny, <- EA, <- EC in H. pose proof (cross_terms A B C). pose proof (bpow_ge_0 radix2 (-125)).
  split; [lra|]. split; [exact F|]. pose proof (round_step f 3 (v1 - v2) (cross A B A C) (area_terms A B C + bpow radix2 (-125)) d ltac:(lra)) as R.
  rewrite u_eq in R. specialize (R H Hd).
  match goal with |- Rabs (?x - _) <= _ => change x with (B2R (area2F a b c)) end. rewrite E. exact R.
Qed.

Lemma fan_nonneg : forall l a, 0 <= fan a l.
Proof.
  induction l as [|b [|c l] IH]; intros a; [cbn; lra|cbn; lra|]. cbn [fan]. cbn [fan] in IH. pose proof (terms_nonneg a b c). pose proof (bpow_ge_0 radix2 (-125)). specialize (IH a). cbn [fan] in IH. lra.
Qed.
Fixpoint fan_sum (a : point) (l : list point) : R :=
  match l with b :: ((c :: _) as l') => cross a b a c + fan_sum a l' | _ => 0 end.

Lemma loop_nr : forall (a : Vec2 f32) l n M s r, inbox a -> Forall inbox l -> (4 <= n)%nat -> nr f n M s r ->
  (1 + u32) ^ (n + length l) * (M + fan (real_point a) (map real_point l)) < bpow radix2 128 ->
  nr f (n + (length l - 1)) (M + fan (real_point a) (map real_point l)) (area_loop (O := FO lm) a l s) (r + fan_sum (real_point a) (map real_point l)).
Proof.
  intros a l. induction l as [|b l IH]; intros n M s r Ha Hl Hn Hs Hroom.
  - cbn [area_loop map fan fan_sum length]. rewrite !Rplus_0_r. apply (nr_mono f n _ M); [lia|lra|exact Hs].
  - destruct l as [|c l].
    + cbn [area_loop map fan fan_sum length]. rewrite !Rplus_0_r. apply (nr_mono f n _ M); [lia|lra|exact Hs].
    + inversion Hl as [|? ? Hb Hl']. subst. inversion Hl' as [|? ? Hc Hl'']. subst.
      cbn [area_loop]. set (A := real_point a) in *. set (B := real_point b) in *. set (C := real_point c) in *.
      change (fan A (map real_point (b :: c :: l))) with (area_terms A B C + bpow radix2 (-125) + fan A (map real_point (c :: l))).
      change (fan_sum A (map real_point (b :: c :: l))) with (cross A B A C + fan_sum A (map real_point (c :: l))).
      set (T := area_terms A B C + bpow radix2 (-125)) in *. set (R := fan A (map real_point (c :: l))) in *.
      change ((1 + u32) ^ (n + length (b :: c :: l)) * (M + (T + R)) < bpow radix2 128) in Hroom.
      assert (PR : 0 <= R) by apply fan_nonneg.
      assert (PM : 0 <= M) by (destruct Hs as [Hs _]; pose proof (Rabs_pos r); lra).
      assert (PT : 0 <= T) by (unfold T; pose proof (terms_nonneg A B C); pose proof (bpow_ge_0 radix2 (-125)); lra).
      assert (Ar : nr f n T (area2F a b c) (cross A B A C)) by (apply (nr_mono f 4 _ T); [exact Hn|lra|apply area2_nr; assumption]).
      assert (PW : forall k m, (k <= m)%nat -> (1 + u32) ^ k <= (1 + u32) ^ m) by (intros; apply Rle_pow; [unfold u32; lra|assumption]).
      assert (Ad : nr f (S n) (M + T) (Bplus mode_NE s (area2F a b c)) (r + cross A B A C)).
      { apply nr_add; [exact Hs|exact Ar|]. rewrite u_eq, huge_eq. eapply Rle_lt_trans; [|exact Hroom].
        apply Rmult_le_compat; [apply pow_le; unfold u32; lra|lra|apply PW; cbn [length]; lia|lra]. }
      pose proof (IH (S n) (M + T) _ _ Ha Hl' ltac:(lia) Ad) as G.
      replace (n + (length (b :: c :: l) - 1))%nat with (S n + (length (c :: l) - 1))%nat by (cbn [length]; lia).
      replace (M + (T + R)) with (M + T + R) by ring. replace (r + (cross A B A C + fan_sum A (map real_point (c :: l)))) with (r + cross A B A C + fan_sum A (map real_point (c :: l))) by ring.
      apply G. eapply Rle_lt_trans; [|exact Hroom]. fold A. fold R.
      apply Req_le. f_equal; [f_equal; cbn [length]; lia|ring].
Qed.
Lemma fan_sum_loop : forall (a : point) l (s : R), @eq R (area_loop (O := RO) a l s) (s + fan_sum a l).
Proof.
  intros a l. induction l as [|b [|c l] IH]; intros s; [cbn; ring|cbn; ring|]. 
  change (@eq R (area_loop (O := RO) a (c :: l) (Rplus s (area2 (O := RO) a b c))) (s + (cross a b a c + fan_sum a (c :: l)))).
  rewrite IH, area2_cross. ring.
Qed.
Lemma fan_shoelace : forall a l, fan_sum a l = shoelace (a :: l).
Proof. intros a l. rewrite <- area_poly2_shoelace. cbn [area_poly2]. rewrite fan_sum_loop. cbn [c0 RO]. ring. Qed.

Lemma area_poly_nr : forall vs : list (Vec2 f32), Forall inbox vs -> (3 <= length vs)%nat ->
  (1 + u32) ^ (length vs + 3) * fan_terms (map real_point vs) < bpow radix2 128 ->
  nr f (length vs + 2) (fan_terms (map real_point vs)) (area_poly2 (O := FO lm) vs) (shoelace (map real_point vs)).
Proof.
  intros [|a l] H L Hr; [cbn in L; lia|]. inversion H as [|? ? Ha Hl]; subst. cbn [map fan_terms area_poly2] in *.
  rewrite <- fan_shoelace. assert (Z : nr f 4 0 (c0 : FO lm) 0).
  { split; [rewrite Rabs_R0; lra|]. split; [reflexivity|]. change (B2R (c0 : FO lm)) with 0. rewrite Rminus_0_r, Rabs_R0. lra. }
  pose proof (loop_nr a l 4 0 _ 0 Ha Hl ltac:(lia) Z) as G. rewrite !Rplus_0_l in G.
  replace (length (a :: l) + 2)%nat with (4 + (length l - 1))%nat by (cbn [length] in *; lia). apply G.
  eapply Rle_lt_trans; [|exact Hr]. apply Req_le. f_equal. f_equal. cbn [length]. lia.
Qed.

Lemma fan_ge : forall vs : list (Vec2 f32), (3 <= length vs)%nat -> bpow radix2 (-125) <= fan_terms (map real_point vs).
Proof.
  intros [|a [|b [|c l]]] H; cbn [length] in H; try lia. cbn [map fan_terms]. set (A := real_point a). set (B := real_point b). set (C := real_point c).
  change (fan A (B :: C :: map real_point l)) with (area_terms A B C + bpow radix2 (-125) + fan A (C :: map real_point l)).
  pose proof (terms_nonneg A B C). pose proof (fan_nonneg (C :: map real_point l) A). lra.
Qed.

(** ** Polygon::new picks the counterclockwise order *)
Lemma new_orient : forall vs : list (Vec2 f32), Forall inbox vs -> (3 <= length vs)%nat ->
  (1 + u32) ^ (length vs + 3) * fan_terms (map real_point vs) < bpow radix2 128 ->
  gam (length vs + 2) * fan_terms (map real_point vs) < Rabs (shoelace (map real_point vs)) ->
  exists p, polygon_new (O := FO lm) vs = Some p /\ (vertices p = vs \/ vertices p = rev vs) /\ 0 < shoelace (map real_point (vertices p)).
Proof.
  intros vs H L Hr Hs. destruct (area_poly_nr vs H L Hr) as (_ & F & E). rewrite u_eq in E. fold (gam (length vs + 2)) in E.
  match type of E with Rabs ?x <= _ => change x with (B2R (area_poly2 (O := FO lm) vs : f32) - shoelace (map real_point vs)) in E end.
  apply Rabs_le_inv in E. unfold polygon_new. change (@length (Vec2 (FO lm)) vs) with (length vs). destruct (Nat.ltb_spec (length vs) 3); [lia|].
  cbn [olt FO]. change (c0 : FO lm) with zero32. rewrite (Bltb_correct 24 128 _ zero32 F eq_refl). change (B2R zero32) with 0.
  destruct (Rlt_bool_spec (B2R (area_poly2 (O := FO lm) vs : f32)) 0) as [N|N]; eexists; (split; [reflexivity|]); cbn [vertices].
  - split; [now right|]. rewrite map_rev, shoelace_rev. change (0 < - shoelace (map real_point vs)). unfold Rabs in Hs. destruct (Rcase_abs _); lra.
  - split; [now left|]. change (0 < shoelace (map real_point vs)). unfold Rabs in Hs. destruct (Rcase_abs _); lra.
Qed.
Lemma polygon_area_near : forall p : Polygon f32, Forall inbox (vertices p) -> (3 <= length (vertices p))%nat ->
  (1 + u32) ^ (length (vertices p) + 3) * fan_terms (map real_point (vertices p)) < bpow radix2 128 ->
  within (gam (length (vertices p) + 3) * (fan_terms (map real_point (vertices p)) / 2 + bpow radix2 (-126)))
    (polygon_area (O := FO lm) p : f32) (Rabs (shoelace (map real_point (vertices p))) / 2).
Proof.
  intros [vs] H L Hr. cbn [vertices] in *. pose proof (area_poly_nr vs H L Hr) as N.
  unfold polygon_area. cbn [vertices oabs omul FO]. set (x := area_poly2 (O := FO lm) vs) in *. set (M := fan_terms (map real_point vs)) in *. set (r := shoelace (map real_point vs)) in *.
  assert (Ab : nr f (length vs + 2) M (Babs x) (Rabs r)).
  { destruct N as (N1 & N2 & N3). split; [now rewrite Rabs_Rabsolu|]. split; [now rewrite is_finite_Babs|]. rewrite B2R_Babs.
    eapply Rle_trans; [apply Rabs_triang_inv2|exact N3]. }
  assert (Hh : nr f 0 (/ 2) (chalf : FO lm) (/ 2)).
  { split; [rewrite Rabs_pos_eq; lra|]. split; [reflexivity|]. assert (V : B2R (chalf : FO lm) = / 2) by (vm_compute; lra). change (Rabs (B2R (chalf : FO lm) - / 2) <= ((1 + ur f) ^ 0 - 1) * / 2). rewrite V. replace (/ 2 - / 2) with 0 by ring. rewrite Rabs_R0. cbn [pow]. lra. }
  assert (PM : 0 <= M) by (destruct N as [N _]; pose proof (Rabs_pos r); lra).
  pose proof (nr_mul f _ _ _ _ _ _ _ _ Ab Hh) as G. rewrite u_eq, huge_eq, tiny_eq in G. rewrite Nat.add_0_r in G. destruct G as (_ & G1 & G2).
  { assert (G : bpow radix2 (-126) <= M / 2).
    { pose proof (fan_ge vs L) as G. fold M in G. replace (bpow radix2 (-125)) with (2 * bpow radix2 (-126)) in G; [lra|]. change (-125)%Z with (1 + -126)%Z. rewrite bpow_plus. reflexivity. }
    eapply Rle_lt_trans; [|exact Hr]. replace (length vs + 3)%nat with (S (length vs + 2)) by lia. apply Rmult_le_compat_l; [apply pow_le; unfold u32; lra|lra]. }
  split; [exact G1|]. rewrite u_eq in G2. unfold gam. replace (length vs + 3)%nat with (S (length vs + 2)) by lia. unfold Rdiv. exact G2.
Qed.

(** ** Robust position *)
Lemma robust_area : forall vs : list (Vec2 f32), Forall inbox vs -> robust_position (map real_point vs) ->
  forall a b c, In a vs -> In b vs -> In c vs -> is_finite (area2F a b c) = true /\
  Rltb 0 (B2R (area2F a b c)) = Rltb 0 (area2 (O := RO) (toR a) (toR b) (toR c)) /\
  Rltb (B2R (area2F a b c)) 0 = Rltb (area2 (O := RO) (toR a) (toR b) (toR c)) 0 /\
  Reqb (B2R (area2F a b c)) 0 = Reqb (area2 (O := RO) (toR a) (toR b) (toR c)) 0.
Proof.
  intros vs H R a b c Ha Hb Hc. rewrite Forall_forall in H.
  destruct (area2_sign lm a b c (H a Ha) (H b Hb) (H c Hc)) as (F & S1 & S2).
  { apply R; now apply in_map. }
  split; [exact F|]. change (toR a) with (real_point a). change (toR b) with (real_point b). change (toR c) with (real_point c). rewrite area2_cross.
  set (x := B2R (area2F a b c)) in *. set (y := cross _ _ _ _) in *. unfold Rltb, Reqb.
  destruct (Rlt_dec 0 x), (Rlt_dec 0 y), (Rlt_dec x 0), (Rlt_dec y 0), (Req_EM_T x 0), (Req_EM_T y 0); repeat split; try reflexivity; exfalso; tauto || lra.
Qed.

Lemma robust_fin : forall vs : list (Vec2 f32), Forall inbox vs -> forall q, In q vs -> pfin q.
Proof. intros vs H q Hq. rewrite Forall_forall in H. now apply H. Qed.

Lemma robust_run : forall fuel (p : Polygon f32), Forall inbox (vertices p) -> robust_position (map real_point (vertices p)) ->
  triangulate (O := RO) fuel (polyR p) =
  option_map (fun r => match r with Ok us => Ok (map polyR us) | Panic => Panic end) (triangulate (O := FO lm) fuel p).
Proof.
  intros fuel p H R. apply (GeoPoly.triangulate_exact lm (fun q => In q (vertices p))).
  - exact (robust_fin _ H).
  - exact (robust_area _ H R).
  - now apply Forall_forall.
Qed.
End Area.
