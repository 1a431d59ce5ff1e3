(** * calculate_line_intersection in f32. *)
From Coq Require Import ZArith Reals List Bool Lia Lra Psatz Arith.
From Flocq Require Import Core.Core IEEE754.BinarySingleNaN.
From Verif Require Import Scalar Utils PlaneSpec F32 Laws PolyF32 GeoSpec Format RoundSpec Rounding NearCalc GeoRound GeoOn GeoPoly GeoSeg GridGraph ConsSpec.
Local Open Scope R_scope.

Section Line.
Variable lm : Libm.
Local Notation f := (single lm).
Local Notation F := (FO lm).

Definition line_det (a b c d : Vec2 F) : F := ((vy d - vy c) * (vx b - vx a) - (vx d - vx c) * (vy b - vy a))%ops.
Definition line_nb (a b c d : Vec2 F) : F := ((vx b - vx a) * (vy a - vy c) - (vy b - vy a) * (vx a - vx c))%ops.

Lemma line_parts : forall a b c d : Vec2 f32, inbox a -> inbox b -> inbox c -> inbox d ->
  let A := real_point a in let B := real_point b in let C := real_point c in let D := real_point d in
  within (det_err A B C D) (line_det a b c d : f32) (cross A B C D) /\
  within (41 / 10 * u32 * (dist A B * dist A C + bpow radix2 (-125))) (line_nb a b c d : f32) (cross A B C A).
Proof.
  intros a b c d ([Fax Fay] & Bax & Bay) ([Fbx Fby] & Bbx & Bby) ([Fcx Fcy] & Bcx & Bcy) ([Fdx Fdy] & Bdx & Bdy) A B C D.
  destruct (box_diff lm _ _ Fbx Fax Bbx Bax) as [D1 U1]. destruct (box_diff lm _ _ Fby Fay Bby Bay) as [D2 U2].
  destruct (box_diff lm _ _ Fdx Fcx Bdx Bcx) as [D3 U3]. destruct (box_diff lm _ _ Fdy Fcy Bdy Bcy) as [D4 U4].
  destruct (box_diff lm _ _ Fax Fcx Bax Bcx) as [D5 U5]. destruct (box_diff lm _ _ Fay Fcy Bay Bcy) as [D6 U6].
  assert (SZ : forall z, Rabs z <= bpow radix2 61 -> size61 (Rabs z)) by (intros z Hz; split; [apply Rabs_pos|exact Hz]).
  apply SZ in U1, U2, U3, U4, U5, U6.
  assert (L0 : (B2R (vx b) - B2R (vx a)) * (B2R (vx b) - B2R (vx a)) + (B2R (vy b) - B2R (vy a)) * (B2R (vy b) - B2R (vy a)) = dist A B * dist A B) by (symmetry; apply dist_sq).
  assert (L1 : (B2R (vx d) - B2R (vx c)) * (B2R (vx d) - B2R (vx c)) + (B2R (vy d) - B2R (vy c)) * (B2R (vy d) - B2R (vy c)) = dist C D * dist C D) by (symmetry; apply dist_sq).
  assert (L2 : (B2R (vx a) - B2R (vx c)) * (B2R (vx a) - B2R (vx c)) + (B2R (vy a) - B2R (vy c)) * (B2R (vy a) - B2R (vy c)) = dist A C * dist A C) by (rewrite dist_comm; symmetry; apply dist_sq).
  pose proof (dist_nonneg A B) as P0. pose proof (dist_nonneg C D) as P1. pose proof (dist_nonneg A C) as P2.
  assert (SW : forall x y z, x + y = z -> y + x = z) by (intros; lra).
  split.
  - pose proof (combo_sub lm _ _ _ _ _ _ _ _ _ _ _ _ D4 D1 D3 D2 U4 U1 U3 U2) as G.
    replace (cross A B C D) with ((B2R (vy d) - B2R (vy c)) * (B2R (vx b) - B2R (vx a)) - (B2R (vx d) - B2R (vx c)) * (B2R (vy b) - B2R (vy a))) by (unfold cross, A, B, C, D, real_point; cbn [vx vy]; ring).
    apply (near_within lm _ _ _ _ G). rewrite (Rmult_comm (dist A B)). apply (cauchy _ _ _ _ _ _ P1 P0 (SW _ _ _ L1) L0).
  - pose proof (combo_sub lm _ _ _ _ _ _ _ _ _ _ _ _ D1 D6 D2 D5 U1 U6 U2 U5) as G.
    replace (cross A B C A) with ((B2R (vx b) - B2R (vx a)) * (B2R (vy a) - B2R (vy c)) - (B2R (vy b) - B2R (vy a)) * (B2R (vx a) - B2R (vx c))) by (unfold cross, A, B, C, D, real_point; cbn [vx vy]; ring).
    apply (near_within lm _ _ _ _ G). apply (cauchy _ _ _ _ _ _ P0 P2 L0 (SW _ _ _ L2)).
Qed.
Lemma line_eq : forall a b c d : Vec2 F, calculate_line_intersection a b c d =
  (if oabs (line_det a b c d) >? ceps then
     let t := seg_nt lm a b c d / line_det a b c d in let s := line_nb a b c d / line_det a b c d in
     if negb (((c0 <=? t) && (t <=? c1)) && ((c0 <=? s) && (s <=? c1))) then None
     else Some (P2 (vx a + t * (vx b - vx a)) (vy a + t * (vy b - vy a))) else None)%ops.
Proof. reflexivity. Qed.
(** The test of the determinant against EPSILON. *)
Lemma det_test : forall (z : f32) r e, within e z r -> let k := Bltb (ceps : F) (Babs z) in
  (eps32 + e < Rabs r -> k = true) /\ (k = true -> eps32 - e < Rabs r).
Proof.
  intros z r e [Fz Hz] k. destruct (eps_val lm) as [Fe Ee].
  assert (E : k = Rlt_bool eps32 (Rabs (B2R z))).
  { unfold k. rewrite Bltb_correct; [|exact Fe|now rewrite is_finite_Babs]. rewrite B2R_Babs. f_equal. exact Ee. }
  rewrite E. pose proof (Rabs_triang_inv r (B2R z)) as T1. pose proof (Rabs_triang_inv (B2R z) r) as T2. rewrite Rabs_minus_sym in T1.
  split; intros H; [apply Rlt_bool_true; lra|]. destruct (Rlt_bool_spec eps32 (Rabs (B2R z))); [lra|discriminate].
Qed.
Lemma line_parallel : forall a b c d : Vec2 f32, inbox a -> inbox b -> inbox c -> inbox d ->
  let A := real_point a in let B := real_point b in let C := real_point c in let D := real_point d in
  Rabs (cross A B C D) <= eps32 - det_err A B C D -> calculate_line_intersection (O := F) a b c d = None.
Proof.
  intros a b c d Ha Hb Hc Hd A B C D H. destruct (line_parts a b c d Ha Hb Hc Hd) as [Wd _]. fold A B C D in Wd.
  rewrite (line_eq a b c d). destruct (det_test _ _ _ Wd) as [_ K]. change (@oabs F) with (@Babs 24 128). change (@olt F) with (@Bltb 24 128).
  destruct (Bltb _ _); [|reflexivity]. specialize (K eq_refl). lra.
Qed.
Theorem line_accurate : forall a b c d : Vec2 f32, inbox a -> inbox b -> inbox c -> inbox d ->
  let A := real_point a in let B := real_point b in let C := real_point c in let D := real_point d in
  cross A B C D <> 0 -> 100 * u32 * cond A B C D <= 1 ->
  forall t s, along A B t = along C D s ->
  let et := par_err A B C D in let es := par_err C D A B in
  (eps32 + det_err A B C D < Rabs (cross A B C D) -> et <= t <= 1 - et -> es <= s <= 1 - es ->
     exists p, calculate_line_intersection (O := F) a b c d = Some p) /\
  (forall p, calculate_line_intersection (O := F) a b c d = Some p ->
     eps32 - det_err A B C D < Rabs (cross A B C D) /\ - et <= t <= 1 + et /\ - es <= s <= 1 + es /\
     within (lerp_err (vx A) (vx B) + et * Rabs (vx B - vx A)) (vx p : f32) (vx (along A B t)) /\
     within (lerp_err (vy A) (vy B) + et * Rabs (vy B - vy A)) (vy p : f32) (vy (along A B t))).
Proof.
  intros a b c d Ha Hb Hc Hd A B C D ND HK t s Est et es.
  destruct (cramer A B C D t s ND Est) as [Et Es].
  destruct (seg_parts lm a b c d Ha Hb Hc Hd) as (_ & Wt & _). destruct (line_parts a b c d Ha Hb Hc Hd) as [Wd Ws]. fold A B C D in Wd, Wt, Ws.
  pose proof (det_test _ _ _ Wd) as [K1 K2]. unfold det_err in Wd.
  pose proof (cross_le A B C D) as CL. assert (PD : 0 < Rabs (cross A B C D)) by now apply Rabs_pos_lt.
  pose proof (dist_nonneg A B) as N0. pose proof (dist_nonneg C D) as N1. pose proof (dist_nonneg A C) as N2.
  assert (P0 : 0 < dist A B) by nra. assert (P1 : 0 < dist C D) by nra.
  destruct (par_close lm (seg_nt lm a b c d) (line_det a b c d) _ _ (cond A B C D) (dist A B) (dist C D) (dist A C) P0 N1 N2 ND eq_refl HK CL Wt Wd) as [T1 T2].
  destruct (par_close lm (line_nb a b c d) (line_det a b c d) (cross A B C A) (cross A B C D) (cond C D A B) (dist C D) (dist A B) (dist C A) P1 N0 (dist_nonneg C A) ND) as [S1 S2].
  { rewrite (Rmult_comm (dist C D)). rewrite <- cond_sym. reflexivity. }
  { now rewrite <- cond_sym. }
  { now rewrite Rmult_comm. }
  { rewrite (dist_comm C A). exact Ws. }
  { rewrite (Rmult_comm (dist C D)). exact Wd. }
  fold (par_err A B C D) in T1, T2. fold (par_err C D A B) in S1, S2. fold et in T1, T2. fold es in S1, S2. rewrite <- Et in T1, T2. rewrite <- Es in S1, S2.
  set (ft := Bdiv mode_NE (seg_nt lm a b c d : f32) (line_det a b c d)) in *. set (fs := Bdiv mode_NE (line_nb a b c d : f32) (line_det a b c d)) in *.
  rewrite (line_eq a b c d).
  cbv zeta. change (@odiv F (line_nb a b c d) (line_det a b c d)) with fs. change (@odiv F (seg_nt lm a b c d) (line_det a b c d)) with ft.
  change (@ole F) with (@Bleb 24 128). change (@c0 F) with (f32_Z 0). change (@c1 F) with (f32_Z 1). change (@oabs F) with (@Babs 24 128). change (@olt F) with (@Bltb 24 128).
  split.
  - intros Hdet Ht Hs.
    assert (UN : forall (z : f32) y e, is_finite z = true -> Rabs (B2R z - y) <= e -> e <= y <= 1 - e -> Bleb (f32_Z 0) z = true /\ Bleb z (f32_Z 1) = true).
    { intros z y e Fz Hz Hy. apply Rabs_le_inv in Hz. rewrite !Bleb_correct by (try exact Fz; reflexivity).
      destruct (f32_Z_exact 1 ltac:(lia)) as [_ E1]. rewrite E1. destruct (f32_Z_exact 0 ltac:(lia)) as [_ E0]. rewrite E0.
      split; apply Rle_bool_true; lra. }
    assert (PE : forall X Y Z W, 0 < Rabs (cross X Y Z W) -> 0 < dist X Y -> 0 <= par_err X Y Z W).
    { intros X Y Z W HX HY. unfold par_err. assert (0 <= cond X Y Z W).
      { unfold cond. pose proof (bpow_ge_0 radix2 (-100)). pose proof (dist_nonneg Z W). apply Rmult_le_pos; [nra|apply Rlt_le, Rinv_0_lt_compat, HX]. }
      assert (0 <= dist X Z / dist X Y) by (apply Rmult_le_pos; [apply dist_nonneg|apply Rlt_le, Rinv_0_lt_compat, HY]). apply Rmult_le_pos; [unfold u32; lra|lra]. }
    assert (Pt : 0 <= et) by now apply PE.
    assert (Ps : 0 <= es). { apply PE; [|exact P1]. replace (cross C D A B) with (- cross A B C D) by (unfold cross; ring). now rewrite Rabs_Ropp. }
    destruct T1 as [Ft Dt]; [rewrite Rabs_pos_eq; lra|lra|]. destruct S1 as [Fs Ds]; [rewrite Rabs_pos_eq; lra|lra|].
    rewrite (K1 Hdet). destruct (UN ft t et Ft Dt Ht) as [-> ->]. destruct (UN fs s es Fs Ds Hs) as [-> ->]. eexists. reflexivity.
  - intros p H. destruct (Bltb _ _) in H, K2; [|discriminate]. split; [now apply K2|].
    destruct (negb _) eqn:E in H; [discriminate|]. apply negb_false_iff in E.
    apply andb_prop in E. destruct E as [E34 E12]. apply andb_prop in E34, E12. destruct E34 as [E3 E4], E12 as [E1 E2].
    destruct (unit_finite ft E3 E4) as [Ft Ht]. destruct (unit_finite fs E1 E2) as [Fs Hs].
    pose proof (T2 Ft ltac:(rewrite Rabs_pos_eq; lra)) as Dt. pose proof (S2 Fs ltac:(rewrite Rabs_pos_eq; lra)) as Ds.
    pose proof (Rabs_le_inv _ _ Dt) as Dt'. pose proof (Rabs_le_inv _ _ Ds) as Ds'. split; [lra|]. split; [lra|].
    injection H as <-. destruct Ha as ([Fax Fay] & Bax & Bay), Hb as ([Fbx Fby] & Bbx & Bby). cbn [vx vy].
    assert (ML : forall x y (z : f32), within (lerp_err x y) z (x + B2R ft * (y - x)) -> within (lerp_err x y + et * Rabs (y - x)) z (x + t * (y - x))).
    { intros x y z [Fz Hz]. split; [exact Fz|]. replace (B2R z - (x + t * (y - x))) with ((B2R z - (x + B2R ft * (y - x))) + (B2R ft - t) * (y - x)) by ring.
      eapply Rle_trans; [apply Rabs_triang|]. rewrite Rabs_mult. apply Rplus_le_compat; [exact Hz|]. apply Rmult_le_compat_r; [apply Rabs_pos|exact Dt]. }
    split; apply ML; apply (lerp_near lm); assumption.
Qed.
End Line.
