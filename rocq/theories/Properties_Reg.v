(** * C114-C115: regular polygons in f32.

    u = [u32] = 2^-24.  [accurate_libm lm d]: the platform's sin and cos are within d of the exact
    values on [-7, 7]; [corner n r c i]: the exact corner (RegSpec.v).  [within], [inbox],
    [real_point]: as in Properties_Geo.v; [strictly_convex], [shoelace]: PolySpec.v; [tiling]: SimpleSpec.v. *)
From Coq Require Import List Arith Bool Lia Reals Lra ZArith Psatz.
From Flocq Require Import Core.Core IEEE754.BinarySingleNaN.
From Verif Require Import Scalar Utils Polygon PlaneSpec PolySpec F32 PolyF32 PolyArea Format RoundSpec GridGraph GeoSpec
  GeoRound GeoArea SimpleSpec SimpleTri RegSpec GeoReg GeoRegPoly Properties_Geo.
Import ListNotations.
Local Open Scope R_scope.
Local Notation cross := PlaneSpec.cross.
Local Notation rp := real_point.

(** ** C114: corners *)
Theorem C114_corners :
  forall lm, accurate_libm lm (2 * u32) -> forall n i (r : f32) (c : Vec2 f32), (i < n)%nat -> (Z.of_nat n <= 16777216)%Z ->
  is_finite r = true -> bpow radix2 (-80) <= B2R r <= bpow radix2 60 -> inbox c ->
  let v := regular_vertex (O := FO lm) n r c i in let q := corner n (B2R r) (rp c) i in
  within (u32 * (201 / 10 * B2R r + Rabs (B2R (vx c)))) (vx v : f32) (vx q) /\
  within (u32 * (201 / 10 * B2R r + Rabs (B2R (vy c)))) (vy v : f32) (vy q).
Proof. exact regular_vertex_near. Qed.
Print Assumptions C114_corners.

Lemma regular_facts :
  forall lm, accurate_libm lm (2 * u32) -> forall n (r : f32) (c : Vec2 f32), (3 <= n <= 100)%nat ->
  is_finite r = true -> bpow radix2 (-40) <= B2R r <= bpow radix2 40 -> pfin c -> Rabs (B2R (vx c)) <= 16 * B2R r -> Rabs (B2R (vy c)) <= 16 * B2R r ->
  let vs : list (Vec2 f32) := map (regular_vertex (O := FO lm) n r c) (seq 0 n) in let R := B2R r in
  Forall inbox vs /\ length vs = n /\
  (forall i, (i < n)%nat -> Rabs (vx (vtx (map rp vs) i) - vx (corner n R (rp c) i)) <= 37 * u32 * R /\ Rabs (vy (vtx (map rp vs) i) - vy (corner n R (rp c) i)) <= 37 * u32 * R) /\
  strictly_convex (map rp vs) /\ robust_position (map rp vs) /\ Rabs (shoelace (map rp vs) - INR n * (R * R * sin (2 * PI / INR n))) <= INR n * (593 * u32 * (R * R)) /\
  0 <= fan_terms (map rp vs) <= INR n * (802 / 100 * (R * R)) /\ 25 / 10 * (R * R) <= shoelace (map rp vs) /\ bpow radix2 (-125) <= / 100 * (R * R) /\ 0 < R * R <= bpow radix2 80.
Proof.
  intros lm A n r c Hn Fr Br Fc Bx By vs R. pose proof (bpow_gt_0 radix2 (-40)) as P40.
  assert (B60 : 100 * bpow radix2 40 <= bpow radix2 60) by (apply Rle_trans with (bpow radix2 7 * bpow radix2 40); [apply Rmult_le_compat_r; [apply bpow_ge_0|change (bpow radix2 7) with 128; lra]|rewrite <- bpow_plus; apply bpow_le; lia]).
  assert (B80 : bpow radix2 (-80) <= bpow radix2 (-40)) by (apply bpow_le; lia).
  assert (Ic : inbox c) by (split; [exact Fc|split; lra]). assert (PR : 0 < R) by (unfold R; lra).
  assert (V : forall i, (i < n)%nat -> inbox (regular_vertex (O := FO lm) n r c i) /\
    Rabs (vx (rp (regular_vertex (O := FO lm) n r c i)) - vx (corner n R (rp c) i)) <= 37 * u32 * R /\ Rabs (vy (rp (regular_vertex (O := FO lm) n r c i)) - vy (corner n R (rp c) i)) <= 37 * u32 * R).
  { intros i Hi. destruct (regular_vertex_near lm A n i r c Hi ltac:(lia) Fr ltac:(lra) Ic) as [[Fx Ex] [Fy Ey]].
    revert Fx Ex Fy Ey. generalize (regular_vertex (O := FO lm) n r c i). intros [x y]. change (car (FO lm)) with f32 in x, y. cbn [vx vy]. intros Fx Ex Fy Ey. fold R in Ex, Ey, Br, Bx, By.
    assert (EX : Rabs (B2R x - vx (corner n R (rp c) i)) <= 37 * u32 * R) by (eapply Rle_trans; [exact Ex|]; unfold u32; lra).
    assert (EY : Rabs (B2R y - vy (corner n R (rp c) i)) <= 37 * u32 * R) by (eapply Rle_trans; [exact Ey|]; unfold u32; lra).
    assert (BC : Rabs (vx (corner n R (rp c) i)) <= 17 * R /\ Rabs (vy (corner n R (rp c) i)) <= 17 * R).
    { unfold corner, real_point. cbn [vx vy]. set (t := 2 * PI * INR i / INR n). pose proof (COS_bound t). pose proof (SIN_bound t). apply Rabs_le_inv in Bx, By. split; apply Rabs_le; nra. }
    destruct BC as [B1 B2]. split; [|split; [exact EX|exact EY]].
    split; [now split|]. cbn [vx vy]. clear Ex Ey. apply Rabs_le_inv in EX, EY, B1, B2. split; apply Rabs_le; unfold u32 in *; lra. }
  assert (M : map rp vs = map (fun i => rp (regular_vertex (O := FO lm) n r c i)) (seq 0 n)) by (unfold vs; now rewrite map_map).
  assert (T : bpow radix2 (-125) <= / 100 * (R * R)).
  { apply Rle_trans with (/ 100 * (bpow radix2 (-40) * bpow radix2 (-40))); [|apply Rmult_le_compat_l; [lra|apply Rmult_le_compat; unfold R; lra]]. rewrite <- bpow_plus.
    apply Rle_trans with (bpow radix2 (-10) * bpow radix2 (-80)); [rewrite <- bpow_plus; apply bpow_le; lia|]. change (-40 + -40)%Z with (-80)%Z. apply Rmult_le_compat_r; [apply bpow_ge_0|]. change (bpow radix2 (-10)) with (/ 1024). lra. }
  pose proof (fun i Hi => proj2 (V i Hi)) as HP. pose proof (P_shoelace n R (rp c) (fun i => rp (regular_vertex (O := FO lm) n r c i)) Hn PR HP) as (S1 & S2 & S3).
  rewrite M. split; [|split; [|split; [|split; [|split; [|split; [|split; [|split; [|split]]]]]]]].
  - apply Forall_forall. intros q Hq. unfold vs in Hq. apply in_map_iff in Hq. destruct Hq as (i & <- & Hi). apply in_seq in Hi. apply V. lia.
  - unfold vs. now rewrite map_length, seq_length.
  - intros i Hi. rewrite (P_nth n (fun i => rp (regular_vertex (O := FO lm) n r c i))) by exact Hi. apply HP, Hi.
  - exact (P_convex n R (rp c) _ Hn PR HP).
  - exact (P_robust n R (rp c) _ Hn PR HP T).
  - exact S1.
  - exact (S2 T).
  - exact S3.
  - exact T.
  - split; [apply Rmult_lt_0_compat; exact PR|]. change 80%Z with (40 + 40)%Z. rewrite bpow_plus. apply Rmult_le_compat; unfold R; lra.
Qed.

Lemma room_facts : forall n M RR, (3 <= n <= 100)%nat -> 0 < RR <= bpow radix2 80 -> 0 <= M <= INR n * (802 / 100 * RR) ->
  (1 + u32) ^ (n + 3) * M < bpow radix2 128 /\ gam (n + 2) * M <= RR /\ gam (n + 3) * (M / 2) <= 406 / 100 * u32 * (INR n * (INR n + 3)) * RR.
Proof.
  intros n M RR Hn HR HM. pose proof (gam_n (n + 3) ltac:(lia)) as G3. pose proof (gam_n (n + 2) ltac:(lia)) as G2. rewrite plus_INR in G2, G3. replace (INR 3) with 3 in G3 by (cbn; ring). replace (INR 2) with 2 in G2 by (cbn; ring).
  assert (N : 3 <= INR n <= 100) by (split; [replace 3 with (INR 3) by (cbn; ring)|replace 100 with (INR 100) by (rewrite INR_IZR_INZ; reflexivity)]; apply le_INR; lia).
  assert (NR : INR n * (802 / 100 * RR) <= 100 * (802 / 100 * RR)) by (apply Rmult_le_compat_r; lra). split; [|split].
  - unfold gam in G3. apply Rle_lt_trans with (2 * (100 * (802 / 100 * RR))); [apply Rmult_le_compat; try lra; unfold u32 in *; lra|].
    apply Rle_lt_trans with (bpow radix2 11 * bpow radix2 80); [change (bpow radix2 11) with 2048; pose proof (bpow_gt_0 radix2 80); lra|rewrite <- bpow_plus; apply bpow_lt; lia].
  - apply Rle_trans with (/ 10000 * (100 * (802 / 100 * RR))); [apply Rmult_le_compat; try lra; unfold u32 in *; lra|lra].
  - apply Rle_trans with (101 / 100 * (INR n + 3) * u32 * (INR n * (401 / 100 * RR))); [apply Rmult_le_compat; lra|].
    assert (0 <= u32 * (INR n * (INR n + 3)) * RR) by (apply Rmult_le_pos; [apply Rmult_le_pos; [unfold u32; lra|apply Rmult_le_pos; lra]|lra]). nra.
Qed.

(** The polygon itself: not reversed, convex, corners in place; its triangulation tiles it. *)
Theorem C114_regular :
  forall lm, accurate_libm lm (2 * u32) -> forall n (r : f32) (c : Vec2 f32), (3 <= n <= 100)%nat ->
  is_finite r = true -> bpow radix2 (-40) <= B2R r <= bpow radix2 40 -> pfin c -> Rabs (B2R (vx c)) <= 16 * B2R r -> Rabs (B2R (vy c)) <= 16 * B2R r ->
  exists p ts, polygon_regular (O := FO lm) n r c = Ok p /\ length (vertices p) = n /\
    (forall i, (i < n)%nat -> Rabs (vx (vtx (map rp (vertices p)) i) - vx (corner n (B2R r) (rp c) i)) <= 37 * u32 * B2R r /\
                              Rabs (vy (vtx (map rp (vertices p)) i) - vy (corner n (B2R r) (rp c) i)) <= 37 * u32 * B2R r) /\
    strictly_convex (map rp (vertices p)) /\
    (forall fuel, (n <= fuel)%nat -> triangulate (O := FO lm) fuel p = Some (Ok ts)) /\ length ts = (n - 2)%nat /\
    (forall t, In t ts -> length (vertices t) = 3%nat /\ 0 < shoelace (map rp (vertices t)) /\ forall q, In q (vertices t) -> In q (vertices p)) /\
    tiling (map rp (vertices p)) (map (fun t => map rp (vertices t)) ts).
Proof.
  intros lm A n r c Hn Fr Br Fc Bx By. destruct (regular_facts lm A n r c Hn Fr Br Fc Bx By) as (Ib & L & V & Cv & Rb & Sh & Fan & Sp & T & RR).
  pose (vs := map (regular_vertex (O := FO lm) n r c) (seq 0 n) : list (Vec2 f32)). change (map (regular_vertex (O := FO lm) n r c) (seq 0 n)) with vs in Ib, L, V, Cv, Rb, Sh, Fan, Sp. set (R := B2R r) in *. destruct (room_facts n (fan_terms (map rp vs)) (R * R) Hn RR Fan) as (Q1 & Q2 & _).
  assert (Ls : (3 <= length (map rp vs))%nat) by (rewrite map_length; rewrite L; lia).
  pose proof (convex_simple _ Cv Ls) as Sm. assert (Big : gam (length vs + 2) * fan_terms (map rp vs) < Rabs (shoelace (map rp vs))) by (rewrite L, Rabs_pos_eq by lra; lra).
  destruct (C103_tiling lm vs Ib Sm Rb) as (p & ts & E & Tr & Lt & Tt & Tl); [rewrite L; exact Q1|exact Big|].
  destruct (new_orient lm vs Ib) as (p' & E' & [Vp|Vp] & Pos); [rewrite L; lia|rewrite L; exact Q1|exact Big| |].
  - assert (p' = p) by (rewrite E in E'; now inversion E'). subst p'. exists p, ts. split; [now apply regular_ok_of|]. rewrite L in Tr, Lt. rewrite Vp in *.
    split; [exact L|]. split; [exact V|]. split; [exact Cv|]. split; [exact Tr|]. split; [exact Lt|]. split; [exact Tt|exact Tl].
  - rewrite Vp, map_rev, shoelace_rev in Pos. change (map rp vs) with (map real_point vs) in Sp. lra.
Qed.
Print Assumptions C114_regular.

(** Far from the origin the bound on the centre matters: the triangle of radius 1 around
    (2^26, 0) has area 0. *)
Theorem C114_regular_fails_at_far_centre :
  forall lm, accurate_libm lm (2 * u32) -> forall p, polygon_regular (O := FO lm) 3 (f32_of 1 0 : FO lm) (P2 (f32_of 1 26) (f32_of 0 0)) = Ok p ->
  shoelace (map rp (vertices p)) = 0.
Proof.
  intros lm A p H. pose (f := single lm).
  assert (RN : forall t, -1 - / 2 <= t <= 2 -> rnd32 (bpow radix2 26 + t) = bpow radix2 26).
  { assert (LO : rnd32 (bpow radix2 26 + (-1 - / 2)) = bpow radix2 26 /\ rnd32 (bpow radix2 26 + 2) = bpow radix2 26).
    { assert (G : forall m e v, (Z.abs m <= 16777216)%Z -> (-149 <= e <= 103)%Z -> v = IZR m * bpow radix2 e -> is_finite (Bplus mode_NE (f32_of 1 26) (f32_of m e)) = true ->
        B2SF (Bplus mode_NE (f32_of 1 26) (f32_of m e)) = SpecFloat.S754_finite false 8388608 3 -> rnd32 (bpow radix2 26 + v) = bpow radix2 26).
      { intros m e v Hm He Ev FB EB. destruct (f32_of_exact 1 26 ltac:(lia) ltac:(lia)) as [F1 E1]. destruct (f32_of_exact m e Hm He) as [F2 E2].
        pose proof (Bplus_correct 24 128 _ _ mode_NE (f32_of 1 26) (f32_of m e) F1 F2) as C. rewrite E1, E2, <- Ev, Rmult_1_l in C.
        destruct (Rlt_bool_spec (Rabs (rnd32 (bpow radix2 26 + v))) (bpow radix2 128)) as [Q|Q].
        - destruct C as (C & _). rewrite <- C, <- (SF2R_B2SF _ _ (Bplus mode_NE (f32_of 1 26) (f32_of m e))), EB. cbn [SF2R]. unfold F2R. cbn [Defs.Fnum Defs.Fexp cond_Zopp]. change (bpow radix2 3) with 8. change (bpow radix2 26) with 67108864. lra.
        - destruct C as (C & _). rewrite EB in C. discriminate C. }
      split.
      - apply (G (-3)%Z (-1)%Z); [lia|lia|change (bpow radix2 (-1)) with (/ 2); lra|vm_compute; reflexivity|vm_compute; reflexivity].
      - apply (G 1%Z 1%Z); [lia|lia|change (bpow radix2 1) with 2; lra|vm_compute; reflexivity|vm_compute; reflexivity]. }
    destruct LO as [LO HI]. intros t Ht. apply Rle_antisym; [rewrite <- HI|rewrite <- LO at 1]; apply round_le; try apply fexp32_valid; try apply rnd32_valid; lra. }
  assert (VX : forall i, (i < 3)%nat -> B2R (vx (regular_vertex (O := FO lm) 3 (f32_of 1 0 : FO lm) (P2 (f32_of 1 26) (f32_of 0 0)) i) : f32) = bpow radix2 26).
  { intros i Hi. rewrite vertex_eq. cbv zeta. cbn [vx]. destruct (angle_near lm 3 i Hi ltac:(lia)) as [[Fa _] Ba]. destruct (A _ Fa Ba) as [_ [Fc Ec]].
    match type of Fc with is_finite ?g = true => set (g0 := g) in * end. pose proof (COS_bound (B2R (Bmult mode_NE (Bmult mode_NE (c2 : FO lm) (cpi : FO lm)) (Bdiv mode_NE (f32_Z (Z.of_nat i)) (f32_Z (Z.of_nat 3)))))) as CB.
    assert (Bg : -1 - 2 * u32 <= B2R g0 <= 1 + 2 * u32) by (apply Rabs_le_inv in Ec; lra). clear Ec CB.
    destruct (f32_of_exact 1 0 ltac:(lia) ltac:(lia)) as [F1 E1]. destruct (f32_of_exact 1 26 ltac:(lia) ltac:(lia)) as [F2 E2].
    change (bpow radix2 0) with 1 in E1. rewrite Rmult_1_r in E1. rewrite Rmult_1_l in E2.
    pose proof (Bmult_correct 24 128 _ _ mode_NE (f32_of 1 0) g0) as C. rewrite E1, Rmult_1_l, round_generic in C by (apply rnd32_valid || apply generic_format_B2R).
    rewrite Rlt_bool_true in C by apply abs_B2R_lt_emax. destruct C as (Em & Fm & _). rewrite F1, Fc in Fm. set (m := Bmult mode_NE (f32_of 1 0) g0) in *.
    pose proof (Bplus_correct 24 128 _ _ mode_NE (f32_of 1 26) m F2 Fm) as C. rewrite E2, Em, RN in C by (unfold u32 in *; lra).
    rewrite Rlt_bool_true in C by (rewrite Rabs_pos_eq by apply bpow_ge_0; apply bpow_lt; lia). destruct C as (C & _). exact C. }
  assert (V : vertices p = map (regular_vertex (O := FO lm) 3 (f32_of 1 0 : FO lm) (P2 (f32_of 1 26) (f32_of 0 0))) (seq 0 3) \/ vertices p = rev (map (regular_vertex (O := FO lm) 3 (f32_of 1 0 : FO lm) (P2 (f32_of 1 26) (f32_of 0 0))) (seq 0 3))).
  { exact (regular_vertices (FO lm) _ _ _ _ H). }
  assert (G : shoelace (map rp (map (regular_vertex (O := FO lm) 3 (f32_of 1 0 : FO lm) (P2 (f32_of 1 26) (f32_of 0 0))) (seq 0 3))) = 0).
  { pose proof (VX 0%nat ltac:(lia)) as V0. pose proof (VX 1%nat ltac:(lia)) as V1. pose proof (VX 2%nat ltac:(lia)) as V2. cbn [seq map]. revert V0 V1 V2.
    generalize (regular_vertex (O := FO lm) 3 (f32_of 1 0 : FO lm) (P2 (f32_of 1 26) (f32_of 0 0)) 0) (regular_vertex (O := FO lm) 3 (f32_of 1 0 : FO lm) (P2 (f32_of 1 26) (f32_of 0 0)) 1) (regular_vertex (O := FO lm) 3 (f32_of 1 0 : FO lm) (P2 (f32_of 1 26) (f32_of 0 0)) 2).
    intros [x0 y0] [x1 y1] [x2 y2]. change (car (FO lm)) with f32 in *. cbn [vx vy]. intros V0 V1 V2. unfold real_point. cbn [map vx vy shoelace app chain]. rewrite V0, V1, V2. ring. }
  destruct V as [V|V]; rewrite V; [exact G|]. rewrite map_rev, shoelace_rev. rewrite <- Ropp_0. f_equal. exact G.
Qed.
Print Assumptions C114_regular_fails_at_far_centre.

(** ** C115: area *)
Theorem C115_regular_area :
  forall lm, accurate_libm lm (2 * u32) -> forall n (r : f32) (c : Vec2 f32), (3 <= n <= 100)%nat ->
  is_finite r = true -> bpow radix2 (-40) <= B2R r <= bpow radix2 40 -> pfin c -> Rabs (B2R (vx c)) <= 16 * B2R r -> Rabs (B2R (vy c)) <= 16 * B2R r ->
  exists p, polygon_regular (O := FO lm) n r c = Ok p /\
    within (u32 * INR n * (310 + 5 * INR n) * (B2R r * B2R r)) (polygon_area (O := FO lm) p : f32) (INR n / 2 * (B2R r * B2R r) * sin (2 * PI / INR n)).
Proof.
  intros lm A n r c Hn Fr Br Fc Bx By. destruct (regular_facts lm A n r c Hn Fr Br Fc Bx By) as (Ib & L & V & Cv & Rb & Sh & Fan & Sp & T & RR).
  pose (vs := map (regular_vertex (O := FO lm) n r c) (seq 0 n) : list (Vec2 f32)). change (map (regular_vertex (O := FO lm) n r c) (seq 0 n)) with vs in Ib, L, V, Cv, Rb, Sh, Fan, Sp. set (R := B2R r) in *. destruct (room_facts n (fan_terms (map rp vs)) (R * R) Hn RR Fan) as (Q1 & Q2 & Q3).
  assert (Big : gam (length vs + 2) * fan_terms (map rp vs) < Rabs (shoelace (map rp vs))) by (rewrite L, Rabs_pos_eq by lra; lra).
  destruct (new_orient lm vs Ib) as (p & E & [Vp|Vp] & Pos); [rewrite L; lia|rewrite L; exact Q1|exact Big| |].
  2: { rewrite Vp, map_rev, shoelace_rev in Pos. change (map rp vs) with (map real_point vs) in Sp. lra. }
  exists p. split; [now apply regular_ok_of|]. assert (Vp' : @vertices f32 p = vs) by exact Vp. destruct (polygon_area_near lm p) as [Fa Ea]; [rewrite Vp'; exact Ib|rewrite Vp', L; lia|rewrite Vp', L; exact Q1|].
  split; [exact Fa|]. rewrite Vp', L in Ea. change (map real_point vs) with (map rp vs) in Ea. rewrite (Rabs_pos_eq (shoelace _)) in Ea by lra.
  assert (N : 3 <= INR n <= 100) by (split; [replace 3 with (INR 3) by (cbn; ring)|replace 100 with (INR 100) by (rewrite INR_IZR_INZ; reflexivity)]; apply le_INR; lia).
  pose proof (gam_n (n + 3) ltac:(lia)) as G3. rewrite plus_INR in G3. replace (INR 3) with 3 in G3 by (cbn; ring).
  assert (T2 : gam (n + 3) * bpow radix2 (-126) <= / 100 * (R * R) * u32 * (101 / 100 * (INR n + 3))).
  { assert (bpow radix2 (-126) <= / 100 * (R * R)) by (eapply Rle_trans; [|exact T]; apply bpow_le; lia). replace (/ 100 * (R * R) * u32 * (101 / 100 * (INR n + 3))) with (101 / 100 * (INR n + 3) * u32 * (/ 100 * (R * R))) by ring.
    apply Rmult_le_compat; try lra. apply bpow_ge_0. }
  set (S := shoelace (map rp vs)) in *. set (s := sin (2 * PI / INR n)) in *.
  match goal with |- Rabs (?a - ?b) <= _ => replace (a - b) with ((a - S / 2) + (S - INR n * (R * R * s)) / 2) by field end.
  eapply Rle_trans; [apply Rabs_triang|]. unfold Rdiv at 2. rewrite (Rabs_mult _ (/ 2)), (Rabs_pos_eq (/ 2)) by lra.
  assert (K : u32 * (INR n * (INR n + 3)) * (R * R) = u32 * (R * R) * (INR n * (INR n + 3))) by ring.
  assert (W : 0 < u32 * (R * R)) by (apply Rmult_lt_0_compat; [unfold u32; lra|lra]). set (W0 := u32 * (R * R)) in *.
  apply Rle_trans with (W0 * (406 / 100 * (INR n * (INR n + 3)) + / 100 * (101 / 100 * (INR n + 3)) + INR n * 593 / 2)).
  - eapply Rle_trans; [apply Rplus_le_compat; [exact Ea|apply Rmult_le_compat_r; [lra|exact Sh]]|]. unfold W0. lra.
  - replace (u32 * INR n * (310 + 5 * INR n) * (R * R)) with (W0 * (INR n * (310 + 5 * INR n))) by (unfold W0; ring). apply Rmult_le_compat_l; [lra|]. nra.
Qed.
Print Assumptions C115_regular_area.

(** A library as assumed exists ([libm_grid]: exact values rounded to multiples of 2^-23); the
    hexagon of radius 2 around (1,1). *)
Example C114_C115_example :
  accurate_libm libm_grid (2 * u32) /\ is_finite (f32_of 2 0) = true /\ B2R (f32_of 2 0) = 2 /\ bpow radix2 (-40) <= 2 <= bpow radix2 40 /\
  pfin (P2 (f32_of 1 0) (f32_of 1 0)) /\ B2R (f32_of 1 0) = 1 /\ corner 6 2 (P2 1 1) 3 = P2 (-1) 1 /\
  exists p, polygon_regular (O := FO libm_grid) 6 (f32_of 2 0 : FO libm_grid) (P2 (f32_of 1 0) (f32_of 1 0)) = Ok p /\
    within (u32 * INR 6 * (310 + 5 * INR 6) * (2 * 2)) (polygon_area (O := FO libm_grid) p : f32) (INR 6 / 2 * (2 * 2) * sin (2 * PI / INR 6)).
Proof.
  destruct (f32_of_exact 1 0 ltac:(lia) ltac:(lia)) as [F1 E1]. destruct (f32_of_exact 2 0 ltac:(lia) ltac:(lia)) as [F2 E2]. change (bpow radix2 0) with 1 in E1, E2. rewrite Rmult_1_r in E1, E2.
  assert (B : bpow radix2 (-40) <= 2 <= bpow radix2 40).
  { split; [apply Rle_trans with (bpow radix2 0); [apply bpow_le; lia|change (bpow radix2 0) with 1; lra]|apply Rle_trans with (bpow radix2 1); [change (bpow radix2 1) with 2; lra|apply bpow_le; lia]]. }
  split; [exact libm_grid_accurate|]. split; [exact F2|]. split; [exact E2|]. split; [exact B|]. split; [now split|]. split; [exact E1|]. split.
  - unfold corner. cbn [vx vy]. replace (2 * PI * INR 3 / INR 6) with PI by (cbn; field). rewrite cos_PI, sin_PI. f_equal; ring.
  - pose proof (C115_regular_area libm_grid libm_grid_accurate 6 (f32_of 2 0) (P2 (f32_of 1 0) (f32_of 1 0)) ltac:(lia) F2) as H. cbn [vx vy] in H. rewrite E1, E2, (Rabs_pos_eq 1) in H by lra.
    apply H; [exact B|now split|lra|lra].
Qed.
