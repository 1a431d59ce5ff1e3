(** * C118: translate and uniform_scale in f32.

    u32 = 2^-24; [within e x r]: x is finite and |x - r| <= e; [pfin]: both coordinates are
    finite. *)
From Coq Require Import List Bool ZArith Reals Lra Lia Psatz.
From Flocq Require Import Core.Core IEEE754.BinarySingleNaN.
From Verif Require Import Scalar Utils PlaneSpec Polygon F32 PolyF32 GraphDemo GeoSpec RoundSpec GeoRound GridGraph TransRound.
Import ListNotations.
Local Open Scope R_scope.
Local Notation rp := real_point.
Local Notation cross := PlaneSpec.cross.

Theorem C118_translate :
  forall lm (p : Polygon (FO lm)) (t : Vec2 (FO lm)) i (v : Vec2 (FO lm)), nth_error (vertices p) i = Some v -> pfin v -> pfin t ->
  let x := vx (rp v) + vx (rp t) in let y := vy (rp v) + vy (rp t) in
  (1 + u32) * Rabs x < bpow radix2 128 -> (1 + u32) * Rabs y < bpow radix2 128 ->
  length (vertices (polygon_translate p t)) = length (vertices p) /\
  exists w : Vec2 (FO lm), nth_error (vertices (polygon_translate p t)) i = Some w /\
    within (u32 * Rabs x) (vx w : f32) x /\ within (u32 * Rabs y) (vy w : f32) y.
Proof.
  intros lm p t i v H [Fx Fy] [Tx Ty] x y Hx Hy. split; [apply map_length|]. exists (p_add v t).
  split; [unfold polygon_translate; cbn [vertices]; now rewrite nth_error_map, H|].
  split; [exact (plus_within lm _ _ Fx Tx Hx)|exact (plus_within lm _ _ Fy Ty Hy)].
Qed.
Print Assumptions C118_translate.

Theorem C118_scale :
  forall lm (p : Polygon (FO lm)) (s : FO lm) i (v : Vec2 (FO lm)), nth_error (vertices p) i = Some v -> pfin v -> is_finite (s : f32) = true ->
  let x := vx (rp v) * B2R (s : f32) in let y := vy (rp v) * B2R (s : f32) in
  (1 + u32) * Rabs x + bpow radix2 (-150) < bpow radix2 128 -> (1 + u32) * Rabs y + bpow radix2 (-150) < bpow radix2 128 ->
  length (vertices (polygon_uniform_scale p s)) = length (vertices p) /\
  exists w : Vec2 (FO lm), nth_error (vertices (polygon_uniform_scale p s)) i = Some w /\
    within (u32 * Rabs x + bpow radix2 (-150)) (vx w : f32) x /\ within (u32 * Rabs y + bpow radix2 (-150)) (vy w : f32) y.
Proof.
  intros lm p s i v H [Fx Fy] Fs x y Hx Hy. split; [apply map_length|]. exists (p_scale v s).
  split; [unfold polygon_uniform_scale; cbn [vertices]; now rewrite nth_error_map, H|].
  split; [exact (mult_within lm _ _ Fx Fs Hx)|exact (mult_within lm _ _ Fy Fs Hy)].
Qed.
Print Assumptions C118_scale.

(** Scaling by a power of two is exact while the coordinates are 0 or stay in the normal
    range. *)
Theorem C118_scale_power_of_two :
  forall lm (p : Polygon (FO lm)) k, (-149 <= k <= 103)%Z ->
  let ok (x : f32) := is_finite x = true /\ (B2R x = 0 \/ bpow radix2 (-126) <= Rabs (B2R x) * bpow radix2 k < bpow radix2 128) in
  Forall (fun v : Vec2 f32 => ok (vx v) /\ ok (vy v)) (vertices p) ->
  Forall pfin (vertices (polygon_uniform_scale p (f32_of 1 k : FO lm))) /\
  map rp (vertices (polygon_uniform_scale p (f32_of 1 k : FO lm))) = map (fun v => P2 (vx v * bpow radix2 k) (vy v * bpow radix2 k)) (map rp (vertices p)).
Proof.
  intros lm p k Hk ok H. unfold polygon_uniform_scale. cbn [vertices]. induction H as [|v l [[Fx Ox] [Fy Oy]] _ [IH1 IH2]]; [split; constructor|].
  destruct (mult_pow2 (vx v) k Fx Hk Ox) as [F1 E1]. destruct (mult_pow2 (vy v) k Fy Hk Oy) as [F2 E2].
  cbn [map]. split; [constructor; [split; assumption|exact IH1]|]. apply f_equal2; [|exact IH2]. apply (f_equal2 (@P2 R)); [exact E1|exact E2].
Qed.
Print Assumptions C118_scale_power_of_two.

(** translate keeps a counterclockwise triple of vertices counterclockwise when it turns by
    more than the rounding errors: D bounds the coordinate differences, M the moved
    coordinates. *)
Theorem C118_translate_orientation :
  forall lm (p : Polygon (FO lm)) (t a b c : Vec2 (FO lm)) i j k (D M : R),
  nth_error (vertices p) i = Some a -> nth_error (vertices p) j = Some b -> nth_error (vertices p) k = Some c ->
  pfin t -> (1 + u32) * M < bpow radix2 128 ->
  (forall v : Vec2 (FO lm), In v [a; b; c] -> pfin v /\ Rabs (vx (rp v) + vx (rp t)) <= M /\ Rabs (vy (rp v) + vy (rp t)) <= M) ->
  (forall v w : Vec2 (FO lm), In v [a; b; c] -> In w [a; b; c] -> Rabs (vx (rp w) - vx (rp v)) <= D /\ Rabs (vy (rp w) - vy (rp v)) <= D) ->
  8 * (u32 * M) * D + 8 * (u32 * M) * (u32 * M) < cross (rp a) (rp b) (rp a) (rp c) ->
  exists a' b' c' : Vec2 (FO lm), let vs := vertices (polygon_translate p t) in
  nth_error vs i = Some a' /\ nth_error vs j = Some b' /\ nth_error vs k = Some c' /\ 0 < cross (rp a') (rp b') (rp a') (rp c').
Proof.
  intros lm p t a b c i j k D M Ha Hb Hc Ft HM HV HD H.
  assert (U : 0 < u32) by (unfold u32; lra).
  assert (G : forall v n, In v [a; b; c] -> nth_error (vertices p) n = Some v ->
    exists w : Vec2 (FO lm), nth_error (vertices (polygon_translate p t)) n = Some w /\
      Rabs (vx (rp w) - (vx (rp v) + vx (rp t))) <= u32 * M /\ Rabs (vy (rp w) - (vy (rp v) + vy (rp t))) <= u32 * M).
  { intros v n I N. destruct (HV v I) as (Fv & B1 & B2).
    assert (K : forall z, Rabs z <= M -> (1 + u32) * Rabs z < bpow radix2 128 /\ u32 * Rabs z <= u32 * M).
    { intros z Hz. split; [eapply Rle_lt_trans; [|exact HM]|]; apply Rmult_le_compat_l; lra. }
    destruct (K _ B1) as [K1 K2]. destruct (K _ B2) as [K3 K4].
    destruct (C118_translate lm p t n v N Fv Ft K1 K3) as (_ & w & W & (_ & E1) & (_ & E2)). exists w.
    split; [exact W|]. split; [exact (Rle_trans _ _ _ E1 K2)|exact (Rle_trans _ _ _ E2 K4)]. }
  destruct (G a i ltac:(cbn; tauto) Ha) as (a' & A1 & A2 & A3). destruct (G b j ltac:(cbn; tauto) Hb) as (b' & B1 & B2 & B3). destruct (G c k ltac:(cbn; tauto) Hc) as (c' & C1 & C2 & C3).
  exists a', b', c'. cbv zeta. split; [exact A1|]. split; [exact B1|]. split; [exact C1|].
  apply (moved_orientation (rp a) (rp b) (rp c) (rp a') (rp b') (rp c') (rp t) D (u32 * M)); [| | |exact H].
  - assert (0 <= M) by (pose proof (Rabs_pos (vx (rp a) + vx (rp t))); destruct (HV a ltac:(cbn; tauto)) as (_ & K & _); lra). apply Rmult_le_pos; lra.
  - intros v w [<-|[<-|[<-|[]]]] [<-|[<-|[<-|[]]]]; apply HD; cbn; tauto.
  - intros v w [E|[E|[E|[]]]]; injection E as <- <-; auto.
Qed.
Print Assumptions C118_translate_orientation.

(** The triangle (0,0) (3,0) (1/3 rounded, 2): moving it by (1/3 rounded, 5) rounds, doubling
    it is exact. *)
Example C118_example :
  let th := f32_of 11184811 (-25) in let p : Polygon (FO lm0) := MkPolygon [P2 (f32_Z 0) (f32_Z 0); P2 (f32_Z 3) (f32_Z 0); P2 th (f32_Z 2)] in
  let t : Vec2 (FO lm0) := P2 th (f32_Z 5) in
  Forall pfin (vertices p) /\ pfin t /\
  (forall x : f32, In x [f32_Z 0; f32_Z 3; th; f32_Z 2] -> is_finite x = true /\ (B2R x = 0 \/ bpow radix2 (-126) <= Rabs (B2R x) * bpow radix2 1 < bpow radix2 128)) /\
  Beqb (vx (p_add (P2 (f32_Z 3) (f32_Z 0) : Vec2 (FO lm0)) t)) (f32_of 13981013 (-22)) = true.
Proof.
  intros th p t. split; [repeat constructor|]. split; [split; reflexivity|]. split; [|vm_compute; reflexivity].
  destruct (f32_of_exact 11184811 (-25) ltac:(lia) ltac:(lia)) as [_ Vt]. fold th in Vt. change (bpow radix2 (-25)) with (/ IZR 33554432) in Vt.
  assert (V2 : B2R (f32_Z 2) = 2) by exact (eq_trans (proj2 (f32_of_exact 2 0 ltac:(lia) ltac:(lia))) (Rmult_1_r _)).
  assert (V3 : B2R (f32_Z 3) = 3) by exact (eq_trans (proj2 (f32_of_exact 3 0 ltac:(lia) ltac:(lia))) (Rmult_1_r _)).
  assert (LO : bpow radix2 (-126) <= / 10) by (apply Rle_trans with (bpow radix2 (-4)); [apply bpow_le; lia|change (bpow radix2 (-4)) with (/ IZR 16); lra]).
  assert (HI : 16 < bpow radix2 128) by (change 16 with (bpow radix2 4); apply bpow_lt; lia).
  change (bpow radix2 1) with 2.
  intros x [<-|[<-|[<-|[<-|[]]]]]; (split; [reflexivity|]); [left; reflexivity|right..]; rewrite ?Vt, ?V2, ?V3, Rabs_pos_eq by lra; lra.
Qed.
