(** * C117: rotors from an angle and a plane in floating point.

    [f : Fmt] is any binary format (f32, f64, ..); u = [ur f] (2^-24 in f32); see the head of
    Properties_Round.v.  [accurate_trig f A d]: the platform's sin and cos are within d on
    [-A, A]; [turn a B] = cos(a/2) - sin(a/2) B (AngleSpec.v). *)
From Coq Require Import List Bool ZArith Reals Lra Lia.
From Flocq Require Import Core.Core IEEE754.BinarySingleNaN.
From Verif Require Import GeoSpec GeoReg.
From Verif Require Import Scalar GA GASpec GARing GAReal Format RoundSpec Rounding NormRound LenReal RotRound BitRound RoundDemo AngleSpec AngleRound.
Local Open Scope R_scope.
Local Notation "x ** y" := (mmul (O := RO) x y) (at level 40, left associativity).
Local Notation MV x := (of_vec (O := RO) (rv x)).
Local Notation MX r := (of_rot (O := RO) r).

(** from_angle_plane with a normalized plane: each component within 9u of the exact rotor,
    and rotate within 33u |v| of the exact rotation. *)
Theorem C117_from_angle_plane :
  forall f, (11 <= prec f)%Z -> let u := ur f in
  forall A, accurate_trig f A (2 * u) ->
  forall (a : BO f) (b : Bivector3 (BO f)), is_finite a = true -> Rabs (B2R a) <= 2 * A - 1 -> bfin b -> sized f (blen (rb b)) ->
  let r := rot_from_angle_plane a (biv_normalize b) in let E := turn (B2R a) (bdir (rb b)) in
  reach (within (9 * u)) r E /\ Rabs (rlen (rr r) - 1) <= 9 * u /\
  forall v : Vector3 (BO f), vfin v -> sized f (vlen (rv v)) ->
  vfin (rot_rotate r v) /\ mdist (33 * u * vlen (rv v)) (MV (rot_rotate r v)) (MX E ** MV v ** mrev (O := RO) (MX E)).
Proof.
  intros f W u A HA a b Fa Ba Fb Sb r E. destruct (biv_normalize_err f W b Fb Sb) as (Fn & d & Ed & Ld).
  pose proof (bdir_len _ (sized_pos f W _ Sb)) as LP.
  destruct (turn_err f W A a (biv_normalize b) _ d HA Fa Ba Fn Ed LP Ld) as (Fr & D & ED & LD). fold r E in Fr, ED.
  pose proof (turn_len (B2R a) _ LP) as LE. fold E in LE.
  destruct (near_unit_comps f r E D Fr ED LE LD) as [C1 C2]. split; [exact C1|]. split; [exact C2|].
  intros v Fv Sv. destruct (near_unit_rotate f W r E D v Fr ED LE LD Fv Sv) as ((F1 & E1) & (F2 & E2) & (F3 & E3)).
  split; [exact (conj F1 (conj F2 F3))|].
  apply mdist_vec with (y := rot_rotate (O := RO) E (rv v)); [exact (rotate_sandwich RO_ring _ _)|exact (conj E1 (conj E2 E3))].
Qed.
Print Assumptions C117_from_angle_plane.

(** The coordinate planes: the image of v under the computed rotor is within 33u |v| of v
    turned by the angle a. *)
Theorem C117_axis_rotations :
  forall f, (11 <= prec f)%Z -> let u := ur f in
  forall A, accurate_trig f A (2 * u) ->
  forall (a : BO f) (v : Vector3 (BO f)), is_finite a = true -> Rabs (B2R a) <= 2 * A - 1 -> vfin v -> sized f (vlen (rv v)) ->
  let c := cos (B2R a) in let s := sin (B2R a) in let x := B2R (a1 v) in let y := B2R (a2 v) in let z := B2R (a3 v) in
  let ok := veach (within (33 * u * vlen (rv v))) in
  ok (rot_rotate (rot_from_xy_rotation a) v) (V3 (c * x - s * y) (s * x + c * y) z) /\
  ok (rot_rotate (rot_from_xz_rotation a) v) (V3 (c * x - s * z) y (s * x + c * z)) /\
  ok (rot_rotate (rot_from_yz_rotation a) v) (V3 x (c * y - s * z) (s * y + c * z)).
Proof.
  intros f W u A HA a v Fa Ba Fv Sv c s x y z ok.
  destruct (small_int f W 0 ltac:(lia)) as [F0 V0]. destruct (small_int f W 1 ltac:(lia)) as [F1 V1].
  pose proof (u_small f W) as [Pu _]. fold u in Pu.
  assert (LZ : blen (B3 0 0 0) <= 5 * u) by (unfold blen; cbn [b1 b2 b3]; replace (0 ^ 2 + 0 ^ 2 + 0 ^ 2) with 0 by ring; rewrite sqrt_0; lra).
  assert (G : forall (B : Bivector3 (BO f)) (P : Bivector3 R), bfin B -> rb B = P -> blen P = 1 ->
    ok (rot_rotate (rot_from_angle_plane a B) v) (rot_rotate (O := RO) (turn (B2R a) P) (rv v))).
  { intros B P FB EB LP.
    destruct (turn_err f W A a B P (B3 0 0 0) HA Fa Ba FB) as (Fr & D & ED & LD); try assumption.
    { rewrite EB. destruct P as [p1 p2 p3]. unfold biv_add. cbn [b1 b2 b3 oadd RO]. apply (f_equal3 (@B3 R)); ring. }
    exact (near_unit_rotate f W _ _ D v Fr ED (turn_len (B2R a) _ LP) LD Fv Sv). }
  destruct (turn_axis (B2R a) x y z) as (T1 & T2 & T3).
  assert (One : forall p q r, p ^ 2 + q ^ 2 + r ^ 2 = 1 -> blen (B3 p q r) = 1) by (intros p q r H; unfold blen; cbn [b1 b2 b3]; rewrite H; apply sqrt_1).
  split; [|split].
  - pose proof (G (@biv_unit_xy (BO f)) (B3 1 0 0) (conj F1 (conj F0 F0)) (f_equal3 (@B3 R) V1 V0 V0) (One 1 0 0 ltac:(ring))) as K.
    change (rv v) with (V3 x y z) in K. rewrite T1 in K. exact K.
  - pose proof (G (@biv_unit_xz (BO f)) (B3 0 1 0) (conj F0 (conj F1 F0)) (f_equal3 (@B3 R) V0 V1 V0) (One 0 1 0 ltac:(ring))) as K.
    change (rv v) with (V3 x y z) in K. rewrite T2 in K. exact K.
  - pose proof (G (@biv_unit_yz (BO f)) (B3 0 0 1) (conj F0 (conj F0 F1)) (f_equal3 (@B3 R) V0 V0 V1) (One 0 0 1 ltac:(ring))) as K.
    change (rv v) with (V3 x y z) in K. rewrite T3 in K. exact K.
Qed.
Print Assumptions C117_axis_rotations.

(** A library with this accuracy on all of f32, the angle 3, the plane (2,3,6) of length 7 and
    the vector (3,4,12). *)
Example C117_example :
  let f := single libm_grid in (11 <= prec f)%Z /\ accurate_trig f 7 (2 * ur f) /\
  is_finite (fl_of f 3 0) = true /\ Rabs (B2R (fl_of f 3 0)) <= 2 * 7 - 1 /\
  bfin (ib f 2 3 6) /\ sized f (blen (rb (ib f 2 3 6))) /\ blen (rb (ib f 2 3 6)) = 7 /\
  vfin (iv f 3 4 12) /\ sized f (vlen (rv (iv f 3 4 12))).
Proof.
  intros f. destruct (single_range libm_grid) as (W & _). fold f in W. destruct (small_int f W 3 ltac:(lia)) as [F3 V3'].
  destruct (demo_v f W) as (V1 & _ & _ & V), (demo_b f W) as (B1 & _ & B2 & B3').
  split; [exact W|]. split; [exact libm_grid_accurate|]. split; [exact F3|]. split; [rewrite V3', Rabs_pos_eq by lra; lra|]. tauto.
Qed.
(** Without accuracy the claim is false: with sin = cos = 0 the rotor is 0. *)
Example C117_fails_at_zero_libm :
  let lm := mkLibm (fun _ => f32_of 0 0) (fun _ => f32_of 0 0) (fun x => x) in
  B2SF (a1 (rot_rotate (rot_from_xy_rotation (f32_of 1 0 : FO lm)) (V3 (f32_of 1 0) (f32_of 0 0) (f32_of 0 0) : Vector3 (FO lm)))) = SpecFloat.S754_zero false.
Proof. vm_compute. reflexivity. Qed.
