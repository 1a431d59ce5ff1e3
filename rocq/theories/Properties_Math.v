(** * C40-C50, C65-C68, C78: src/math.

    [comm_ring O]: the scalars form a commutative ring.  The Clifford algebra [mv], its
    product [mmul], reversal, grades and the embeddings [of_vec] .. are in GASpec.v.
    [xv], [xr] .. inject real values into exact arithmetic with "not finite". *)
From Coq Require Import List Bool Reals Lra Lia ZArith Ring.
From Flocq Require Import Core.Core IEEE754.BinarySingleNaN.
From Verif Require Import Scalar GA Approx F32 Laws GraphDemo GASpec GARing GAReal GAF32 ApproxProofs.
Import ListNotations.
Local Open Scope R_scope.
Local Notation "x =r y" := (@eq R x y) (at level 70).

(** ** C40 *)

(** The specification is the Clifford algebra: associative, unital, bilinear, and the
    square of a vector is its squared Euclidean length. *)
Theorem C40_spec_is_clifford :
  forall O, comm_ring O ->
  (forall x y z : mv O, mmul (mmul x y) z == mmul x (mmul y z)) /\
  (forall x : mv O, mmul (of_scalar c1) x == x /\ mmul x (of_scalar c1) == x) /\
  (forall x y z : mv O, mmul (madd x y) z == madd (mmul x z) (mmul y z) /\
                        mmul x (madd y z) == madd (mmul x y) (mmul x z)) /\
  (forall u : Vector3 O, mmul (of_vec u) (of_vec u) == of_scalar (a1 u * a1 u + a2 u * a2 u + a3 u * a3 u)%ops).
Proof.
  intros O CR. split; [exact (mmul_assoc CR)|]. split; [|split; [|exact (mmul_square CR)]].
  - intros x. split; [exact (mmul_1_l CR x)|exact (mmul_1_r CR x)].
  - intros x y z. split; [exact (mmul_add_l CR x y z)|exact (mmul_add_r CR x y z)].
Qed.
Print Assumptions C40_spec_is_clifford.

Theorem C40_products :
  forall O, comm_ring O ->
  (forall u v : Vector3 O, of_rot (vec_mul u v) == mmul (of_vec u) (of_vec v)) /\
  (forall (u : Vector3 O) B, madd (of_vec (fst (vec_mul_biv u B))) (of_tri (snd (vec_mul_biv u B))) ==
                             mmul (of_vec u) (of_biv B)) /\
  (forall B C : Bivector3 O, of_rot (biv_mul B C) == mmul (of_biv B) (of_biv C)) /\
  (forall r s : Rotor3 O, of_rot (rot_mul r s) == mmul (of_rot r) (of_rot s)) /\
  (forall (r : Rotor3 O) u, madd (of_vec (fst (rot_mul_vec r u))) (of_tri (snd (rot_mul_vec r u))) ==
                            mmul (of_rot r) (of_vec u)) /\
  (forall T U : Trivector3 O, of_scalar (tri_mul T U) == mmul (of_tri T) (of_tri U)).
Proof.
  intros O CR. repeat split; intros.
  - apply (vec_mul_spec CR). - apply (vec_mul_biv_spec CR). - apply (biv_mul_spec CR).
  - apply (rot_mul_spec CR). - apply (rot_mul_vec_spec CR). - apply (tri_mul_spec CR).
Qed.
Print Assumptions C40_products.

Theorem C40_rotor_ring :
  forall O, comm_ring O -> forall r s q : Rotor3 O,
  rot_mul (rot_mul r s) q = rot_mul r (rot_mul s q) /\
  rot_mul rot_identity r = r /\ rot_mul r rot_identity = r /\
  rot_mul (rot_add r s) q = rot_add (rot_mul r q) (rot_mul s q) /\
  rot_mul q (rot_add r s) = rot_add (rot_mul q r) (rot_mul q s).
Proof.
  intros O CR r s q. split; [apply (rot_mul_assoc CR)|].
  destruct (rot_mul_1 CR r) as [-> ->], (rot_mul_add CR r s q) as [-> ->]. auto.
Qed.
Print Assumptions C40_rotor_ring.

(** The reals are such a ring; e1 e2 = e12 and e12 e12 = -1 there. *)
Example C40_example :
  comm_ring RO /\ vec_mul (O := RO) vec_unit_x vec_unit_y = Ro3 0 (B3 1 0 0) /\
  biv_mul (O := RO) biv_unit_xy biv_unit_xy = Ro3 (-1) (B3 0 0 0) /\
  rot_mul (O := RO) (Ro3 1 (B3 2 3 4)) (Ro3 5 (B3 6 7 8)) = Ro3 (-60) (B3 20 14 32).
Proof. split; [exact RO_ring|]. ga. repeat split; veq; ring. Qed.

(** ** C41 *)
Theorem C41_wedge_exterior :
  forall O, comm_ring O -> forall (u v w : Vector3 O) (k l : O),
  of_biv (vec_wedge u v) == mgrade 2 (mmul (of_vec u) (of_vec v)) /\
  vec_wedge (vec_add (vec_scale u k) (vec_scale v l)) w =
    biv_add (biv_scale (vec_wedge u w) k) (biv_scale (vec_wedge v w) l) /\
  vec_wedge w (vec_add (vec_scale u k) (vec_scale v l)) =
    biv_add (biv_scale (vec_wedge w u) k) (biv_scale (vec_wedge w v) l) /\
  vec_wedge v u = biv_neg (vec_wedge u v) /\ vec_wedge u u = biv_zero /\
  of_tri (biv_wedge_vec (vec_wedge u v) w) == mgrade 3 (mmul (of_biv (vec_wedge u v)) (of_vec w)) /\
  t1 (biv_wedge_vec (vec_wedge u v) w) = det u v w.
Proof.
  intros O CR u v w k l. split; [apply (vec_wedge_grade CR)|].
  destruct (vec_wedge_bilinear CR u v w k l) as [-> ->], (vec_wedge_anti CR u v) as [-> ->].
  repeat split; [apply (biv_wedge_vec_grade CR)|apply (wedge_det CR)].
Qed.
Print Assumptions C41_wedge_exterior.

Theorem C41_wedge_zero_iff_dependent :
  forall u v : Vector3 R, vec_wedge u v = B3 0 0 0 <->
  exists s t : R, (s <> 0 \/ t <> 0) /\ vec_add (vec_scale u s) (vec_scale v t) = V3 0 0 0.
Proof. exact wedge_zero_dependent. Qed.
Print Assumptions C41_wedge_zero_iff_dependent.

Example C41_example :
  vec_wedge (V3 1 2 3) (V3 2 4 6) = B3 0 0 0 /\ vec_wedge (V3 1 2 3) (V3 0 1 1) <> B3 0 0 0 /\
  t1 (biv_wedge_vec (vec_wedge (V3 1 2 3) (V3 0 1 1)) (V3 1 0 0)) =r -1.
Proof.
  ga. split; [veq; ring|]. split; [|ring]. intros H. injection H. intros. lra.
Qed.

(** The exterior product of two bivectors of 3-space is zero; [wedge] is not. *)
Theorem C41_bivector_wedge_exterior_refuted :
  ~ (forall (B C : Bivector3 R) c, of_biv (biv_wedge B C) c = mgrade 4 (mmul (of_biv B) (of_biv C)) c).
Proof.
  intros H. specialize (H (B3 1 0 0) (B3 0 0 1) (Bl true false true)). revert H.
  rewrite (biv_exterior_zero (O := RO)). cbv [of_biv biv_wedge b1 b2 b3 omul osub c0 RO]. lra.
Qed.
Print Assumptions C41_bivector_wedge_exterior_refuted.

(** ** C65 *)
Theorem C65_bivector_wedge_commutator :
  forall O, comm_ring O -> forall B C D : Bivector3 O,
  of_scalar (biv_dot B C) == mgrade 0 (mmul (of_biv B) (of_biv C)) /\
  of_biv (biv_wedge B C) == mgrade 2 (mmul (of_biv B) (of_biv C)) /\
  madd (of_scalar (biv_dot B C)) (of_biv (biv_wedge B C)) == mmul (of_biv B) (of_biv C) /\
  madd (of_biv (biv_wedge B C)) (of_biv (biv_wedge B C)) ==
    madd (mmul (of_biv B) (of_biv C)) (mscale (- c1)%ops (mmul (of_biv C) (of_biv B))) /\
  biv_wedge C B = biv_neg (biv_wedge B C) /\
  biv_add (biv_wedge B (biv_wedge C D)) (biv_add (biv_wedge C (biv_wedge D B)) (biv_wedge D (biv_wedge B C))) = biv_zero /\
  (forall c, mgrade 4 (mmul (of_biv B) (of_biv C)) c = c0).
Proof.
  intros O CR B C D. split; [apply (biv_dot_grade CR)|]. split; [apply (biv_wedge_grade CR)|].
  split; [apply (biv_mul_spec CR B C)|]. split; [apply (biv_wedge_commutator CR)|].
  split; [apply (biv_wedge_anti CR)|]. split; [apply (biv_wedge_jacobi CR)|]. intros c. apply biv_exterior_zero.
Qed.
Print Assumptions C65_bivector_wedge_commutator.

Example C65_example :
  biv_wedge (O := RO) biv_unit_xy biv_unit_yz = B3 0 1 0 /\ biv_wedge (O := RO) biv_unit_yz biv_unit_xy = B3 0 (-1) 0.
Proof. ga. split; veq; ring. Qed.

(** ** C42 *)
Theorem C42_dot_is_grade_0 :
  forall O, comm_ring O ->
  (forall u v : Vector3 O, vec_dot u v = vec_dot v u /\ of_scalar (vec_dot u v) == mgrade 0 (mmul (of_vec u) (of_vec v))) /\
  (forall u v : Bivector3 O, biv_dot u v = biv_dot v u /\ of_scalar (biv_dot u v) == mgrade 0 (mmul (of_biv u) (of_biv v))) /\
  (forall u v : Trivector3 O, tri_dot u v = tri_dot v u /\ of_scalar (tri_dot u v) == mgrade 0 (mmul (of_tri u) (of_tri v))) /\
  (forall u v : Rotor3 O, rot_dot u v = rot_dot v u /\ of_scalar (rot_dot u v) == mgrade 0 (mmul (of_rot u) (of_rot v))).
Proof.
  intros O CR. repeat split.
  - exact (vec_dot_sym CR u v). - apply (vec_dot_grade CR).
  - exact (biv_dot_sym CR u v). - apply (biv_dot_grade CR).
  - exact (tri_dot_sym CR u v). - apply (tri_dot_grade CR).
  - exact (rot_dot_sym CR u v). - apply (rot_dot_grade CR).
Qed.
Print Assumptions C42_dot_is_grade_0.

Theorem C42_norm_squared_reversal :
  forall O, comm_ring O ->
  (forall u : Vector3 O, of_scalar (vec_norm_squared u) == mmul (of_vec u) (mrev (of_vec u))) /\
  (forall u : Bivector3 O, of_scalar (biv_norm_squared u) == mmul (of_biv u) (mrev (of_biv u))) /\
  (forall u : Trivector3 O, of_scalar (tri_norm_squared u) == mmul (of_tri u) (mrev (of_tri u))) /\
  (forall u : Rotor3 O, of_scalar (rot_norm_squared u) == mmul (of_rot u) (mrev (of_rot u))) /\
  (forall u v : Vector3 O, biv_norm_squared (vec_wedge u v) =
     (vec_norm_squared u * vec_norm_squared v - vec_dot u v * vec_dot u v)%ops).
Proof.
  intros O CR. split; [exact (vec_norm2 CR)|]. split; [exact (biv_norm2 CR)|]. split; [exact (tri_norm2 CR)|].
  split; [exact (rot_norm2 CR)|exact (lagrange_identity CR)].
Qed.
Print Assumptions C42_norm_squared_reversal.

Theorem C42_norm_positive :
  (forall u : Vector3 R, 0 <= vec_norm_squared u /\ (vec_norm_squared u =r 0 <-> u = V3 0 0 0)) /\
  (forall u : Bivector3 R, 0 <= biv_norm_squared u /\ (biv_norm_squared u =r 0 <-> u = B3 0 0 0)) /\
  (forall u : Trivector3 R, 0 <= tri_norm_squared u /\ (tri_norm_squared u =r 0 <-> u = T3 0)) /\
  (forall u : Rotor3 R, 0 <= rot_norm_squared u /\ (rot_norm_squared u =r 0 <-> u = Ro3 0 (B3 0 0 0))).
Proof.
  split; [exact vec_norm2_pos|]. split; [exact biv_norm2_pos|]. split; [exact tri_norm2_pos|exact rot_norm2_pos].
Qed.
Print Assumptions C42_norm_positive.

(** normalize is finite on non-zero values and gives norm 1 (exact arithmetic with "not
    finite"); the zero vector has no direction. *)
Theorem C42_normalize :
  (forall u : Vector3 R, vnz u -> exists n, vec_normalize (O := XO) (xv u) = xv n /\ vec_norm (O := XO) (xv n) = Some 1 /\
     exists k : R, 0 < k /\ n = vec_scale u k) /\
  (forall u : Bivector3 R, bnz u -> exists n, biv_normalize (O := XO) (xb u) = xb n /\ biv_norm (O := XO) (xb n) = Some 1 /\
     exists k : R, 0 < k /\ n = biv_scale u k) /\
  (forall u : Trivector3 R, tnz u -> exists n, tri_normalize (O := XO) (xt u) = xt n /\ tri_norm (O := XO) (xt n) = Some 1 /\
     exists k : R, 0 < k /\ n = tri_scale_assign u k) /\
  (forall u : Rotor3 R, rnz u -> exists n, rot_normalize (O := XO) (xr u) = xr n /\ rot_norm (O := XO) (xr n) = Some 1 /\
     exists k : R, 0 < k /\ n = rot_scale u k) /\
  vec_normalize (O := XO) (xv (V3 0 0 0)) = V3 None None None.
Proof.
  split; [exact x_vec_normalized|]. split; [exact x_biv_normalized|]. split; [exact x_tri_normalized|].
  split; [exact x_rot_normalized|exact x_normalize_zero].
Qed.
Print Assumptions C42_normalize.

Theorem C42_dot_symmetric_f32 :
  forall lm,
  (forall u v : Vector3 (FO lm), vec_dot u v = vec_dot v u) /\
  (forall u v : Bivector3 (FO lm), biv_dot u v = biv_dot v u) /\
  (forall u v : Trivector3 (FO lm), tri_dot u v = tri_dot v u) /\
  (forall u v : Rotor3 (FO lm), rot_dot u v = rot_dot v u).
Proof.
  intros lm. split; [exact (f32_vec_dot_sym lm)|]. split; [exact (f32_biv_dot_sym lm)|].
  split; [exact (f32_tri_dot_sym lm)|exact (f32_rot_dot_sym lm)].
Qed.
Print Assumptions C42_dot_symmetric_f32.

Example C42_example :
  vec_dot (V3 1 2 3) (V3 4 5 6) =r 32 /\ vec_norm_squared (V3 1 2 2) =r 9 /\ vnz (V3 1 2 2) /\
  biv_norm_squared (B3 1 2 2) =r 9 /\ rot_norm_squared (Ro3 4 (B3 1 2 2)) =r 25 /\
  biv_dot (B3 1 0 0) (B3 1 0 0) =r -1 /\ tri_dot (T3 2) (T3 3) =r -6.
Proof.
  split; [ga; ring|]. split; [ga; ring|]. split; [intros H; injection H; intros; lra|].
  repeat split; ga; ring.
Qed.

(** ** C43 *)
Theorem C43_inverse_vec_biv_tri :
  (forall u : Vector3 R, vnz u -> exists i, vec_inverse (O := XO) (xv u) = xv i /\
     mmul (of_vec u) (of_vec i) == of_scalar (1 : RO) /\ mmul (of_vec i) (of_vec u) == of_scalar (1 : RO)) /\
  (forall u : Bivector3 R, bnz u -> exists i, biv_inverse (O := XO) (xb u) = xb i /\
     mmul (of_biv u) (of_biv i) == of_scalar (1 : RO) /\ mmul (of_biv i) (of_biv u) == of_scalar (1 : RO)) /\
  (forall u : Trivector3 R, tnz u -> exists i, tri_inverse (O := XO) (xt u) = xt i /\
     mmul (of_tri u) (of_tri i) == of_scalar (1 : RO) /\ mmul (of_tri i) (of_tri u) == of_scalar (1 : RO)) /\
  vec_inverse (O := XO) (xv (V3 0 0 0)) = V3 None None None.
Proof.
  split; [exact x_vec_inverse_mul|]. split; [exact x_biv_inverse_mul|]. split; [exact x_tri_inverse_mul|exact x_inverse_zero].
Qed.
Print Assumptions C43_inverse_vec_biv_tri.

Theorem C43_rotor_inverse_refuted :
  ~ (forall r : Rotor3 R, rnz r -> rot_mul r (rot_inverse r) = rot_identity).
Proof.
  intros H. specialize (H (Ro3 2 (B3 0 0 0))).
  apply (rot_inverse_iff (Ro3 2 (B3 0 0 0))) in H.
  - revert H. ga. lra.
  - intros E. injection E. intros. lra.
Qed.
Print Assumptions C43_rotor_inverse_refuted.

Example C43_example :
  vnz (V3 0 3 4) /\ bnz (B3 1 2 2) /\ tnz (T3 2) /\ vec_inverse (V3 0 3 4) = V3 0 (3 / 25) (4 / 25).
Proof.
  split; [intros H; injection H; intros; lra|]. split; [intros H; injection H; intros; lra|].
  split; [intros H; injection H; intros; lra|]. ga. veq; field.
Qed.

(** ** C66 *)
Theorem C66_rotor_inverse_reversal :
  forall O, comm_ring O -> forall r s : Rotor3 O,
  of_rot (rot_inverse r) == mrev (of_rot r) /\
  rot_mul r (rot_inverse r) = Ro3 (rot_norm_squared r) biv_zero /\
  rot_mul (rot_inverse r) r = Ro3 (rot_norm_squared r) biv_zero /\
  rot_norm_squared (rot_mul r s) = (rot_norm_squared r * rot_norm_squared s)%ops.
Proof.
  intros O CR r s. split; [apply (rot_inverse_rev CR)|].
  destruct (rot_inverse_mul CR r) as [-> ->]. repeat split. apply (rot_norm_mul CR).
Qed.
Print Assumptions C66_rotor_inverse_reversal.

Theorem C66_rotor_inverse_iff_unit :
  forall r : Rotor3 R,
  (rot_mul r (rot_inverse r) = rot_identity <-> rot_norm_squared r =r 1) /\
  (rot_mul (rot_inverse r) r = rot_identity <-> rot_norm_squared r =r 1).
Proof. exact rot_inverse_iff. Qed.
Print Assumptions C66_rotor_inverse_iff_unit.

Example C66_example :
  rot_norm_squared (Ro3 (3/5) (B3 0 (4/5) 0)) =r 1 /\ rot_norm_squared (Ro3 2 (B3 0 0 0)) =r 4.
Proof. split; ga; field. Qed.

(** ** C44 *)
Theorem C44_project :
  forall u v : Vector3 R, vnz v -> exists p, vec_project (O := XO) (xv u) (xv v) = xv p /\
  (exists k : R, p = vec_scale v k) /\ vec_dot (vec_sub u p) v =r 0 /\
  vec_project (O := XO) (xv p) (xv v) = xv p /\
  (forall p', (exists k : R, p' = vec_scale v k) -> vec_dot (vec_sub u p') v =r 0 -> p' = p).
Proof.
  intros u v H. exists (vec_project u v). split; [now apply x_project|]. split; [now apply project_parallel|].
  split; [now apply project_orth|]. split; [rewrite x_project by assumption; now rewrite project_idem|].
  intros p' K E. now apply project_unique.
Qed.
Print Assumptions C44_project.

Theorem C44_reflect :
  forall v : Vector3 R, vnz v ->
  (forall u, exists r, vec_reflect (O := XO) (xv u) (xv v) = xv r /\
     r = vec_sub (vec_scale (vec_project u v) 2) u /\
     vec_reflect (O := XO) (xv r) (xv v) = xv u) /\
  vec_reflect (O := XO) (xv v) (xv v) = xv v /\
  (forall u, vec_dot u v =r 0 -> vec_reflect (O := XO) (xv u) (xv v) = xv (vec_neg u)) /\
  (forall u w, vec_dot (vec_reflect u v) (vec_reflect w v) =r vec_dot u w) /\
  (forall u, snd (vec_reflect_parts (O := XO) (xv u) (xv v)) = xt (T3 0)).
Proof.
  intros v H. split; [|split; [|split; [|split]]].
  - intros u. exists (vec_reflect u v). split; [now apply x_reflect|]. split; [now apply reflect_project|].
    rewrite x_reflect by assumption. now rewrite reflect_involution.
  - rewrite x_reflect by assumption. now rewrite reflect_self.
  - intros u E. rewrite x_reflect by assumption. now rewrite reflect_orth.
  - intros u w. now apply reflect_dot.
  - intros u. unfold vec_reflect_parts. rewrite x_vec_inverse by assumption.
    rewrite <- (reflect_tri u v H). reflexivity.
Qed.
Print Assumptions C44_reflect.

Example C44_example :
  vec_project (V3 3 4 5) (V3 2 0 0) = V3 3 0 0 /\ vec_reflect (V3 3 4 5) (V3 2 0 0) = V3 3 (-4) (-5) /\ vnz (V3 2 0 0).
Proof.
  split; [ga; veq; field|]. split; [ga; veq; field|]. intros H; injection H; intros; lra.
Qed.

(** ** C45 *)
Theorem C45_rotate_sandwich :
  forall O, comm_ring O -> forall (r s : Rotor3 O) (u v w : Vector3 O) (k l : O),
  of_vec (rot_rotate r u) == mmul (mmul (of_rot r) (of_vec u)) (mrev (of_rot r)) /\
  rot_rotate r (vec_add (vec_scale u k) (vec_scale v l)) =
    vec_add (vec_scale (rot_rotate r u) k) (vec_scale (rot_rotate r v) l) /\
  vec_dot (rot_rotate r u) (rot_rotate r v) = (rot_norm_squared r * rot_norm_squared r * vec_dot u v)%ops /\
  det (rot_rotate r u) (rot_rotate r v) (rot_rotate r w) =
    (rot_norm_squared r * rot_norm_squared r * rot_norm_squared r * det u v w)%ops /\
  rot_rotate (rot_inverse r) (rot_rotate r u) = vec_scale u (rot_norm_squared r * rot_norm_squared r)%ops /\
  rot_rotate (rot_mul r s) u = rot_rotate r (rot_rotate s u) /\
  rot_rotate rot_identity u = u.
Proof.
  intros O CR r s u v w k l. split; [apply (rotate_sandwich CR)|]. split; [apply (rotate_linear CR)|].
  split; [apply (rotate_dot CR)|]. split; [apply (rotate_det CR)|]. split; [apply (rotate_inverse CR)|].
  split; [apply (rotate_compose CR)|apply (rotate_identity CR)].
Qed.
Print Assumptions C45_rotate_sandwich.

(** Hence a proper isometry for unit rotors. *)
Theorem C45_unit_isometry :
  forall r : Rotor3 R, rot_norm_squared r =r 1 -> forall u v w : Vector3 R,
  vec_dot (rot_rotate r u) (rot_rotate r v) =r vec_dot u v /\
  det (rot_rotate r u) (rot_rotate r v) (rot_rotate r w) =r det u v w /\
  rot_rotate (rot_inverse r) (rot_rotate r u) = u /\ rot_rotate r (rot_rotate (rot_inverse r) u) = u.
Proof.
  intros r H u v w. split; [|split; [|split]].
  - rewrite (rotate_dot RO_ring), H. cbn [omul RO]. ring.
  - rewrite (rotate_det RO_ring), H. cbn [omul RO]. ring.
  - rewrite (rotate_inverse RO_ring), H. destruct u. ga. veq; ring.
  - rewrite <- (rotate_compose RO_ring). rewrite (proj1 (rot_inverse_mul RO_ring r)), H.
    exact (rotate_identity RO_ring u).
Qed.
Print Assumptions C45_unit_isometry.

Example C45_example :
  rot_norm_squared (Ro3 (3/5) (B3 (-(4/5)) 0 0)) =r 1 /\
  rot_rotate (Ro3 (3/5) (B3 (-(4/5)) 0 0)) (V3 1 0 0) = V3 (-(7/25)) (24/25) 0.
Proof. split; ga; veq; field. Qed.

(** ** C46 *)
Theorem C46_from_vectors :
  forall u v : Vector3 R, vec_norm_squared u =r 1 -> vec_norm_squared v =r 1 -> v <> vec_neg u ->
  exists r, rot_from_vectors (O := XO) (xv u) (xv v) = xr r /\ rot_norm_squared r =r 1 /\
  rot_rotate r u = v /\
  (forall w, vec_dot w u =r 0 -> vec_dot w v =r 0 -> rot_rotate r w = w) /\
  rot_from_vectors (O := XO) (xv v) (xv u) = xr (rot_inverse r).
Proof.
  intros u v Hu Hv N. pose proof (unit_half_rotor u v Hu Hv N) as H. exists (rot_from_vectors u v).
  split; [now apply x_from_vectors|]. split; [now apply from_vectors_unit|].
  split; [now apply from_vectors_unit_image|]. split; [intros w; now apply from_vectors_orth|].
  rewrite from_vectors_inverse. apply x_from_vectors. apply unit_half_rotor; try assumption.
  intros E. apply N. rewrite E. destruct v. ga. veq; ring.
Qed.
Print Assumptions C46_from_vectors.

(** Opposite unit vectors: 0/0 in every component. *)
Theorem C46_opposite_not_finite :
  forall u : Vector3 R, vec_norm_squared u =r 1 ->
  rot_from_vectors (O := XO) (xv u) (xv (vec_neg u)) = Ro3 None (B3 None None None).
Proof.
  intros u H. apply x_from_vectors_opposite. apply half_rotor_zero. split.
  - intros E. rewrite E in H. revert H. ga. lra.
  - rewrite H. destruct u. ga. veq; field.
Qed.
Print Assumptions C46_opposite_not_finite.

Example C46_example :
  vec_norm_squared (V3 1 0 0) =r 1 /\ vec_norm_squared (V3 (3/5) (4/5) 0) =r 1 /\
  V3 (3/5) (4/5) 0 <> vec_neg (V3 1 0 0) /\
  (let r := rot_from_vectors (O := FO lm0) (V3 (f32_Z 1) (f32_Z 0) (f32_Z 0)) (V3 (f32_Z (-1)) (f32_Z 0) (f32_Z 0)) in
   map B2SF [scalar r; b1 (bivector r); b2 (bivector r); b3 (bivector r)] =
   [SpecFloat.S754_nan; SpecFloat.S754_nan; SpecFloat.S754_nan; SpecFloat.S754_nan]).
Proof.
  split; [ga; ring|]. split; [ga; field|]. split; [|vm_compute; reflexivity].
  intros E. revert E. ga. intros E. injection E. intros. lra.
Qed.

(** ** C67 *)
Theorem C67_from_vectors_general :
  forall u v : Vector3 R,
  (vnz u /\ v = vec_scale u (- / vec_norm_squared u) ->
   rot_from_vectors (O := XO) (xv u) (xv v) = Ro3 None (B3 None None None)) /\
  (~ (vnz u /\ v = vec_scale u (- / vec_norm_squared u)) ->
   exists r, rot_from_vectors (O := XO) (xv u) (xv v) = xr r /\ rot_norm_squared r =r 1 /\
   rot_from_vectors (O := XO) (xv v) (xv u) = xr (rot_inverse r) /\
   (forall w, vec_dot w u =r 0 -> vec_dot w v =r 0 -> rot_rotate r w = w) /\
   rot_rotate r u =
     vec_scale (vec_add (vec_scale u (1 - vec_norm_squared u * vec_norm_squared v))
                        (vec_scale v (2 * vec_norm_squared u * (1 + vec_dot u v))))
               (/ (1 + 2 * vec_dot u v + vec_norm_squared u * vec_norm_squared v)) /\
   0 < 1 + 2 * vec_dot u v + vec_norm_squared u * vec_norm_squared v).
Proof.
  intros u v. split; intros H.
  - apply x_from_vectors_opposite. now apply half_rotor_zero.
  - assert (N : rnz (half_rotor u v)) by (intros E; apply H; now apply half_rotor_zero).
    exists (rot_from_vectors u v). split; [now apply x_from_vectors|]. split; [now apply from_vectors_unit|].
    split; [|split; [|split]].
    + rewrite from_vectors_inverse. apply x_from_vectors. now apply half_rotor_swap.
    + intros w. now apply from_vectors_orth.
    + now apply from_vectors_image.
    + rewrite <- half_rotor_norm2. now apply rnz_norm2.
Qed.
Print Assumptions C67_from_vectors_general.

(** For independent vectors the image points along v exactly when |u||v| = 1: from_vectors
    does not normalise its arguments. *)
Theorem C67_from_vectors_direction :
  forall u v : Vector3 R, vec_wedge u v <> B3 0 0 0 ->
  ((exists k : R, rot_rotate (rot_from_vectors u v) u = vec_scale v k) <->
   vec_norm_squared u * vec_norm_squared v =r 1).
Proof. exact from_vectors_direction. Qed.
Print Assumptions C67_from_vectors_direction.

Example C67_example :
  vec_wedge (V3 2 0 0) (V3 0 2 0) <> B3 0 0 0 /\ vec_norm_squared (V3 2 0 0) * vec_norm_squared (V3 0 2 0) =r 16 /\
  ~ (exists k : R, rot_rotate (rot_from_vectors (V3 2 0 0) (V3 0 2 0)) (V3 2 0 0) = vec_scale (V3 0 2 0) k).
Proof.
  assert (W : vec_wedge (V3 2 0 0) (V3 0 2 0) <> B3 0 0 0).
  { ga. intros E. injection E. intros. lra. }
  assert (N : vec_norm_squared (V3 2 0 0) * vec_norm_squared (V3 0 2 0) =r 16) by (ga; ring).
  split; [exact W|]. split; [exact N|]. intros K. apply (C67_from_vectors_direction _ _ W) in K. rewrite N in K. lra.
Qed.

(** ** C47 *)
Theorem C47_angle_plane :
  forall (t : R) (B : Bivector3 R), biv_norm_squared B =r 1 ->
  rot_norm_squared (rot_from_angle_plane t B) =r 1 /\
  (forall u, biv_wedge_vec B u = T3 0 ->
     rot_rotate (rot_from_angle_plane t B) u = vec_add (vec_scale u (cos t)) (vec_scale (contract u B) (sin t)) /\
     vec_dot u (contract u B) =r 0 /\ vec_norm_squared (contract u B) =r vec_norm_squared u /\
     vec_wedge u (contract u B) = biv_scale B (vec_norm_squared u)) /\
  (forall n, contract n B = V3 0 0 0 -> rot_rotate (rot_from_angle_plane t B) n = n) /\
  (forall s, rot_mul (rot_from_angle_plane s B) (rot_from_angle_plane t B) = rot_from_angle_plane (s + t) B) /\
  (forall u, rot_rotate (rot_from_angle_plane (2 * PI) B) u = u).
Proof.
  intros t B H. split; [now apply angle_plane_norm|]. split; [|split; [|split]].
  - intros u W. split; [now apply angle_plane_in_plane|]. split; [apply (contract_orth RO_ring)|]. split.
    + rewrite (contract_norm RO_ring) by now rewrite W. rewrite H. cbn [omul RO]. ring.
    + apply (contract_turn RO_ring). now rewrite W.
  - intros n. now apply angle_plane_normal.
  - intros s. now apply angle_plane_add.
  - intros u. now apply angle_plane_turn.
Qed.
Print Assumptions C47_angle_plane.

(** Every vector splits into a part in the plane and a part normal to it. *)
Theorem C47_plane_and_normal :
  forall (B : Bivector3 R) u, biv_norm_squared B =r 1 ->
  exists p n, u = vec_add p n /\ biv_wedge_vec B p = T3 0 /\ contract n B = V3 0 0 0.
Proof. exact plane_split. Qed.
Print Assumptions C47_plane_and_normal.

Theorem C47_axis_constructors :
  forall t : R,
  rot_rotate (rot_from_xy_rotation t) (V3 1 0 0) = V3 (cos t) (sin t) 0 /\
  rot_rotate (rot_from_xz_rotation t) (V3 1 0 0) = V3 (cos t) 0 (sin t) /\
  rot_rotate (rot_from_yz_rotation t) (V3 0 1 0) = V3 0 (cos t) (sin t) /\
  rot_rotate (rot_from_xy_rotation t) (V3 0 0 1) = V3 0 0 1 /\
  rot_rotate (rot_from_xz_rotation t) (V3 0 1 0) = V3 0 1 0 /\
  rot_rotate (rot_from_yz_rotation t) (V3 1 0 0) = V3 1 0 0.
Proof. exact axis_rotations. Qed.
Print Assumptions C47_axis_constructors.

Example C47_example :
  biv_norm_squared (B3 (3/5) 0 (4/5)) =r 1 /\ biv_wedge_vec (B3 (3/5) 0 (4/5)) (V3 0 1 0) = T3 0 /\
  contract (V3 0 1 0) (B3 (3/5) 0 (4/5)) = V3 (-(3/5)) 0 (4/5) /\
  contract (V3 4 0 3) (B3 (3/5) 0 (4/5)) = V3 0 0 0.
Proof. rewrite !(contract_val RO_ring). ga. split; [field|]. repeat split; veq; field. Qed.

(** ** C48 *)
Theorem C48_angle_exact :
  forall u v : Vector3 R, vnz u -> vnz v -> exists t : R,
  vec_angle (O := XO) (xv u) (xv v) = Some t /\ vec_angle (O := XO) (xv v) (xv u) = Some t /\
  0 <= t <= PI /\ sqrt (vec_norm_squared u) * sqrt (vec_norm_squared v) * cos t =r vec_dot u v.
Proof.
  intros u v Hu Hv. exists (vec_angle u v). split; [now apply x_angle|].
  split; [rewrite x_angle by assumption; f_equal; apply angle_sym|].
  split; [apply angle_range|exact (angle_cos u v Hu Hv)].
Qed.
Print Assumptions C48_angle_exact.

(** In f32 the argument of acos can exceed 1: for u = v = (0,1,4) the normalised dot
    product is 1 + 2^-23, so acos (any that is NaN above 1) returns NaN. *)
Theorem C48_angle_number_f32_refuted :
  ~ (forall lm, (forall x : f32, Bltb (f32_Z 1) x = true -> lm_acos lm x = B754_nan) ->
     forall u v : Vector3 (FO lm),
     (is_finite (a1 u) = true /\ is_finite (a2 u) = true /\ is_finite (a3 u) = true /\ vec_is_zero u = false) ->
     (is_finite (a1 v) = true /\ is_finite (a2 v) = true /\ is_finite (a3 v) = true /\ vec_is_zero v = false) ->
     is_nan (vec_angle u v : f32) = false).
Proof.
  intros H.
  specialize (H (mkLibm (fun x => x) (fun x => x) (fun x => if Bltb (f32_Z 1) x then B754_nan else x))).
  specialize (H ltac:(intros x E; cbn [lm_acos]; now rewrite E)).
  specialize (H (V3 (f32_Z 0) (f32_Z 1) (f32_Z 4)) (V3 (f32_Z 0) (f32_Z 1) (f32_Z 4))).
  assert (K : is_finite (f32_Z 0) = true /\ is_finite (f32_Z 1) = true /\ is_finite (f32_Z 4) = true) by now vm_compute.
  vm_compute in H. discriminate (H ltac:(repeat split) ltac:(repeat split)).
Qed.
Print Assumptions C48_angle_number_f32_refuted.

(** The same for every libm: the argument itself is above 1. *)
Theorem C48_acos_argument_f32_refuted :
  ~ (forall lm (u : Vector3 (FO lm)), is_finite (a1 u) = true -> is_finite (a2 u) = true -> is_finite (a3 u) = true ->
     vec_is_zero u = false -> Bleb (vec_dot (vec_normalize u) (vec_normalize u) : f32) (f32_Z 1) = true).
Proof.
  intros H. specialize (H lm0 (V3 (f32_Z 0) (f32_Z 1) (f32_Z 4)) eq_refl eq_refl eq_refl).
  vm_compute in H. discriminate (H eq_refl).
Qed.
Print Assumptions C48_acos_argument_f32_refuted.

Example C48_example :
  vnz (V3 1 0 0) /\ vnz (V3 0 2 0) /\ vec_angle (O := XO) (xv (V3 1 0 0)) (xv (V3 0 2 0)) = Some (PI / 2).
Proof.
  assert (N1 : vnz (V3 1 0 0)) by (intros E; injection E; intros; lra).
  assert (N2 : vnz (V3 0 2 0)) by (intros E; injection E; intros; lra).
  split; [exact N1|]. split; [exact N2|].
  rewrite x_angle by assumption. f_equal. unfold vec_angle. cbn [oacos RO].
  match goal with |- acos ?x = _ => replace x with 0; [apply acos_0|] end.
  unfold vec_normalize. set (m := vec_norm (V3 1 0 0)). set (n := vec_norm (V3 0 2 0)).
  ga. unfold Rdiv. ring.
Qed.

(** ** C68 *)
Theorem C68_angle_f32_symmetric :
  forall lm (u v : Vector3 (FO lm)), vec_angle u v = vec_angle v u.
Proof. intros lm. exact (f32_angle_sym lm). Qed.
Print Assumptions C68_angle_f32_symmetric.

Theorem C68_angle_finite_iff_nonzero :
  forall u v : Vector3 R, vec_angle (O := XO) (xv u) (xv v) = None <-> u = V3 0 0 0 \/ v = V3 0 0 0.
Proof. exact x_angle_none. Qed.
Print Assumptions C68_angle_finite_iff_nonzero.

(** Right angles and parallel vectors. *)
Theorem C68_angle_cases :
  forall u v : Vector3 R, vnz u -> vnz v ->
  (vec_angle u v =r PI / 2 <-> vec_dot u v =r 0) /\
  (vec_angle u v =r 0 <-> exists k : R, 0 < k /\ v = vec_scale u k) /\
  (vec_angle u v =r PI <-> exists k : R, 0 < k /\ v = vec_scale u (- k)).
Proof. exact angle_cases. Qed.
Print Assumptions C68_angle_cases.

Example C68_example :
  vec_angle (O := XO) (xv (V3 0 0 0)) (xv (V3 1 2 3)) = None /\
  vec_angle (V3 1 2 3) (V3 2 4 6) =r 0.
Proof.
  split; [now apply C68_angle_finite_iff_nonzero; left|].
  apply C68_angle_cases; try (intros E; injection E; intros; lra).
  exists 2. split; [lra|]. ga. veq; ring.
Qed.

(** ** C49 *)
Theorem C49_vector_space :
  forall O, comm_ring O ->
  module_laws (O := O) vec_add vec_sub vec_neg vec_zero vec_scale /\
  module_laws (O := O) biv_add biv_sub biv_neg biv_zero biv_scale /\
  module_laws (O := O) tri_add tri_sub tri_neg tri_zero tri_scale_assign /\
  module_laws (O := O) rot_add rot_sub rot_neg (Ro3 c0 biv_zero) rot_scale.
Proof.
  intros O CR. split; [exact (vec_module CR)|]. split; [exact (biv_module CR)|].
  split; [exact (tri_module CR)|exact (rot_module CR)].
Qed.
Print Assumptions C49_vector_space.

Theorem C49_division :
  forall k : R, k <> 0 ->
  (forall u, vec_div (O := XO) (xv u) (Some k) = xv (vec_scale u (/ k)) /\ vec_scale (vec_div u k) k = u) /\
  (forall u, biv_div (O := XO) (xb u) (Some k) = xb (biv_scale u (/ k)) /\ biv_scale (biv_div u k) k = u) /\
  (forall u, tri_div (O := XO) (xt u) (Some k) = xt (tri_scale_assign u (/ k)) /\ tri_scale_assign (tri_div u k) k = u) /\
  (forall u, rot_div (O := XO) (xr u) (Some k) = xr (rot_scale u (/ k)) /\ rot_scale (rot_div u k) k = u).
Proof. exact div_laws. Qed.
Print Assumptions C49_division.

(** The assign operators agree with the binary ones in every arithmetic, f32 included. *)
Theorem C49_assign_agree :
  forall (O : Ops) (k : O),
  (forall u v, vec_add_assign u v = vec_add u v /\ vec_sub_assign u v = vec_sub u v /\
     vec_scale_assign u k = vec_scale u k /\ vec_div_assign u k = vec_div u k) /\
  (forall u v, biv_add_assign u v = biv_add u v /\ biv_sub_assign u v = biv_sub u v /\
     biv_scale_assign u k = biv_scale u k /\ biv_div_assign u k = biv_div u k) /\
  (forall u v, tri_add_assign u v = tri_add u v /\ tri_sub_assign u v = tri_sub u v /\
     tri_scale_assign u k = T3 (t1 u * k)%ops /\ tri_div_assign u k = tri_div u k) /\
  (forall u v, rot_add_assign u v = rot_add u v /\ rot_sub_assign u v = rot_sub u v /\
     rot_scale_assign u k = rot_scale u k /\ rot_div_assign u k = rot_div u k).
Proof. intros O k. repeat split. Qed.
Print Assumptions C49_assign_agree.

Theorem C49_is_zero_exact :
  (forall u : Vector3 R, vec_is_zero u = true <-> u = vec_zero) /\
  (forall u : Bivector3 R, biv_is_zero u = true <-> u = biv_zero) /\
  (forall u : Trivector3 R, tri_is_zero u = true <-> u = tri_zero).
Proof. exact is_zero_exact. Qed.
Print Assumptions C49_is_zero_exact.

(** In f32: exactly when every component is +0 or -0. *)
Theorem C49_is_zero_f32 :
  forall lm,
  let z (x : f32) := x = B754_zero true \/ x = B754_zero false in
  (forall u : Vector3 (FO lm), vec_is_zero u = true <-> z (a1 u) /\ z (a2 u) /\ z (a3 u)) /\
  (forall u : Bivector3 (FO lm), biv_is_zero u = true <-> z (b1 u) /\ z (b2 u) /\ z (b3 u)) /\
  (forall u : Trivector3 (FO lm), tri_is_zero u = true <-> z (t1 u)).
Proof. exact is_zero_f32. Qed.
Print Assumptions C49_is_zero_f32.

Example C49_example :
  vec_add (V3 1 2 3) (V3 4 5 6) = V3 5 7 9 /\ vec_is_zero (O := FO lm0) (V3 (B754_zero true) (B754_zero false) (B754_zero false)) = true /\
  vec_is_zero (O := FO lm0) (V3 (B754_zero true) (f32_of 1 (-149)) (B754_zero false)) = false.
Proof. split; [ga; veq; ring|]. split; vm_compute; reflexivity. Qed.

(** ** C50 *)

(** The three comparisons of f32 scalars, with their tolerances. *)
Inductive comparison := AbsDiff (eps : f32) | Relative (eps max_relative : f32) | Ulps (eps : f32) (max_ulps : Z).
Definition scalar_cmp (c : comparison) (x y : f32) : bool :=
  match c with
  | AbsDiff eps => f32_abs_diff_eq x y eps
  | Relative eps mr => f32_relative_eq x y eps mr
  | Ulps eps mu => f32_ulps_eq x y eps mu
  end.
Definition vec_cmp c u v := match c with
  | AbsDiff eps => vec_abs_diff_eq u v eps | Relative eps mr => vec_relative_eq u v eps mr | Ulps eps mu => vec_ulps_eq u v eps mu end.
Definition biv_cmp c u v := match c with
  | AbsDiff eps => biv_abs_diff_eq u v eps | Relative eps mr => biv_relative_eq u v eps mr | Ulps eps mu => biv_ulps_eq u v eps mu end.
Definition tri_cmp c u v := match c with
  | AbsDiff eps => tri_abs_diff_eq u v eps | Relative eps mr => tri_relative_eq u v eps mr | Ulps eps mu => tri_ulps_eq u v eps mu end.
Definition rot_cmp c u v := match c with
  | AbsDiff eps => rot_abs_diff_eq u v eps | Relative eps mr => rot_relative_eq u v eps mr | Ulps eps mu => rot_ulps_eq u v eps mu end.
(** Tolerances as used: epsilon not negative; max_ulps is a u32. *)
Definition sane (c : comparison) : Prop :=
  match c with
  | AbsDiff eps => Bleb (B754_zero false) eps = true
  | Relative _ _ => True
  | Ulps _ mu => (0 <= mu)%Z
  end.
Definition vec_list (u : Vector3 f32) := [a1 u; a2 u; a3 u].
Definition biv_list (u : Bivector3 f32) := [b1 u; b2 u; b3 u].
Definition tri_list (u : Trivector3 f32) := [t1 u].
Definition rot_list (u : Rotor3 f32) := scalar u :: biv_list (bivector u).

Theorem C50_componentwise :
  forall c,
  (forall u v, vec_cmp c u v = true <-> Forall2 (fun x y => scalar_cmp c x y = true) (vec_list u) (vec_list v)) /\
  (forall u v, biv_cmp c u v = true <-> Forall2 (fun x y => scalar_cmp c x y = true) (biv_list u) (biv_list v)) /\
  (forall u v, tri_cmp c u v = true <-> Forall2 (fun x y => scalar_cmp c x y = true) (tri_list u) (tri_list v)) /\
  (forall u v, rot_cmp c u v = true <-> Forall2 (fun x y => scalar_cmp c x y = true) (rot_list u) (rot_list v)).
Proof.
  assert (C : forall (P : f32 -> f32 -> Prop) x y l m, Forall2 P (x :: l) (y :: m) <-> P x y /\ Forall2 P l m).
  { intros P x y l m. split; [intros H; inversion H; auto|intros [H1 H2]; now constructor]. }
  assert (N : forall P : f32 -> f32 -> Prop, Forall2 P [] [] <-> True) by (intros P; split; auto).
  intros c. repeat split; intros *; unfold vec_list, biv_list, tri_list, rot_list, biv_list; rewrite !C, N;
  destruct c; cbn [vec_cmp biv_cmp tri_cmp rot_cmp scalar_cmp];
  unfold vec_abs_diff_eq, vec_relative_eq, vec_ulps_eq, biv_abs_diff_eq, biv_relative_eq, biv_ulps_eq,
    tri_abs_diff_eq, tri_relative_eq, tri_ulps_eq, rot_abs_diff_eq, rot_relative_eq, rot_ulps_eq,
    rot_approx, vec_approx, biv_approx, tri_approx; rewrite ?andb_true_iff; tauto.
Qed.
Print Assumptions C50_componentwise.

Theorem C50_scalar_laws :
  forall c x y,
  scalar_cmp c x y = scalar_cmp c y x /\
  (sane c -> is_finite x = true -> scalar_cmp c x x = true) /\
  (is_nan x = true \/ is_nan y = true -> scalar_cmp c x y = false).
Proof.
  assert (F : forall x : f32, is_finite x = true -> is_nan x = false) by (now intros []).
  intros [eps|eps mr|eps mu] x y; cbn [scalar_cmp sane].
  - split; [apply abs_diff_sym|]. split; [intros H1 H2; now apply abs_diff_refl|apply abs_diff_nan].
  - split; [apply relative_sym|]. split; [intros _ H; now apply relative_refl, F|apply relative_nan].
  - split; [apply ulps_sym|]. split; [intros H1 H2; apply ulps_refl; auto|apply ulps_nan].
Qed.
Print Assumptions C50_scalar_laws.

Theorem C50_laws :
  forall c,
  (forall u v, vec_cmp c u v = vec_cmp c v u) /\ (forall u v, biv_cmp c u v = biv_cmp c v u) /\
  (forall u v, tri_cmp c u v = tri_cmp c v u) /\ (forall u v, rot_cmp c u v = rot_cmp c v u) /\
  (sane c ->
   (forall u, Forall (fun x => is_finite x = true) (vec_list u) -> vec_cmp c u u = true) /\
   (forall u, Forall (fun x => is_finite x = true) (biv_list u) -> biv_cmp c u u = true) /\
   (forall u, Forall (fun x => is_finite x = true) (tri_list u) -> tri_cmp c u u = true) /\
   (forall u, Forall (fun x => is_finite x = true) (rot_list u) -> rot_cmp c u u = true)) /\
  (forall u v, Exists (fun x => is_nan x = true) (vec_list u ++ vec_list v) -> vec_cmp c u v = false) /\
  (forall u v, Exists (fun x => is_nan x = true) (biv_list u ++ biv_list v) -> biv_cmp c u v = false) /\
  (forall u v, Exists (fun x => is_nan x = true) (tri_list u ++ tri_list v) -> tri_cmp c u v = false) /\
  (forall u v, Exists (fun x => is_nan x = true) (rot_list u ++ rot_list v) -> rot_cmp c u v = false).
Proof.
  intros c. destruct (C50_componentwise c) as (CV & CB & CT & CR).
  set (P := fun x y => scalar_cmp c x y = true) in *.
  assert (Sy : forall l m, Forall2 P l m -> Forall2 P m l).
  { intros l m H. induction H; constructor; [|assumption]. unfold P in *.
    now rewrite (proj1 (C50_scalar_laws c y x)). }
  assert (Sb : forall a b : bool, (a = true <-> b = true) -> a = b) by (intros [] []; intuition congruence).
  assert (Re : sane c -> forall l, Forall (fun x => is_finite x = true) l -> Forall2 P l l).
  { intros Hc l H. induction H; constructor; [|assumption]. now apply C50_scalar_laws. }
  assert (Na : forall l m, Exists (fun x => is_nan x = true) (l ++ m) -> Forall2 P l m -> False).
  { intros l m E H. induction H as [|x y l m Hx H IH]; [inversion E|].
    assert (N : is_nan x = true \/ is_nan y = true -> False).
    { intros K. unfold P in Hx. now rewrite (proj2 (proj2 (C50_scalar_laws c x y)) K) in Hx. }
    apply Exists_app in E. destruct E as [E|E]; inversion E; subst; try (apply N; tauto);
      apply IH, Exists_app; tauto. }
  split; [intros u v; apply Sb; rewrite !CV; split; apply Sy|].
  split; [intros u v; apply Sb; rewrite !CB; split; apply Sy|].
  split; [intros u v; apply Sb; rewrite !CT; split; apply Sy|].
  split; [intros u v; apply Sb; rewrite !CR; split; apply Sy|].
  split; [intros Hc; split; [|split; [|split]]; intros u H; [apply CV|apply CB|apply CT|apply CR]; now apply Re|].
  split; [|split; [|split]]; intros u v H; apply not_true_iff_false; intros K;
    [apply CV in K|apply CB in K|apply CT in K|apply CR in K]; now apply (Na _ _ H).
Qed.
Print Assumptions C50_laws.

(** With the default tolerances 1 and 1+2^-23 are equal, 1 and 2 are not. *)
Example C50_example :
  sane (Ulps (f32_of 1 (-23)) 4) /\ sane (AbsDiff (f32_of 1 (-23))) /\
  vec_cmp (Ulps (f32_of 1 (-23)) 4) (V3 (f32_Z 1) (f32_Z 7) (f32_Z 0)) (V3 (f32_of 8388609 (-23)) (f32_of 7340033 (-20)) (f32_Z 0)) = true /\
  vec_cmp (AbsDiff (f32_of 1 (-23))) (V3 (f32_Z 1) (f32_Z 7) (f32_Z 0)) (V3 (f32_of 8388609 (-23)) (f32_of 7340033 (-20)) (f32_Z 0)) = false /\
  vec_cmp (Ulps (f32_of 1 (-23)) 4) (V3 (f32_Z 1) (f32_Z 7) (f32_Z 0)) (V3 (f32_Z 2) (f32_Z 7) (f32_Z 0)) = false.
Proof. split; [cbn; lia|]. repeat split; vm_compute; reflexivity. Qed.

(** ** C78 *)

(** On finite values the comparisons are: the rounded difference is at most epsilon;
    the same, or equal, or at most the larger magnitude times max_relative (rounded); the
    same, or equal signs and at most max_ulps grid steps apart. *)
Theorem C78_regions :
  forall x y eps : f32, is_finite x = true -> is_finite y = true -> is_finite eps = true ->
  (scalar_cmp (AbsDiff eps) x y = true <-> Rabs (rnd32 (B2R x - B2R y)) <= B2R eps) /\
  (forall mr : f32, is_finite mr = true -> Rabs (B2R mr) <= 1 ->
   (scalar_cmp (Relative eps mr) x y = true <->
    B2R x =r B2R y \/ Rabs (rnd32 (B2R x - B2R y)) <= B2R eps \/
    Rabs (rnd32 (B2R x - B2R y)) <= rnd32 (Rmax (Rabs (B2R x)) (Rabs (B2R y)) * B2R mr))) /\
  (forall mu : Z,
   (scalar_cmp (Ulps eps mu) x y = true <->
    Rabs (rnd32 (B2R x - B2R y)) <= B2R eps \/
    Bsign x = Bsign y /\ exists n : nat, (Z.of_nat n <= mu)%Z /\
      (Rabs (B2R y) =r after n (Rabs (B2R x)) \/ Rabs (B2R x) =r after n (Rabs (B2R y))))).
Proof.
  intros x y eps Fx Fy Fe. split; [now apply abs_diff_region|].
  split; [intros mr Fm Hm; now apply relative_region|intros mu; now apply ulps_region].
Qed.
Print Assumptions C78_regions.

(** Infinities: never within an absolute tolerance, relatively equal only to themselves;
    in ulps the largest finite number is one step from infinity. *)
Theorem C78_infinities :
  forall (s : bool) (y eps : f32),
  (is_finite eps = true -> scalar_cmp (AbsDiff eps) (B754_infinity s) y = false) /\
  (forall mr, scalar_cmp (Relative eps mr) (B754_infinity s) y = true <-> y = B754_infinity s) /\
  (forall mu t, is_finite eps = true -> (0 <= mu)%Z ->
   (scalar_cmp (Ulps eps mu) (B754_infinity s) (B754_infinity t) = true <-> s = t)) /\
  (forall mu, (1 <= mu)%Z -> scalar_cmp (Ulps eps mu) (B754_infinity false) (f32_of 16777215 104) = true).
Proof. intros s y eps. apply infinities. Qed.
Print Assumptions C78_infinities.

Example C78_example :
  let x := f32_Z 1000 in let y := f32_Z 1001 in let eps := f32_of 1 (-23) in
  scalar_cmp (Relative eps (f32_of 1 (-9))) x y = true /\
  scalar_cmp (Relative eps (f32_of 1 (-10))) x y = false /\
  scalar_cmp (AbsDiff (f32_Z 1)) x y = true /\ scalar_cmp (AbsDiff (f32_of 1 (-1))) x y = false /\
  scalar_cmp (Ulps eps 16384) x y = true /\ scalar_cmp (Ulps eps 16383) x y = false /\
  (forall mr, mr = f32_of 1 (-9) -> is_finite mr = true /\ Rabs (B2R mr) <= 1) /\
  is_finite x = true /\ is_finite y = true /\ is_finite eps = true.
Proof.
  repeat split; try (vm_compute; reflexivity).
  - subst mr. vm_compute. reflexivity.
  - subst mr. rewrite <- (SF2R_B2SF 24 128 (f32_of 1 (-9))).
    replace (B2SF (f32_of 1 (-9))) with (SpecFloat.S754_finite false 8388608 (-32)) by (vm_compute; reflexivity).
    unfold SF2R, F2R; cbn -[IZR]. rewrite Rabs_right; lra.
Qed.
