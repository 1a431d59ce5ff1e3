(** * Unit rotors and rotations of space. *)
From Coq Require Import List Bool Reals Lra Ring.
From Verif Require Import Scalar GA GASpec GARing GAReal SpinSpec.
Import ListNotations.
Local Open Scope R_scope.
Local Notation "x =r y" := (@eq R x y) (at level 70).

Lemma unit_rotor_norm : forall r, unit_rotor r <-> rot_norm_squared r =r 1.
Proof. intros r. rewrite rot_norm2_val. reflexivity. Qed.

Lemma rotor_rotation : forall r, unit_rotor r -> rotation (rot_rotate r).
Proof.
  intros r H. apply unit_rotor_norm in H. split.
  - intros u v. change (vec_dot (rot_rotate r u) (rot_rotate r v) =r vec_dot u v).
    rewrite (rotate_dot RO_ring), H. cbn [omul RO]. ring.
  - intros u v w. change (det (rot_rotate r u) (rot_rotate r v) (rot_rotate r w) =r det u v w).
    rewrite (rotate_det RO_ring), H. cbn [omul RO]. ring.
Qed.

Lemma rotate_back : forall r, unit_rotor r -> forall u,
  rot_rotate (rot_inverse r) (rot_rotate r u) = u /\ rot_rotate r (rot_rotate (rot_inverse r) u) = u.
Proof.
  intros r H u. apply unit_rotor_norm in H. split.
  - rewrite (rotate_inverse RO_ring), H. destruct u. ga. veq; ring.
  - rewrite <- (rotate_compose RO_ring). rewrite (proj1 (rot_inverse_mul RO_ring r)), H.
    exact (rotate_identity RO_ring u).
Qed.

Lemma unit_mul : forall r s, unit_rotor r -> unit_rotor s -> unit_rotor (rot_mul r s).
Proof.
  intros r s Hr Hs. apply unit_rotor_norm in Hr, Hs. apply unit_rotor_norm.
  rewrite (rot_norm_mul RO_ring), Hr, Hs. cbn [omul RO]. ring.
Qed.
Lemma unit_inverse : forall r, unit_rotor r -> unit_rotor (rot_inverse r).
Proof. intros [k [x y z]]. unfold unit_rotor. ga. intros H. rewrite <- H. ring. Qed.

(** An orthogonal map is fixed by the images of the axes. *)
Definition e1 : vec3 := V3 1 0 0.
Definition e2 : vec3 := V3 0 1 0.
Definition e3 : vec3 := V3 0 0 1.
Definition comb (u a b c : vec3) : vec3 :=
  V3 (a1 u * a1 a + a2 u * a1 b + a3 u * a1 c)
     (a1 u * a2 a + a2 u * a2 b + a3 u * a2 c)
     (a1 u * a3 a + a2 u * a3 b + a3 u * a3 c).
Lemma diff_zero : forall u v : vec3,
  dot3 u u - 2 * dot3 u v + dot3 v v = 0 -> u = v.
Proof.
  intros [x y z] [x' y' z']. unfold dot3. simpl. intros H.
  destruct (sum3_zero (x - x') (y - y') (z - z')) as (A & B & C).
  - rewrite <- H. ring.
  - f_equal; lra.
Qed.
Lemma orthogonal_comb : forall f, orthogonal f -> forall u, f u = comb u (f e1) (f e2) (f e3).
Proof.
  intros f H u. apply diff_zero.
  assert (D : dot3 (f u) (comb u (f e1) (f e2) (f e3)) =
    a1 u * dot3 (f u) (f e1) + a2 u * dot3 (f u) (f e2) + a3 u * dot3 (f u) (f e3)).
  { unfold dot3, comb. simpl. ring. }
  assert (E : dot3 (comb u (f e1) (f e2) (f e3)) (comb u (f e1) (f e2) (f e3)) =
    a1 u * a1 u * dot3 (f e1) (f e1) + a2 u * a2 u * dot3 (f e2) (f e2) + a3 u * a3 u * dot3 (f e3) (f e3) +
    2 * (a1 u * a2 u * dot3 (f e1) (f e2) + a1 u * a3 u * dot3 (f e1) (f e3) + a2 u * a3 u * dot3 (f e2) (f e3))).
  { unfold dot3, comb. simpl. ring. }
  rewrite D, E, !H. unfold dot3, e1, e2, e3. simpl. ring.
Qed.
Lemma third_axis : forall f, rotation f ->
  f e3 = V3 (a2 (f e1) * a3 (f e2) - a3 (f e1) * a2 (f e2))
            (a3 (f e1) * a1 (f e2) - a1 (f e1) * a3 (f e2))
            (a1 (f e1) * a2 (f e2) - a2 (f e1) * a1 (f e2)).
Proof.
  intros f (H & V). apply diff_zero. pose proof (V e1 e2 e3) as D.
  pose proof (H e1 e1) as H11. pose proof (H e2 e2) as H22. pose proof (H e1 e2) as H12. pose proof (H e3 e3) as H33.
  rewrite H33. destruct (f e1) as [x y z], (f e2) as [x' y' z'], (f e3) as [x'' y'' z''].
  revert D H11 H22 H12. unfold dot3, vol3, e1, e2, e3. simpl. intros D H11 H22 H12.
  replace (x'' * (y * z' - z * y') + y'' * (z * x' - x * z') + z'' * (x * y' - y * x'))
    with (x * (y' * z'' - z' * y'') - y * (x' * z'' - z' * x'') + z * (x' * y'' - y' * x'')) by ring.
  rewrite D.
  replace ((y * z' - z * y') * (y * z' - z * y') + (z * x' - x * z') * (z * x' - x * z') + (x * y' - y * x') * (x * y' - y * x'))
    with ((x * x + y * y + z * z) * (x' * x' + y' * y' + z' * z') - (x * x' + y * y' + z * z') * (x * x' + y * y' + z * z')) by ring.
  rewrite H11, H22, H12. ring.
Qed.
Lemma rotations_agree : forall f g, rotation f -> rotation g -> f e1 = g e1 -> f e2 = g e2 -> forall u, f u = g u.
Proof.
  intros f g Hf Hg A B u. rewrite (orthogonal_comb f (proj1 Hf) u), (orthogonal_comb g (proj1 Hg) u).
  rewrite (third_axis f Hf), (third_axis g Hg), A, B. reflexivity.
Qed.

Lemma circle_angle : forall x y : R, x * x + y * y = 1 -> exists t, cos t = x /\ sin t = y.
Proof.
  intros x y H. assert (Hx : -1 <= x <= 1) by nra.
  assert (S : sin (acos x) = sqrt (y * y)).
  { rewrite sin_acos by exact Hx. f_equal. unfold Rsqr. lra. }
  destruct (Rle_dec 0 y) as [Py|Ny].
  - exists (acos x). split; [now apply cos_acos|]. rewrite S. apply sqrt_square. exact Py.
  - exists (- acos x). split; [rewrite cos_neg; now apply cos_acos|].
    rewrite sin_neg, S. replace (y * y) with ((- y) * (- y)) by ring. rewrite sqrt_square by lra. ring.
Qed.

(** Some unit rotor takes the first axis to a given unit vector. *)
Lemma first_axis : forall v, unit_vector v -> exists r, unit_rotor r /\ rot_rotate r e1 = v.
Proof.
  intros v Hv. assert (U : vec_norm_squared e1 =r 1) by (ga; unfold e1; simpl; ring).
  destruct (Req_dec (a1 v) (-1)) as [E|N].
  - exists (rot_from_xy_rotation PI). split.
    + apply unit_rotor_norm. apply angle_plane_norm. ga. ring.
    + change e1 with (V3 1 0 0). rewrite (proj1 (axis_rotations PI)), cos_PI, sin_PI.
      destruct v as [x y z]. simpl in E. subst x. unfold unit_vector, dot3 in Hv. simpl in Hv.
      destruct (sum3_zero y z 0) as (A & B & _); [lra|]. now subst.
  - assert (Nv : v <> vec_neg e1).
    { intros ->. apply N. ga. unfold e1. simpl. reflexivity. }
    exists (rot_from_vectors e1 v). split.
    + apply unit_rotor_norm. apply from_vectors_unit. now apply unit_half_rotor.
    + now apply from_vectors_unit_image.
Qed.

Lemma no_first : forall b : vec3, dot3 b e1 = 0 -> V3 0 (a2 b) (a3 b) = b.
Proof. intros [x y z]. unfold dot3, e1. simpl. intros H. f_equal. lra. Qed.
Lemma on_circle : forall b : vec3, dot3 b e1 = 0 -> dot3 b b = 1 -> a2 b * a2 b + a3 b * a3 b = 1.
Proof. intros b H. rewrite <- (no_first b H) at 1. intros <-. rewrite <- (no_first b H). unfold dot3. simpl. ring. Qed.

Theorem rotations_are_rotors : forall f,
  rotation f <-> exists r, unit_rotor r /\ forall u, f u = rot_rotate r u.
Proof.
  intros f. split.
  - intros Hf. assert (U1 : unit_vector (f e1)).
    { unfold unit_vector. rewrite (proj1 Hf). unfold dot3, e1. simpl. ring. }
    destruct (first_axis (f e1) U1) as (r1 & Hr1 & E1).
    remember (rot_rotate (rot_inverse r1) (f e2)) as b eqn:Eb.
    pose proof (rotor_rotation _ (unit_inverse r1 Hr1)) as (O1 & _).
    assert (B1 : dot3 b e1 = 0).
    { pose proof (proj1 (rotate_back r1 Hr1 e1)) as E. rewrite E1 in E.
      transitivity (dot3 b (rot_rotate (rot_inverse r1) (f e1))); [now rewrite E|].
      rewrite Eb, O1, (proj1 Hf). unfold dot3, e1, e2. simpl. ring. }
    assert (B2 : dot3 b b = 1).
    { rewrite Eb, O1, (proj1 Hf). unfold dot3, e2. simpl. ring. }
    destruct (circle_angle (a2 b) (a3 b)) as (t & Ct & St).
    { apply on_circle; assumption. }
    set (r2 := rot_from_yz_rotation t).
    assert (Hr2 : unit_rotor r2) by (apply unit_rotor_norm; apply angle_plane_norm; ga; ring).
    destruct (axis_rotations t) as (_ & _ & A2 & _ & _ & A1).
    exists (rot_mul r1 r2). split; [now apply unit_mul|].
    apply rotations_agree; [exact Hf|now apply rotor_rotation, unit_mul| |].
    + rewrite (rotate_compose RO_ring). change e1 with (V3 1 0 0) at 2. unfold r2. rewrite A1. now rewrite <- E1.
    + rewrite (rotate_compose RO_ring). change e2 with (V3 0 1 0) at 2. unfold r2. rewrite A2, Ct, St.
      replace (V3 0 (a2 b) (a3 b)) with b.
      * rewrite Eb. symmetry. exact (proj2 (rotate_back r1 Hr1 (f e2))).
      * symmetry. now apply no_first.
  - intros (r & Hr & E). destruct (rotor_rotation r Hr) as [A B].
    split; [intros u v; now rewrite !E|intros u v w; now rewrite !E].
Qed.

(** Two unit rotors rotate alike exactly if they agree up to sign. *)
Lemma trivial_rotor : forall q, unit_rotor q -> (forall u, rot_rotate q u = u) ->
  q = Ro3 1 (B3 0 0 0) \/ q = Ro3 (-1) (B3 0 0 0).
Proof.
  intros [k [x y z]] H E. pose proof (E e1) as E1. pose proof (E e3) as E3.
  revert H E1 E3. unfold unit_rotor, e1, e3. ga. intros H E1 E3.
  injection E1. intros _ _ X1. injection E3. intros X3 _ _.
  assert (x * x + y * y = 0) by lra. assert (y * y + z * z = 0) by lra.
  destruct (sum3_zero x y 0) as (-> & -> & _); [lra|].
  destruct (sum3_zero z 0 0) as (-> & _ & _); [lra|].
  assert (F : (k - 1) * (k + 1) = 0) by (ring_simplify in H; lra).
  apply Rmult_integral in F. destruct F as [F|F]; [left|right]; f_equal; lra.
Qed.
Theorem same_rotation : forall r s, unit_rotor r -> unit_rotor s ->
  ((forall u, rot_rotate r u = rot_rotate s u) <-> r = s \/ r = opposite s).
Proof.
  intros r s Hr Hs. split.
  - intros E. set (q := rot_mul (rot_inverse s) r).
    assert (Q : q = Ro3 1 (B3 0 0 0) \/ q = Ro3 (-1) (B3 0 0 0)).
    { apply trivial_rotor; [apply unit_mul; [now apply unit_inverse|assumption]|].
      intros u. unfold q. rewrite (rotate_compose RO_ring), E. exact (proj1 (rotate_back s Hs u)). }
    assert (R' : r = rot_mul s q).
    { apply unit_rotor_norm in Hs. revert Hs. unfold q. destruct r as [k [x y z]], s as [k' [x' y' z']]. ga.
      intros Hs. assert (N : k' * k' + x' * x' + y' * y' + z' * z' = 1) by lra.
      veq.
      - replace k with (k * (k' * k' + x' * x' + y' * y' + z' * z')) at 1 by (rewrite N; ring). ring.
      - replace x with (x * (k' * k' + x' * x' + y' * y' + z' * z')) at 1 by (rewrite N; ring). ring.
      - replace y with (y * (k' * k' + x' * x' + y' * y' + z' * z')) at 1 by (rewrite N; ring). ring.
      - replace z with (z * (k' * k' + x' * x' + y' * y' + z' * z')) at 1 by (rewrite N; ring). ring. }
    rewrite R'. destruct s as [k [x y z]], Q as [-> | ->]; [left|right]; unfold opposite; ga; veq; ring.
  - intros [-> | ->] u; [reflexivity|]. destruct s as [k [x y z]], u as [a b c]. unfold opposite. ga. veq; ring.
Qed.

(** Every unit rotor comes from an angle and a plane. *)
Theorem unit_rotor_angle_plane : forall r, unit_rotor r ->
  exists t B, 0 <= t <= 2 * PI /\ unit_plane B /\ rot_from_angle_plane t B = r.
Proof.
  intros [k [x y z]]. unfold unit_rotor. simpl. intros H.
  assert (Hk : -1 <= k <= 1) by nra.
  assert (C : cos (2 * acos k / 2) = k) by (replace (2 * acos k / 2) with (acos k) by field; now apply cos_acos).
  set (L := sqrt (x * x + y * y + z * z)).
  assert (S : sin (2 * acos k / 2) = L).
  { replace (2 * acos k / 2) with (acos k) by field. rewrite sin_acos by exact Hk. unfold L. f_equal. unfold Rsqr. lra. }
  assert (Bd : 0 <= 2 * acos k <= 2 * PI) by (pose proof (acos_bound k); lra).
  assert (LL : L * L = x * x + y * y + z * z) by (apply sqrt_sqrt, sum3_nonneg).
  exists (2 * acos k).
  destruct (Req_dec L 0) as [Z|NZ].
  - exists (B3 1 0 0). split; [exact Bd|]. split; [unfold unit_plane; simpl; ring|].
    rewrite Z in LL. destruct (sum3_zero x y z) as (-> & -> & ->); [lra|].
    unfold rot_from_angle_plane. change (cos (2 * acos k / 2)) with (ocos (2 * acos k / 2)) in C.
    cbn [ocos osin odiv c2 RO]. unfold biv_scale. cbn [omul oneg RO b1 b2 b3].
    cbn [ocos RO] in C. rewrite C, S, Z. veq; ring.
  - exists (B3 (- x / L) (- y / L) (- z / L)). split; [exact Bd|]. split.
    + unfold unit_plane. simpl.
      replace (- x / L * (- x / L) + - y / L * (- y / L) + - z / L * (- z / L))
        with ((x * x + y * y + z * z) / (L * L)) by (field; exact NZ).
      rewrite LL. apply Rinv_r. rewrite <- LL. now apply Rmult_integral_contrapositive.
    + unfold rot_from_angle_plane. cbn [ocos osin odiv c2 RO]. unfold biv_scale. cbn [omul oneg RO b1 b2 b3].
      rewrite C, S. veq; field; exact NZ.
Qed.

(** Every unit rotor is the product of two unit vectors, and rotates like two reflections. *)
Lemma vector_in_plane : forall B : Bivector3 R, exists v, unit_vector v /\ biv_wedge_vec B v = T3 0.
Proof.
  intros [x y z]. destruct (Req_dec (y * y + z * z) 0) as [Z|NZ].
  - exists e1. split; [unfold unit_vector, dot3, e1; simpl; ring|].
    destruct (sum3_zero y z 0) as (-> & -> & _); [lra|]. unfold e1. ga. f_equal. ring.
  - set (L := sqrt (y * y + z * z)).
    assert (P : 0 <= y * y + z * z) by (pose proof (sum3_nonneg y z 0); lra).
    assert (LL : L * L = y * y + z * z) by now apply sqrt_sqrt.
    assert (NL : L <> 0) by (intros E; apply NZ; rewrite <- LL, E; ring).
    exists (V3 (y / L) (z / L) 0). split.
    + unfold unit_vector, dot3. simpl.
      replace (y / L * (y / L) + z / L * (z / L) + 0 * 0) with ((y * y + z * z) / (L * L)) by (field; exact NL).
      rewrite LL. now apply Rinv_r.
    + ga. f_equal. field. exact NL.
Qed.
Lemma unit_vnz : forall v, unit_vector v -> vnz v.
Proof. intros v H E. subst v. unfold unit_vector, dot3 in H. simpl in H. lra. Qed.
Theorem unit_rotor_product : forall r, unit_rotor r ->
  exists v w, unit_vector v /\ unit_vector w /\ vec_mul w v = r /\
  forall u, rot_rotate r u = vec_reflect (vec_reflect u v) w.
Proof.
  intros r H. destruct (vector_in_plane (bivector r)) as (v & Hv & Wv).
  set (w := fst (rot_mul_vec r v)).
  assert (E : vec_mul w v = r).
  { unfold w. revert Hv Wv. destruct r as [k [x y z]], v as [a b c]. unfold unit_vector, dot3. ga. intros Hv Wv.
    injection Wv as Wv. veq.
    - replace k with (k * (a * a + b * b + c * c)) at 4 by (rewrite Hv; ring). ring.
    - replace x with (x * (a * a + b * b + c * c)) at 3 by (rewrite Hv; ring).
      apply Rminus_diag_uniq. transitivity (- c * (z * a - y * b + x * c)); [ring|]. rewrite Wv. ring.
    - replace y with (y * (a * a + b * b + c * c)) at 3 by (rewrite Hv; ring).
      apply Rminus_diag_uniq. transitivity (b * (z * a - y * b + x * c)); [ring|]. rewrite Wv. ring.
    - replace z with (z * (a * a + b * b + c * c)) at 3 by (rewrite Hv; ring).
      apply Rminus_diag_uniq. transitivity (- a * (z * a - y * b + x * c)); [ring|]. rewrite Wv. ring. }
  assert (Hw : unit_vector w).
  { unfold unit_rotor in H. rewrite <- E in H. clear E. revert H Hv. unfold unit_vector, dot3.
    destruct w as [a b c], v as [a' b' c']. ga. intros H Hv.
    replace (a * a + b * b + c * c) with ((a * a + b * b + c * c) * (a' * a' + b' * b' + c' * c')) by (rewrite Hv; ring).
    rewrite <- H. ring. }
  exists v, w. split; [exact Hv|]. split; [exact Hw|]. split; [exact E|].
  intros u. rewrite <- E. revert Hv Hw. clear. unfold unit_vector, dot3.
  destruct u as [p q s], v as [a b c], w as [a' b' c']. ga. intros Hv Hw. rewrite Hv, Hw. unfold Rdiv. rewrite Rinv_1. veq; ring.
Qed.

(** Improper maps: rotate after the point reflection. *)
Theorem improper_are_rotors : forall f,
  improper f <-> exists r, unit_rotor r /\ forall u, f u = rot_rotate r (vec_neg u).
Proof.
  assert (Dn : forall u v, dot3 (vec_neg u) (vec_neg v) = dot3 u v) by (intros [x y z] [x' y' z']; unfold dot3; ga; ring).
  assert (Vn : forall u v w, vol3 (vec_neg u) (vec_neg v) (vec_neg w) = - vol3 u v w)
    by (intros [x y z] [x' y' z'] [x'' y'' z'']; unfold vol3; ga; ring).
  assert (Nn : forall u : vec3, vec_neg (vec_neg u) = u) by (intros [x y z]; ga; veq; ring).
  intros f. split.
  - intros (O' & V). assert (Hf : rotation (fun u => f (vec_neg u))).
    { split; [intros u v; now rewrite O', Dn|]. intros u v w. rewrite V, Vn. ring. }
    apply rotations_are_rotors in Hf. destruct Hf as (r & Hr & E). exists r. split; [exact Hr|].
    intros u. rewrite <- E. now rewrite Nn.
  - intros (r & Hr & E). destruct (rotor_rotation r Hr) as [A B].
    split; [intros u v; now rewrite !E, A, Dn|]. intros u v w. now rewrite !E, B, Vn.
Qed.

(** Orthogonal maps are linear and commute with the vector operations. *)
Lemma orthogonal_linear : forall f, orthogonal f -> forall (u v : vec3) (k l : R),
  f (vec_add (vec_scale u k) (vec_scale v l)) = vec_add (vec_scale (f u) k) (vec_scale (f v) l).
Proof.
  intros f H u v k l. rewrite (orthogonal_comb f H u), (orthogonal_comb f H v), (orthogonal_comb f H (vec_add _ _)).
  destruct u as [x y z], v as [x' y' z'], (f e1), (f e2), (f e3). unfold comb. ga. veq; ring.
Qed.
Lemma orthogonal_scale : forall f, orthogonal f -> forall (u : vec3) (k : R), f (vec_scale u k) = vec_scale (f u) k.
Proof.
  intros f H u k. rewrite (orthogonal_comb f H u), (orthogonal_comb f H (vec_scale _ _)).
  destruct u as [x y z], (f e1), (f e2), (f e3). unfold comb. ga. veq; ring.
Qed.
Lemma orthogonal_div : forall f, orthogonal f -> forall (u : vec3) (k : R), f (vec_div u k) = vec_div (f u) k.
Proof.
  intros f H u k. assert (E : forall u : vec3, vec_div u k = vec_scale u (/ k)) by (intros [x y z]; reflexivity).
  rewrite !E. now apply orthogonal_scale.
Qed.
Lemma orthogonal_sub : forall f, orthogonal f -> forall u v : vec3, f (vec_sub u v) = vec_sub (f u) (f v).
Proof.
  intros f H u v. rewrite (orthogonal_comb f H u), (orthogonal_comb f H v), (orthogonal_comb f H (vec_sub _ _)).
  destruct u as [x y z], v as [x' y' z'], (f e1), (f e2), (f e3). unfold comb. ga. veq; ring.
Qed.
Lemma orthogonal_vnz : forall f, orthogonal f -> forall u, vnz u <-> vnz (f u).
Proof.
  intros f H u. unfold vnz. pose proof (proj2 (vec_norm2_pos u)) as A. pose proof (proj2 (vec_norm2_pos (f u))) as B.
  change (vec_norm_squared (f u)) with (dot3 (f u) (f u)) in B. rewrite H in B.
  change (vec_norm_squared u) with (dot3 u u) in A. tauto.
Qed.
Lemma orthogonal_inj : forall f, orthogonal f -> forall u v, f u = f v -> u = v.
Proof.
  intros f H u v E. apply diff_zero. rewrite <- (H u u), <- (H u v), <- (H v v), E. ring.
Qed.
Lemma vnz_dec : forall u, vnz u \/ u = V3 0 0 0.
Proof.
  intros u. destruct (vec_norm2_pos u) as (_ & A). destruct (Req_dec (vec_norm_squared u) 0) as [Z|Z]; [right; now apply A|].
  left. intros E. apply Z. now apply A.
Qed.
Lemma xv_inj : forall u v, xv u = xv v -> u = v.
Proof. intros [x y z] [x' y' z'] E. injection E as -> -> ->. reflexivity. Qed.
Lemma orthogonal_zero : forall f, orthogonal f -> f (V3 0 0 0) = V3 0 0 0.
Proof.
  intros f H. destruct (vnz_dec (f (V3 0 0 0))) as [N|E]; [|exact E].
  exfalso. exact (proj2 (orthogonal_vnz f H _) N eq_refl).
Qed.

Theorem orthogonal_operations : forall f, orthogonal f -> forall u v p : vec3,
  vec_dot (O := XO) (xv (f u)) (xv (f v)) = vec_dot (O := XO) (xv u) (xv v) /\
  vec_norm (O := XO) (xv (f u)) = vec_norm (O := XO) (xv u) /\
  vec_angle (O := XO) (xv (f u)) (xv (f v)) = vec_angle (O := XO) (xv u) (xv v) /\
  (vec_normalize (O := XO) (xv (f u)) = xv (f p) <-> vec_normalize (O := XO) (xv u) = xv p) /\
  (vec_inverse (O := XO) (xv (f u)) = xv (f p) <-> vec_inverse (O := XO) (xv u) = xv p) /\
  (vec_project (O := XO) (xv (f u)) (xv (f v)) = xv (f p) <-> vec_project (O := XO) (xv u) (xv v) = xv p) /\
  (vec_reflect (O := XO) (xv (f u)) (xv (f v)) = xv (f p) <-> vec_reflect (O := XO) (xv u) (xv v) = xv p).
Proof.
  intros f H u v p.
  assert (NZ : forall u, vnz u -> vnz (f u)) by (intros a; exact (proj1 (orthogonal_vnz f H a))).
  assert (D : forall u v, vec_dot (f u) (f v) =r vec_dot u v) by (intros a b; exact (H a b)).
  assert (Nm : forall u, vec_norm (f u) =r vec_norm u).
  { intros a. unfold vec_norm, vec_norm_squared. now rewrite D. }
  assert (In' : forall u, f (vec_inverse u) = vec_inverse (f u)).
  { intros a. unfold vec_inverse. rewrite (orthogonal_div f H). unfold vec_norm_squared. now rewrite D. }
  assert (No : forall u, f (vec_normalize u) = vec_normalize (f u)).
  { intros a. unfold vec_normalize. rewrite (orthogonal_div f H). now rewrite Nm. }
  assert (Pr : forall u v, f (vec_project u v) = vec_project (f u) (f v)).
  { intros a b. unfold vec_project. rewrite (orthogonal_scale f H), In'. now rewrite D. }
  assert (Re : forall u v, vnz v -> f (vec_reflect u v) = vec_reflect (f u) (f v)).
  { intros a b Nb. rewrite (reflect_project a b Nb), (reflect_project (f a) (f b)) by now apply NZ.
    rewrite (orthogonal_sub f H), (orthogonal_scale f H). now rewrite Pr. }
  assert (I : forall a b, xv (f a) = xv (f b) <-> xv a = xv b).
  { intros a b. split; intros E; apply xv_inj in E; [apply (orthogonal_inj f H) in E|]; now rewrite E. }
  assert (Z := orthogonal_zero f H).
  split; [rewrite !x_dot; now rewrite D|]. split; [rewrite !x_norm; now rewrite Nm|]. split; [|split; [|split; [|split]]].
  - destruct (vnz_dec u) as [Nu|Zu].
    + destruct (vnz_dec v) as [Nv|Zv].
      * rewrite !x_angle by (try assumption; now apply NZ).
        unfold vec_angle. rewrite <- !No. now rewrite D.
      * subst v. rewrite Z. unfold vec_angle. rewrite !x_normalize_zero.
        unfold vec_dot, vnone. cbn [oadd omul XO a1 a2 a3].
        rewrite !x_vec_normalize by (try assumption; now apply NZ). reflexivity.
    + subst u. rewrite Z. now rewrite !x_angle_zero.
  - destruct (vnz_dec u) as [Nu|Zu].
    + rewrite !x_vec_normalize by (try assumption; now apply NZ). rewrite <- No. apply I.
    + subst u. rewrite Z, x_normalize_zero. split; discriminate.
  - destruct (vnz_dec u) as [Nu|Zu].
    + rewrite !x_vec_inverse by (try assumption; now apply NZ). rewrite <- In'. apply I.
    + subst u. rewrite Z, x_inverse_zero. split; discriminate.
  - destruct (vnz_dec v) as [Nv|Zv].
    + rewrite !x_project by (try assumption; now apply NZ). rewrite <- Pr. apply I.
    + subst v. rewrite Z. unfold vec_project. rewrite x_inverse_zero. split; discriminate.
  - destruct (vnz_dec v) as [Nv|Zv].
    + rewrite !x_reflect by (try assumption; now apply NZ). rewrite <- Re by exact Nv. apply I.
    + subst v. rewrite Z. unfold vec_reflect, vec_reflect_parts. rewrite x_inverse_zero. split; discriminate.
Qed.

(** from_vectors of rotated vectors is the conjugated rotor. *)
Definition conj_rotor (r q : Rotor3 R) : Rotor3 R := rot_mul (rot_mul r q) (rot_inverse r).
Lemma conj_mul : forall r u v,
  vec_mul (rot_rotate r v) (rot_rotate r u) = rot_scale (conj_rotor r (vec_mul v u)) (rot_norm_squared r).
Proof. intros [k [x y z]] [p q s] [p' q' s']. unfold conj_rotor. ga. veq; ring. Qed.
Lemma conj_half : forall r u v, unit_rotor r ->
  half_rotor (rot_rotate r u) (rot_rotate r v) = conj_rotor r (half_rotor u v).
Proof.
  intros r u v H. apply unit_rotor_norm in H.
  assert (E : forall u v, half_rotor u v = rot_add rot_identity (vec_mul v u)).
  { intros [p q s] [p' q' s']. unfold half_rotor. ga. veq; ring. }
  rewrite !E, conj_mul, H. rewrite rot_norm2_val in H. revert H. unfold conj_rotor. generalize (vec_mul v u).
  destruct r as [k [x y z]]. intros [k' [x' y' z']]. ga. intros H. veq; [|ring|ring|ring].
  rewrite <- H at 1. ring.
Qed.
Lemma conj_norm : forall r q, unit_rotor r -> rot_norm_squared (conj_rotor r q) =r rot_norm_squared q.
Proof.
  intros r q H. pose proof (unit_inverse r H) as H'. apply unit_rotor_norm in H, H'. unfold conj_rotor.
  rewrite !(rot_norm_mul RO_ring), H, H'. cbn [omul RO]. ring.
Qed.
Lemma conj_scale : forall r q (k : R), conj_rotor r (rot_scale q k) = rot_scale (conj_rotor r q) k.
Proof. intros [k' [x y z]] [k [x' y' z']] l. unfold conj_rotor. ga. veq; ring. Qed.
Theorem from_vectors_rotated : forall r u v, unit_rotor r ->
  (rnz (half_rotor u v) <-> rnz (half_rotor (rot_rotate r u) (rot_rotate r v))) /\
  rot_from_vectors (rot_rotate r u) (rot_rotate r v) = conj_rotor r (rot_from_vectors u v).
Proof.
  intros r u v H. pose proof (conj_half r u v H) as E. pose proof (conj_norm r (half_rotor u v) H) as N.
  split.
  - rewrite E. unfold rnz. pose proof (proj2 (rot_norm2_pos (half_rotor u v))) as A.
    pose proof (proj2 (rot_norm2_pos (conj_rotor r (half_rotor u v)))) as B. rewrite N in B. tauto.
  - change (rot_normalize (half_rotor (rot_rotate r u) (rot_rotate r v)) = conj_rotor r (rot_normalize (half_rotor u v))).
    unfold rot_normalize. rewrite !rot_div_scale, conj_scale, E. unfold rot_norm. now rewrite N.
Qed.
Theorem x_from_vectors_rotated : forall r u v q, unit_rotor r ->
  (rot_from_vectors (O := XO) (xv (rot_rotate r u)) (xv (rot_rotate r v)) = xr (conj_rotor r q) <->
   rot_from_vectors (O := XO) (xv u) (xv v) = xr q).
Proof.
  intros r u v q H. destruct (from_vectors_rotated r u v H) as (A & B).
  destruct (rot_norm2_zero_dec (half_rotor u v)) as [N|Z].
  - rewrite !x_from_vectors by (try assumption; now apply A). rewrite B. split; intros E.
    + assert (I : forall a b, xr a = xr b -> a = b).
      { intros [k [x y z]] [k' [x' y' z']] Q. injection Q as -> -> -> ->. reflexivity. }
      apply I in E. f_equal. assert (U : forall a, conj_rotor (rot_inverse r) (conj_rotor r a) = a).
      { intros a. apply unit_rotor_norm in H. rewrite rot_norm2_val in H. revert H. unfold conj_rotor.
        destruct r as [k [x y z]], a as [k' [x' y' z']]. ga. simpl. intros H.
        set (n := k * k + (x * x + y * y + z * z)) in *.
        assert (Q : n * n = 1) by (rewrite H; ring). unfold n in Q.
        veq; [transitivity (n * n * k')|transitivity (n * n * x')|transitivity (n * n * y')|transitivity (n * n * z')];
          try (unfold n; ring); rewrite H; ring. }
      now rewrite <- (U (rot_from_vectors u v)), E, U.
    + f_equal. f_equal. assert (I : forall a b, xr a = xr b -> a = b).
      { intros [k [x y z]] [k' [x' y' z']] Q. injection Q as -> -> -> ->. reflexivity. }
      now apply I.
  - assert (Z' : half_rotor (rot_rotate r u) (rot_rotate r v) = Ro3 0 (B3 0 0 0)).
    { destruct (rot_norm2_zero_dec (half_rotor (rot_rotate r u) (rot_rotate r v))) as [N|Z']; [|exact Z'].
      exfalso. apply A in N. now apply N. }
    rewrite !x_from_vectors_opposite by assumption. split; discriminate.
Qed.

Theorem x_constructions : forall r, unit_rotor r ->
  (exists t B, 0 <= t <= 2 * PI /\ unit_plane B /\
     rot_from_angle_plane (O := XO) (Some t) (xb B) = xr r) /\
  (exists v w, unit_vector v /\ unit_vector w /\ vec_mul (O := XO) (xv w) (xv v) = xr r /\
     forall u, xv (rot_rotate r u) = vec_reflect (O := XO) (vec_reflect (O := XO) (xv u) (xv v)) (xv w)).
Proof.
  intros r H. split.
  - destruct (unit_rotor_angle_plane r H) as (t & B & Ht & HB & E). exists t, B. split; [exact Ht|].
    split; [exact HB|]. rewrite <- E. unfold rot_from_angle_plane. cbn [odiv c2 XO].
    rewrite xdiv_some by lra. reflexivity.
  - destruct (unit_rotor_product r H) as (v & w & Hv & Hw & E & F). exists v, w.
    split; [exact Hv|]. split; [exact Hw|]. split; [rewrite <- E; reflexivity|].
    intros u. rewrite F. now rewrite !x_reflect by now apply unit_vnz.
Qed.
