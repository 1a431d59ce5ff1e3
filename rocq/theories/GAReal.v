(** * src/math over the reals: division, square roots and angles. *)
From Coq Require Import List Bool Reals Lra Ring.
From Verif Require Import Scalar GA GASpec GARing.
Import ListNotations.
Local Open Scope R_scope.

Canonical RO.
Local Notation "x =r y" := (@eq R x y) (at level 70).

Lemma RO_ring : comm_ring RO.
Proof. exact RTheory. Qed.

(** Non-zero values. *)
Definition vnz (u : Vector3 R) : Prop := u <> V3 0 0 0.
Definition bnz (b : Bivector3 R) : Prop := b <> B3 0 0 0.
Definition tnz (t : Trivector3 R) : Prop := t <> T3 0.
Definition rnz (r : Rotor3 R) : Prop := r <> Ro3 0 (B3 0 0 0).

Ltac rops := cbv [car c0 c1 c2 oadd osub omul odiv oneg osqrt osin ocos oacos RO] in *.
Ltac ga := cbv [vec_mul vec_dot vec_wedge vec_mul_biv vec_add vec_sub vec_neg vec_scale vec_zero vec_div
       biv_mul biv_dot biv_wedge biv_wedge_vec biv_add biv_sub biv_neg biv_scale biv_zero biv_norm_squared biv_div
       tri_mul tri_dot tri_neg tri_add tri_sub tri_zero tri_norm_squared vec_norm_squared tri_div
       rot_mul rot_mul_vec rot_dot rot_inverse rot_norm_squared rot_add rot_sub rot_neg rot_scale rot_div
       rot_identity rot_rotate det vec_unit_x vec_unit_y vec_unit_z biv_unit_xy biv_unit_xz biv_unit_yz tri_unit_xyz
       vec_inverse biv_inverse tri_inverse vec_project vec_reflect vec_reflect_parts
       scalar bivector a1 a2 a3 b1 b2 b3 t1 fst snd car c0 c1 c2 oadd osub omul odiv oneg osqrt RO].
Ltac veq := try apply Ro3_eq; try apply V3_eq; try apply B3_eq; try apply T3_eq; cbv [car RO].

Lemma sum3_zero : forall x y z : R, x * x + y * y + z * z = 0 -> x = 0 /\ y = 0 /\ z = 0.
Proof.
  intros x y z H. pose proof (Rle_0_sqr x) as Hx. pose proof (Rle_0_sqr y) as Hy.
  pose proof (Rle_0_sqr z) as Hz. unfold Rsqr in *.
  repeat split; apply Rsqr_0_uniq; unfold Rsqr; lra.
Qed.
Lemma sum3_nonneg : forall x y z : R, 0 <= x * x + y * y + z * z.
Proof.
  intros x y z. pose proof (Rle_0_sqr x) as Hx. pose proof (Rle_0_sqr y) as Hy.
  pose proof (Rle_0_sqr z) as Hz. unfold Rsqr in *. lra.
Qed.

Lemma vec_norm2_val : forall u : Vector3 R, @eq R (vec_norm_squared u) (a1 u * a1 u + a2 u * a2 u + a3 u * a3 u).
Proof. reflexivity. Qed.
Lemma biv_norm2_val : forall b : Bivector3 R, @eq R (biv_norm_squared b) (b1 b * b1 b + b2 b * b2 b + b3 b * b3 b).
Proof. intros. ga. ring. Qed.
Lemma tri_norm2_val : forall t : Trivector3 R, @eq R (tri_norm_squared t) (t1 t * t1 t).
Proof. intros. ga. ring. Qed.
Lemma rot_norm2_val : forall r : Rotor3 R, @eq R (rot_norm_squared r)
  (scalar r * scalar r + (b1 (bivector r) * b1 (bivector r) + b2 (bivector r) * b2 (bivector r) + b3 (bivector r) * b3 (bivector r))).
Proof. intros [k [x y z]]. ga. ring. Qed.

Lemma vec_norm2_pos : forall u, 0 <= vec_norm_squared u /\ (vec_norm_squared u =r 0 <-> u = V3 0 0 0).
Proof.
  intros [x y z]. rewrite vec_norm2_val. cbn [a1 a2 a3]. split; [apply sum3_nonneg|]. split.
  - intros H. apply sum3_zero in H. destruct H as (-> & -> & ->). reflexivity.
  - intros H. injection H. intros -> -> ->. ring.
Qed.
Lemma biv_norm2_pos : forall b, 0 <= biv_norm_squared b /\ (biv_norm_squared b =r 0 <-> b = B3 0 0 0).
Proof.
  intros [x y z]. rewrite biv_norm2_val. cbn [b1 b2 b3]. split; [apply sum3_nonneg|]. split.
  - intros H. apply sum3_zero in H. destruct H as (-> & -> & ->). reflexivity.
  - intros H. injection H. intros -> -> ->. ring.
Qed.
Lemma tri_norm2_pos : forall t, 0 <= tri_norm_squared t /\ (tri_norm_squared t =r 0 <-> t = T3 0).
Proof.
  intros [x]. rewrite tri_norm2_val. cbn [t1]. split; [apply Rle_0_sqr|]. split.
  - intros H. apply Rsqr_0_uniq in H. now subst.
  - intros H. injection H. intros ->. ring.
Qed.
Lemma rot_norm2_pos : forall r, 0 <= rot_norm_squared r /\ (rot_norm_squared r =r 0 <-> r = Ro3 0 (B3 0 0 0)).
Proof.
  intros [k [x y z]]. rewrite rot_norm2_val. cbn [scalar bivector b1 b2 b3].
  pose proof (sum3_nonneg x y z) as N. pose proof (Rle_0_sqr k) as K. unfold Rsqr in K.
  split; [lra|]. split.
  - intros H. destruct (sum3_zero x y z) as (-> & -> & ->); [lra|].
    assert (k = 0) as -> by (apply Rsqr_0_uniq; unfold Rsqr; lra). reflexivity.
  - intros H. injection H. intros -> -> -> ->. ring.
Qed.

Lemma vnz_norm2 : forall u, vnz u -> 0 < vec_norm_squared u.
Proof. intros u H. destruct (vec_norm2_pos u) as [P E]. destruct P; [assumption|]. now destruct H; apply E. Qed.
Lemma bnz_norm2 : forall u, bnz u -> 0 < biv_norm_squared u.
Proof. intros u H. destruct (biv_norm2_pos u) as [P E]. destruct P; [assumption|]. now destruct H; apply E. Qed.
Lemma tnz_norm2 : forall u, tnz u -> 0 < tri_norm_squared u.
Proof. intros u H. destruct (tri_norm2_pos u) as [P E]. destruct P; [assumption|]. now destruct H; apply E. Qed.
Lemma rnz_norm2 : forall u, rnz u -> 0 < rot_norm_squared u.
Proof. intros u H. destruct (rot_norm2_pos u) as [P E]. destruct P; [assumption|]. now destruct H; apply E. Qed.

(** norm squared is norm_squared; unit after normalize *)
Lemma norm_sqr : forall x, 0 <= x -> sqrt x * sqrt x = x.
Proof. exact sqrt_sqrt. Qed.
Lemma div_sqr : forall x n, 0 < n -> (x / sqrt n) * (x / sqrt n) = x * x / n.
Proof.
  intros x n H. pose proof (sqrt_lt_R0 n H) as S. pose proof (sqrt_sqrt n (Rlt_le _ _ H)) as Q.
  rewrite <- Q at 3. field. lra.
Qed.
Lemma vec_normalize_unit : forall u, vnz u -> vec_norm_squared (vec_normalize u) =r 1.
Proof.
  intros u H. apply vnz_norm2 in H. rewrite vec_norm2_val. unfold vec_normalize, vec_div, vec_norm.
  cbn [a1 a2 a3 odiv osqrt RO]. rewrite !div_sqr by assumption.
  unfold Rdiv. rewrite <- ?Rmult_plus_distr_r, <- vec_norm2_val. apply Rinv_r. lra.
Qed.
Lemma biv_normalize_unit : forall u, bnz u -> biv_norm_squared (biv_normalize u) =r 1.
Proof.
  intros u H. apply bnz_norm2 in H. rewrite biv_norm2_val. unfold biv_normalize, biv_div, biv_norm.
  cbn [b1 b2 b3 odiv osqrt RO]. rewrite !div_sqr by assumption.
  unfold Rdiv. rewrite <- ?Rmult_plus_distr_r, <- biv_norm2_val. apply Rinv_r. lra.
Qed.
Lemma tri_normalize_unit : forall u, tnz u -> tri_norm_squared (tri_normalize u) =r 1.
Proof.
  intros u H. apply tnz_norm2 in H. rewrite tri_norm2_val. unfold tri_normalize, tri_div, tri_norm.
  cbn [t1 odiv osqrt RO]. rewrite !div_sqr by assumption.
  unfold Rdiv. rewrite <- ?Rmult_plus_distr_r, <- tri_norm2_val. apply Rinv_r. lra.
Qed.
Lemma rot_normalize_unit : forall u, rnz u -> rot_norm_squared (rot_normalize u) =r 1.
Proof.
  intros u H. apply rnz_norm2 in H. rewrite rot_norm2_val. unfold rot_normalize, rot_div, biv_div, rot_norm.
  cbn [scalar bivector b1 b2 b3 odiv osqrt RO]. rewrite !div_sqr by assumption.
  unfold Rdiv. rewrite <- ?Rmult_plus_distr_r, <- rot_norm2_val. apply Rinv_r. lra.
Qed.

(** ** Linear dependence *)
Definition dependent (u v : Vector3 R) : Prop :=
  exists s t : R, (s <> 0 \/ t <> 0) /\ vec_add (vec_scale u s) (vec_scale v t) = V3 0 0 0.
Lemma wedge_zero_dependent : forall u v, vec_wedge u v = B3 0 0 0 <-> dependent u v.
Proof.
  intros [x y z] [x' y' z']. split.
  - intros H. cbv [vec_wedge a1 a2 a3 osub omul car RO] in H. injection H. intros H3 H2 H1. unfold dependent.
    destruct (Req_dec x 0) as [Hx|Hx]; [destruct (Req_dec y 0) as [Hy|Hy]; [destruct (Req_dec z 0) as [Hz|Hz]|]|].
    + exists 1, 0. split; [left; lra|]. subst. ga. veq; ring.
    + exists (- z'), z. split; [right; assumption|]. ga. subst. veq; lra.
    + exists (- y'), y. split; [right; assumption|]. ga. veq; lra.
    + exists (- x'), x. split; [right; assumption|]. ga. veq; lra.
  - intros (s & t & N & H). revert H. ga. intros H. injection H. intros H3 H2 H1. clear H.
    assert (D : forall p q : R, p * s + q * t = 0 -> forall p' q', p' * s + q' * t = 0 -> p * q' - p' * q = 0).
    { intros p q A p' q' B. destruct N as [N|N].
      - apply Rmult_eq_reg_r with s; [|assumption].
        replace ((p * q' - p' * q) * s) with ((p * s + q * t) * q' - (p' * s + q' * t) * q) by ring. rewrite A, B. ring.
      - apply Rmult_eq_reg_r with t; [|assumption].
        replace ((p * q' - p' * q) * t) with (p * (p' * s + q' * t) - p' * (p * s + q * t)) by ring. rewrite A, B. ring. }
    veq; [exact (D _ _ H1 _ _ H2)|exact (D _ _ H1 _ _ H3)|exact (D _ _ H2 _ _ H3)].
Qed.

(** ** Inverses *)
Lemma vec_inverse_mul : forall u, vnz u ->
  vec_mul u (vec_inverse u) = Ro3 1 (B3 0 0 0) /\ vec_mul (vec_inverse u) u = Ro3 1 (B3 0 0 0).
Proof.
  intros [x y z] H. apply vnz_norm2 in H. revert H. ga. intros H.
  split; veq; field; lra.
Qed.
Lemma biv_inverse_mul : forall u, bnz u ->
  biv_mul u (biv_inverse u) = Ro3 1 (B3 0 0 0) /\ biv_mul (biv_inverse u) u = Ro3 1 (B3 0 0 0).
Proof.
  intros [x y z] H. apply bnz_norm2 in H. revert H. ga. intros H.
  split; veq; field; lra.
Qed.
Lemma tri_inverse_mul : forall u, tnz u ->
  @eq R (tri_mul u (tri_inverse u)) 1 /\ @eq R (tri_mul (tri_inverse u) u) 1.
Proof.
  intros [x] H. apply tnz_norm2 in H. revert H. ga. intros H.
  assert (x <> 0) by (intros ->; lra). split; field; assumption.
Qed.
Lemma rot_inverse_iff : forall r : Rotor3 R,
  (rot_mul r (rot_inverse r) = rot_identity <-> rot_norm_squared r =r 1) /\
  (rot_mul (rot_inverse r) r = rot_identity <-> rot_norm_squared r =r 1).
Proof.
  intros r. destruct (rot_inverse_mul RO_ring r) as [-> ->]. unfold rot_identity.
  split; (split; [intros H; now injection H|intros ->; reflexivity]).
Qed.

(** ** Projection and reflection *)
Lemma project_parallel : forall u v, vnz v -> exists k : R, vec_project u v = vec_scale v k.
Proof.
  intros u v H. exists (vec_dot u v / vec_norm_squared v). apply vnz_norm2 in H. destruct u as [x y z], v as [x' y' z']. revert H. ga. intros H.
  veq; field; lra.
Qed.
Lemma project_orth : forall u v, vnz v -> @eq R (vec_dot (vec_sub u (vec_project u v)) v) 0.
Proof. intros [x y z] [x' y' z'] H. apply vnz_norm2 in H. revert H. ga. intros H. field. lra. Qed.
Lemma project_idem : forall u v, vnz v -> vec_project (vec_project u v) v = vec_project u v.
Proof. intros [x y z] [x' y' z'] H. apply vnz_norm2 in H. revert H. ga. intros H. veq; field; lra. Qed.
(** parallel and orthogonal remainder determine it *)
Lemma project_unique : forall u v p, vnz v -> (exists k : R, p = vec_scale v k) ->
  @eq R (vec_dot (vec_sub u p) v) 0 -> p = vec_project u v.
Proof.
  intros [x y z] [x' y' z'] p H [k ->]. apply vnz_norm2 in H. revert H. ga. intros H E.
  assert (K : k = (x * x' + y * y' + z * z') / (x' * x' + y' * y' + z' * z')).
  { apply Rmult_eq_reg_r with (x' * x' + y' * y' + z' * z'); [|lra]. field_simplify; lra. }
  subst k. veq; field; lra.
Qed.
Lemma reflect_project : forall u v, vnz v -> vec_reflect u v = vec_sub (vec_scale (vec_project u v) 2) u.
Proof. intros [x y z] [x' y' z'] H. apply vnz_norm2 in H. revert H. ga. intros H. veq; field; lra. Qed.
Lemma reflect_tri : forall u v, vnz v -> snd (vec_reflect_parts u v) = T3 0.
Proof. intros [x y z] [x' y' z'] H. apply vnz_norm2 in H. revert H. ga. intros H. veq; field; lra. Qed.
Lemma reflect_self : forall v, vnz v -> vec_reflect v v = v.
Proof. intros [x' y' z'] H. apply vnz_norm2 in H. revert H. ga. intros H. veq; field; lra. Qed.
Lemma project_of_orth : forall u v : Vector3 R, @eq R (vec_dot u v) 0 -> vec_project u v = V3 0 0 0.
Proof. intros u v E. unfold vec_project. rewrite E. ga. veq; ring. Qed.
Lemma reflect_orth : forall u v, vnz v -> @eq R (vec_dot u v) 0 -> vec_reflect u v = vec_neg u.
Proof.
  intros u v H E. rewrite reflect_project, (project_of_orth _ _ E) by assumption. destruct u as [x y z]. ga. veq; ring.
Qed.
Lemma reflect_involution : forall u v, vnz v -> vec_reflect (vec_reflect u v) v = u.
Proof. intros [x y z] [x' y' z'] H. apply vnz_norm2 in H. revert H. ga. intros H. veq; field; lra. Qed.
Lemma reflect_dot : forall u w v, vnz v -> @eq R (vec_dot (vec_reflect u v) (vec_reflect w v)) (vec_dot u w).
Proof. intros [x y z] [p q r] [x' y' z'] H. apply vnz_norm2 in H. revert H. ga. intros H. field; lra. Qed.

(** ** from_vectors *)
Lemma rot_div_scale : forall (r : Rotor3 R) (k : R), rot_div r k = rot_scale r (/ k).
Proof. intros [a [x y z]] k. ga. reflexivity. Qed.
Lemma rot_norm2_zero_dec : forall r, rnz r \/ r = Ro3 0 (B3 0 0 0).
Proof.
  intros r. destruct (Req_dec (rot_norm_squared r) 0) as [E|E].
  - right. now apply rot_norm2_pos.
  - left. intros ->. apply E. now apply rot_norm2_pos.
Qed.
(** Rotating by the normalised rotor divides by the squared norm. *)
Lemma rotate_normalize : forall (r : Rotor3 R) u, rnz r ->
  rot_rotate (rot_normalize r) u = vec_scale (rot_rotate r u) (/ rot_norm_squared r).
Proof.
  intros r u H. apply rnz_norm2 in H. unfold rot_normalize, rot_norm. rewrite rot_div_scale.
  rewrite (rotate_scale RO_ring). f_equal. cbn [omul osqrt RO].
  rewrite <- Rinv_mult. f_equal. apply sqrt_sqrt. lra.
Qed.

Definition half_rotor (u v : Vector3 R) : Rotor3 R := Ro3 (1 + vec_dot v u) (vec_wedge v u).
Lemma half_rotor_norm2 : forall u v,
  rot_norm_squared (half_rotor u v) =r 1 + 2 * vec_dot u v + vec_norm_squared u * vec_norm_squared v.
Proof. intros u v. exact (half_rotor_norm RO_ring u v). Qed.
(** It is zero exactly when v is a negative multiple of u with |u||v| = 1. *)
Lemma half_rotor_zero : forall u v, half_rotor u v = Ro3 0 (B3 0 0 0) <->
  vnz u /\ v = vec_scale u (- / vec_norm_squared u).
Proof.
  intros u v. split.
  - intros H. injection H. intros H4 H3 H2 H1. destruct u as [x y z], v as [p q r].
    unfold vec_dot in H1. cbn [a1 a2 a3 oadd osub omul RO] in *.
    assert (N : vnz (V3 x y z)) by (intros E; injection E; intros; subst; lra).
    split; [assumption|]. apply vnz_norm2 in N. revert N. ga. intros N.
    set (n := x * x + y * y + z * z) in *.
    assert (D : p * x + q * y + r * z = -1) by lra.
    veq; apply Rmult_eq_reg_r with n; try lra;
      [replace (x * - / n * n) with (- x) by (field; lra)
      |replace (y * - / n * n) with (- y) by (field; lra)
      |replace (z * - / n * n) with (- z) by (field; lra)]; unfold n.
    + replace (p * (x * x + y * y + z * z)) with (x * (p * x + q * y + r * z) + y * (p * y - q * x) + z * (p * z - r * x)) by ring.
      rewrite D, H2, H3. ring.
    + replace (q * (x * x + y * y + z * z)) with (y * (p * x + q * y + r * z) - x * (p * y - q * x) + z * (q * z - r * y)) by ring.
      rewrite D, H2, H4. ring.
    + replace (r * (x * x + y * y + z * z)) with (z * (p * x + q * y + r * z) - x * (p * z - r * x) - y * (q * z - r * y)) by ring.
      rewrite D, H3, H4. ring.
  - intros [N ->]. apply vnz_norm2 in N. destruct u as [x y z]. unfold half_rotor. revert N. ga. intros N.
    veq; field; lra.
Qed.

Lemma from_vectors_unit : forall u v, rnz (half_rotor u v) -> rot_norm_squared (rot_from_vectors u v) =r 1.
Proof. intros u v H. exact (rot_normalize_unit _ H). Qed.
Lemma from_vectors_image : forall u v, rnz (half_rotor u v) ->
  rot_rotate (rot_from_vectors u v) u =
  vec_scale (vec_add (vec_scale u (1 - vec_norm_squared u * vec_norm_squared v))
                     (vec_scale v (2 * vec_norm_squared u * (1 + vec_dot u v))))
            (/ (1 + 2 * vec_dot u v + vec_norm_squared u * vec_norm_squared v)).
Proof.
  intros u v H. unfold rot_from_vectors. change (rot_rotate (rot_normalize (half_rotor u v)) u = 
    vec_scale (vec_add (vec_scale u (1 - vec_norm_squared u * vec_norm_squared v))
                     (vec_scale v (2 * vec_norm_squared u * (1 + vec_dot u v))))
            (/ (1 + 2 * vec_dot u v + vec_norm_squared u * vec_norm_squared v))).
  rewrite rotate_normalize by assumption. rewrite half_rotor_norm2. f_equal.
  exact (half_rotor_image RO_ring u v).
Qed.
Lemma from_vectors_orth : forall u v w, rnz (half_rotor u v) -> vec_dot w u =r 0 -> vec_dot w v =r 0 ->
  rot_rotate (rot_from_vectors u v) w = w.
Proof.
  intros u v w H Hu Hv. change (rot_rotate (rot_normalize (half_rotor u v)) w = w).
  rewrite rotate_normalize by assumption. pose proof (rnz_norm2 _ H) as P.
  assert (R : rot_rotate (half_rotor u v) w = _) by exact (rotate_contract RO_ring _ _ w). rewrite R. clear R.
  change (Ro3 (1 + vec_dot v u) (vec_wedge v u)) with (half_rotor u v).
  rewrite !(contract_wedge RO_ring). rewrite Hu, Hv.
  set (n := rot_norm_squared (half_rotor u v)) in *.
  destruct u as [x y z], v as [x' y' z'], w as [p q r]. ga. veq; field; lra.
Qed.
Lemma from_vectors_inverse : forall u v : Vector3 R, rot_inverse (rot_from_vectors u v) = rot_from_vectors v u.
Proof.
  intros u v. unfold rot_from_vectors, rot_normalize.
  change (Ro3 (@c1 RO + vec_dot v u)%ops (vec_wedge v u)) with (half_rotor u v).
  change (Ro3 (@c1 RO + vec_dot u v)%ops (vec_wedge u v)) with (half_rotor v u).
  assert (N : rot_norm_squared (half_rotor u v) =r rot_norm_squared (half_rotor v u)).
  { rewrite !half_rotor_norm2. destruct u as [x y z], v as [x' y' z']. ga. ring. }
  unfold rot_norm. rewrite N. set (n := rot_norm_squared (half_rotor v u)). cbn [osqrt RO].
  unfold half_rotor. destruct u as [x y z], v as [x' y' z']. ga. unfold Rdiv. veq; ring.
Qed.
(** Unit vectors that are not opposite: 1 + u.v > 0. *)
Lemma unit_not_opposite : forall u v, vec_norm_squared u =r 1 -> vec_norm_squared v =r 1 -> v <> vec_neg u ->
  0 < 1 + vec_dot u v.
Proof.
  intros u v Hu Hv N.
  assert (P : 0 < vec_norm_squared (vec_add u v)).
  { apply vnz_norm2. intros E. apply N. destruct u as [x y z], v as [x' y' z']. cbv [vec_add a1 a2 a3 oadd car RO] in E. injection E. intros.
    ga. veq; lra. }
  assert (E : vec_norm_squared (vec_add u v) =r vec_norm_squared u + vec_norm_squared v + 2 * vec_dot u v)
    by (destruct u as [x y z], v as [x' y' z']; ga; ring).
  rewrite E, Hu, Hv in P. lra.
Qed.
Lemma unit_half_rotor : forall u v, vec_norm_squared u =r 1 -> vec_norm_squared v =r 1 -> v <> vec_neg u ->
  rnz (half_rotor u v).
Proof.
  intros u v Hu Hv N E. pose proof (unit_not_opposite u v Hu Hv N) as P.
  injection E. intros _ _ _ E1. destruct u as [x y z], v as [x' y' z'].
  clear - P E1. revert P E1. ga. intros P E1. lra.
Qed.
Lemma from_vectors_unit_image : forall u v, vec_norm_squared u =r 1 -> vec_norm_squared v =r 1 -> v <> vec_neg u ->
  rot_rotate (rot_from_vectors u v) u = v.
Proof.
  intros u v Hu Hv N. pose proof (unit_not_opposite u v Hu Hv N) as P.
  rewrite from_vectors_image by now apply unit_half_rotor. rewrite Hu, Hv.
  set (d := vec_dot u v) in *. clearbody d. change (car RO) with R in d. destruct u as [x y z], v as [x' y' z']. ga. veq; field; lra.
Qed.
(** In general the image has the direction of v only if |u||v| = 1. *)
Lemma from_vectors_direction : forall u v, vec_wedge u v <> B3 0 0 0 ->
  ((exists k : R, rot_rotate (rot_from_vectors u v) u = vec_scale v k) <->
   vec_norm_squared u * vec_norm_squared v =r 1).
Proof.
  intros u v W.
  assert (H : rnz (half_rotor u v)).
  { intros E. apply half_rotor_zero in E. destruct E as [_ ->]. apply W. destruct u as [x y z]. ga. veq; ring. }
  pose proof (rnz_norm2 _ H) as P. rewrite half_rotor_norm2 in P.
  rewrite from_vectors_image by assumption.
  set (n := 1 + 2 * vec_dot u v + vec_norm_squared u * vec_norm_squared v) in *.
  set (b := 2 * vec_norm_squared u * (1 + vec_dot u v)).
  split.
  - intros [k E]. destruct (Req_dec (vec_norm_squared u * vec_norm_squared v) 1) as [K|K]; [exact K|exfalso].
    apply W. apply wedge_zero_dependent.
    set (c := 1 - vec_norm_squared u * vec_norm_squared v) in *.
    exists (c * / n), (b * / n - k). split.
    + left. apply Rmult_integral_contrapositive_currified; [unfold c; lra|apply Rinv_neq_0_compat; lra].
    + assert (G : vec_sub (vec_scale (vec_add (vec_scale u c) (vec_scale v b)) (/ n)) (vec_scale v k) = V3 0 0 0)
        by (rewrite E; destruct v; ga; veq; ring).
      rewrite <- G. clear. clearbody b c n. change (car RO) with R in *. destruct u as [x y z], v as [x' y' z']. ga. veq; ring.
  - intros E. exists (b * / n). rewrite E. destruct u as [x y z], v as [x' y' z']. clearbody b n. ga. veq; ring.
Qed.

(** ** from_angle_plane *)
Lemma half_angle : forall t, sin t = 2 * sin (t / 2) * cos (t / 2) /\ cos t = 1 - 2 * sin (t / 2) * sin (t / 2).
Proof.
  intros t. assert (E : t = 2 * (t / 2)) by field. set (h := t / 2) in *. rewrite E.
  split; [apply sin_2a|apply cos_2a_sin].
Qed.
Lemma angle_plane_norm : forall t B, biv_norm_squared B =r 1 -> rot_norm_squared (rot_from_angle_plane t B) =r 1.
Proof.
  intros t B H. rewrite biv_norm2_val in H. destruct B as [x y z]. cbn [b1 b2 b3] in H.
  pose proof (sin2_cos2 (t / 2)) as S. unfold Rsqr in S.
  unfold rot_from_angle_plane. cbn [osin ocos odiv c2 RO]. ga.
  transitivity (cos (t / 2) * cos (t / 2) + sin (t / 2) * sin (t / 2) * (x * x + y * y + z * z)); [ring|].
  rewrite H. lra.
Qed.
(** The rotation formula. *)
Lemma angle_plane_rotate : forall t B u, biv_norm_squared B =r 1 ->
  rot_rotate (rot_from_angle_plane t B) u =
  vec_add (vec_add u (vec_scale (contract u B) (sin t)))
          (vec_scale (contract (contract u B) B) (1 - cos t)).
Proof.
  intros t B u H. pose proof (angle_plane_norm t B H) as N. unfold rot_from_angle_plane in *.
  rewrite (rotate_contract RO_ring), N.
  destruct (half_angle t) as [-> ->]. rewrite !(contract_val RO_ring). destruct u as [x y z], B as [x' y' z']. clear.
  cbn [osin ocos odiv c2 RO]. set (s := sin (t / 2)). set (c := cos (t / 2)). ga. veq; ring.
Qed.
Lemma angle_plane_in_plane : forall t B u, biv_norm_squared B =r 1 -> biv_wedge_vec B u = T3 0 ->
  rot_rotate (rot_from_angle_plane t B) u = vec_add (vec_scale u (cos t)) (vec_scale (contract u B) (sin t)).
Proof.
  intros t B u H W. rewrite angle_plane_rotate by assumption.
  rewrite (contract_twice RO_ring) by now rewrite W. rewrite H.
  set (p := contract u B). destruct u as [x y z], p as [x' y' z']. ga. veq; ring.
Qed.
Lemma angle_plane_normal : forall t B u, biv_norm_squared B =r 1 -> contract u B = V3 0 0 0 ->
  rot_rotate (rot_from_angle_plane t B) u = u.
Proof.
  intros t B u H E. rewrite angle_plane_rotate, !E by assumption. rewrite (contract_val RO_ring). destruct u as [x y z]. ga. veq; ring.
Qed.
Lemma angle_plane_add : forall s t B, biv_norm_squared B =r 1 ->
  rot_mul (rot_from_angle_plane s B) (rot_from_angle_plane t B) = rot_from_angle_plane (s + t) B.
Proof.
  intros s t B H. rewrite biv_norm2_val in H. unfold rot_from_angle_plane. cbn [osin ocos odiv c2 RO].
  replace ((s + t) / 2) with (s / 2 + t / 2) by field. rewrite sin_plus, cos_plus.
  destruct B as [x y z]. cbn [b1 b2 b3] in H. ga. veq; try ring.
  transitivity (cos (s / 2) * cos (t / 2) - sin (s / 2) * sin (t / 2) * (x * x + y * y + z * z)); [ring|].
  rewrite H. ring.
Qed.
Lemma angle_plane_turn : forall B u, biv_norm_squared B =r 1 -> rot_rotate (rot_from_angle_plane (2 * PI) B) u = u.
Proof.
  intros B u H. rewrite angle_plane_rotate by assumption. rewrite sin_2PI, cos_2PI.
  set (p := contract u B). set (q := contract p B). destruct u as [x y z], p as [x' y' z'], q as [x'' y'' z'']. ga. veq; ring.
Qed.
Lemma angle_plane_zero : forall B, rot_from_angle_plane 0 B = rot_identity.
Proof.
  intros B. unfold rot_from_angle_plane. cbn [osin ocos odiv c2 RO].
  replace (0 / 2) with 0 by field. rewrite sin_0, cos_0. destruct B as [x y z]. ga. veq; ring.
Qed.

(** ** angle *)
Lemma normalize_dot : forall u v, vnz u -> vnz v ->
  vec_dot (vec_normalize u) (vec_normalize v) * (vec_norm u * vec_norm v) =r vec_dot u v.
Proof.
  intros u v Hu Hv. apply vnz_norm2 in Hu, Hv.
  pose proof (sqrt_lt_R0 _ Hu) as Su. pose proof (sqrt_lt_R0 _ Hv) as Sv.
  unfold vec_normalize, vec_norm. cbn [osqrt RO].
  set (m := sqrt (vec_norm_squared u)) in *. set (n := sqrt (vec_norm_squared v)) in *.
  destruct u as [x y z], v as [x' y' z']. ga. field. lra.
Qed.
Lemma unit_dot : forall u v, vec_norm_squared u =r 1 -> vec_norm_squared v =r 1 -> -1 <= vec_dot u v <= 1.
Proof.
  intros u v Hu Hv. pose proof (lagrange_identity RO_ring u v) as L. rewrite Hu, Hv in L. cbn [omul osub RO] in L.
  destruct (biv_norm2_pos (vec_wedge u v)) as [P _]. rewrite L in P. set (d := vec_dot u v) in *.
  assert (D : d * d <= 1) by lra. split; [apply Rnot_lt_le; intros C|apply Rnot_lt_le; intros C].
  - assert (0 < (- d - 1) * (- d - 1 + 2)) by (apply Rmult_lt_0_compat; lra).
    replace ((- d - 1) * (- d - 1 + 2)) with (d * d - 1) in H by ring. lra.
  - assert (0 < (d - 1) * (d - 1 + 2)) by (apply Rmult_lt_0_compat; lra).
    replace ((d - 1) * (d - 1 + 2)) with (d * d - 1) in H by ring. lra.
Qed.
Lemma angle_range : forall u v, 0 <= vec_angle u v <= PI.
Proof. intros u v. apply acos_bound. Qed.
Lemma angle_cos : forall u v, vnz u -> vnz v -> vec_norm u * vec_norm v * cos (vec_angle u v) =r vec_dot u v.
Proof.
  intros u v Hu Hv. unfold vec_angle. cbn [oacos RO]. rewrite cos_acos.
  - rewrite <- (normalize_dot u v Hu Hv). ring.
  - apply unit_dot; now apply vec_normalize_unit.
Qed.
Lemma angle_sym : forall u v : Vector3 R, vec_angle u v =r vec_angle v u.
Proof.
  intros u v. unfold vec_angle. f_equal. unfold vec_dot. cbv [car oadd omul RO]. ring.
Qed.

(** ** The same with "not finite" made explicit: the results are finite exactly when the
    divisor is not zero, and then they are those of the reals. *)
Definition xv (u : Vector3 R) : Vector3 X := V3 (Some (a1 u)) (Some (a2 u)) (Some (a3 u)).
Definition xb (b : Bivector3 R) : Bivector3 X := B3 (Some (b1 b)) (Some (b2 b)) (Some (b3 b)).
Definition xt (t : Trivector3 R) : Trivector3 X := T3 (Some (t1 t)).
Definition xr (r : Rotor3 R) : Rotor3 X := Ro3 (Some (scalar r)) (xb (bivector r)).
Definition vnone : Vector3 X := V3 None None None.
Definition bnone : Bivector3 X := B3 None None None.

Lemma xdiv_some : forall x y : R, y <> 0 -> xdiv (Some x) (Some y) = Some (x / y).
Proof. intros x y H. unfold xdiv. destruct (Req_EM_T y 0); [contradiction|reflexivity]. Qed.
Lemma xdiv_zero : forall x : R, xdiv (Some x) (Some 0) = None.
Proof. intros x. unfold xdiv. destruct (Req_EM_T 0 0); [reflexivity|contradiction]. Qed.
Lemma xsqrt_some : forall x : R, 0 <= x -> xsqrt (Some x) = Some (sqrt x).
Proof. intros x H. unfold xsqrt. destruct (Rlt_dec x 0); [lra|reflexivity]. Qed.
Lemma xacos_some : forall x : R, -1 <= x <= 1 -> xacos (Some x) = Some (acos x).
Proof.
  intros x H. unfold xacos. destruct (Rlt_dec 1 (Rabs x)); [|reflexivity].
  exfalso. apply (Rlt_not_le _ _ r). apply Rabs_le. lra.
Qed.

Lemma x_dot : forall u v, vec_dot (O := XO) (xv u) (xv v) = Some (vec_dot u v).
Proof. reflexivity. Qed.
Lemma x_norm2 : forall u, vec_norm_squared (O := XO) (xv u) = Some (vec_norm_squared u).
Proof. reflexivity. Qed.
Lemma x_norm : forall u, vec_norm (O := XO) (xv u) = Some (vec_norm u).
Proof. intros u. unfold vec_norm. rewrite x_norm2. apply xsqrt_some. apply vec_norm2_pos. Qed.
Lemma vnz_norm : forall u, vnz u -> vec_norm u <> 0.
Proof. intros u H. apply vnz_norm2 in H. apply Rgt_not_eq. now apply sqrt_lt_R0. Qed.
Lemma x_vec_div : forall u (k : R), k <> 0 -> vec_div (O := XO) (xv u) (Some k) = xv (vec_div u k).
Proof. intros u k H. unfold vec_div. cbn [odiv XO xv a1 a2 a3]. now rewrite !xdiv_some by assumption. Qed.
Lemma x_biv_div : forall u (k : R), k <> 0 -> biv_div (O := XO) (xb u) (Some k) = xb (biv_div u k).
Proof. intros u k H. unfold biv_div. cbn [odiv XO xb b1 b2 b3]. now rewrite !xdiv_some by assumption. Qed.
Lemma x_vec_inverse : forall u, vnz u -> vec_inverse (O := XO) (xv u) = xv (vec_inverse u).
Proof. intros u H. unfold vec_inverse. rewrite x_norm2. apply x_vec_div. apply Rgt_not_eq. now apply vnz_norm2. Qed.
Lemma x_biv_inverse : forall u, bnz u -> biv_inverse (O := XO) (xb u) = xb (biv_inverse u).
Proof.
  intros u H. unfold biv_inverse. apply (x_biv_div (biv_neg u)). apply Rgt_not_eq. now apply bnz_norm2.
Qed.
Lemma x_tri_inverse : forall u, tnz u -> tri_inverse (O := XO) (xt u) = xt (tri_inverse u).
Proof.
  intros u H. unfold tri_inverse, tri_div, xt. f_equal. apply xdiv_some. apply Rgt_not_eq. now apply tnz_norm2.
Qed.
Lemma x_vec_normalize : forall u, vnz u -> vec_normalize (O := XO) (xv u) = xv (vec_normalize u).
Proof. intros u H. unfold vec_normalize. rewrite x_norm. apply x_vec_div. now apply vnz_norm. Qed.
Lemma x_biv_normalize : forall u, bnz u -> biv_normalize (O := XO) (xb u) = xb (biv_normalize u).
Proof.
  intros u H. unfold biv_normalize. apply bnz_norm2 in H.
  assert (E : biv_norm (O := XO) (xb u) = Some (biv_norm u)).
  { apply (xsqrt_some (biv_norm_squared u)). lra. }
  rewrite E. apply x_biv_div. apply Rgt_not_eq. now apply sqrt_lt_R0.
Qed.
Lemma x_tri_normalize : forall u, tnz u -> tri_normalize (O := XO) (xt u) = xt (tri_normalize u).
Proof.
  intros u H. unfold tri_normalize. apply tnz_norm2 in H.
  assert (E : tri_norm (O := XO) (xt u) = Some (tri_norm u)).
  { apply (xsqrt_some (tri_norm_squared u)). lra. }
  rewrite E. unfold tri_div, xt. f_equal. apply xdiv_some. apply Rgt_not_eq. now apply sqrt_lt_R0.
Qed.
Lemma x_rot_norm : forall r, rot_norm (O := XO) (xr r) = Some (rot_norm r).
Proof. intros r. apply (xsqrt_some (rot_norm_squared r)). apply rot_norm2_pos. Qed.
Lemma x_rot_normalize : forall r, rnz r -> rot_normalize (O := XO) (xr r) = xr (rot_normalize r).
Proof.
  intros r H. unfold rot_normalize. rewrite x_rot_norm. apply rnz_norm2 in H.
  assert (N : rot_norm r <> 0) by (apply Rgt_not_eq; now apply sqrt_lt_R0).
  unfold rot_div, xr. cbn [scalar bivector]. f_equal; [now apply xdiv_some|now apply x_biv_div].
Qed.
Lemma x_from_vectors : forall u v, rnz (half_rotor u v) ->
  rot_from_vectors (O := XO) (xv u) (xv v) = xr (rot_from_vectors u v).
Proof. intros u v H. exact (x_rot_normalize (half_rotor u v) H). Qed.
Lemma x_project : forall u v, vnz v -> vec_project (O := XO) (xv u) (xv v) = xv (vec_project u v).
Proof. intros u v H. unfold vec_project. rewrite x_vec_inverse by assumption. reflexivity. Qed.
Lemma x_reflect : forall u v, vnz v -> vec_reflect (O := XO) (xv u) (xv v) = xv (vec_reflect u v).
Proof. intros u v H. unfold vec_reflect, vec_reflect_parts. rewrite x_vec_inverse by assumption. reflexivity. Qed.
Lemma x_angle : forall u v, vnz u -> vnz v -> vec_angle (O := XO) (xv u) (xv v) = Some (vec_angle u v).
Proof.
  intros u v Hu Hv. unfold vec_angle. rewrite !x_vec_normalize by assumption. rewrite x_dot.
  apply xacos_some. apply unit_dot; now apply vec_normalize_unit.
Qed.

(** Degenerate inputs. *)
Lemma x_div_none : forall u, vec_div (O := XO) (xv u) (Some 0) = vnone.
Proof. intros u. unfold vec_div. cbn [odiv XO xv a1 a2 a3]. now rewrite !xdiv_zero. Qed.
Lemma x_zero_norm2 : vec_norm_squared (V3 0 0 0) =r 0.
Proof. ga. ring. Qed.
Lemma x_zero_norm : vec_norm (V3 0 0 0) =r 0.
Proof. unfold vec_norm. rewrite x_zero_norm2. exact sqrt_0. Qed.
Lemma x_inverse_zero : vec_inverse (O := XO) (xv (V3 0 0 0)) = vnone.
Proof. unfold vec_inverse. rewrite x_norm2, x_zero_norm2. apply x_div_none. Qed.
Lemma x_normalize_zero : vec_normalize (O := XO) (xv (V3 0 0 0)) = vnone.
Proof. unfold vec_normalize. rewrite x_norm, x_zero_norm. apply x_div_none. Qed.
Lemma x_angle_zero : forall u, vec_angle (O := XO) (xv (V3 0 0 0)) (xv u) = None.
Proof. intros u. unfold vec_angle. rewrite x_normalize_zero. reflexivity. Qed.
Lemma x_project_zero : forall u, vec_project (O := XO) (xv u) (xv (V3 0 0 0)) = vnone.
Proof. intros u. unfold vec_project. rewrite x_inverse_zero. reflexivity. Qed.
Lemma x_from_vectors_opposite : forall u v, half_rotor u v = Ro3 0 (B3 0 0 0) ->
  rot_from_vectors (O := XO) (xv u) (xv v) = Ro3 None bnone.
Proof.
  intros u v H. change (rot_normalize (O := XO) (xr (half_rotor u v)) = Ro3 None bnone). rewrite H.
  unfold rot_normalize. rewrite x_rot_norm.
  assert (E : rot_norm (Ro3 0 (B3 0 0 0)) =r 0).
  { unfold rot_norm. replace (rot_norm_squared (Ro3 0 (B3 0 0 0))) with 0 by (ga; ring). exact sqrt_0. }
  rewrite E. unfold rot_div, biv_div. cbn [odiv XO xr xb scalar bivector b1 b2 b3]. now rewrite !xdiv_zero.
Qed.

(** Normalised values: norm 1, a positive multiple of the original. *)
Lemma sqrt_inv_pos : forall n, 0 < n -> 0 < / sqrt n.
Proof. intros n H. apply Rinv_0_lt_compat. now apply sqrt_lt_R0. Qed.
Lemma x_vec_normalized : forall u : Vector3 R, vnz u ->
  exists n, vec_normalize (O := XO) (xv u) = xv n /\ vec_norm (O := XO) (xv n) = Some 1 /\
  exists k : R, 0 < k /\ n = vec_scale u k.
Proof.
  intros u H. exists (vec_normalize u). split; [now apply x_vec_normalize|]. split.
  - rewrite x_norm. f_equal. unfold vec_norm. rewrite vec_normalize_unit by assumption. exact sqrt_1.
  - exists (/ vec_norm u). split; [|reflexivity]. apply sqrt_inv_pos. now apply vnz_norm2.
Qed.
Lemma x_biv_normalized : forall u : Bivector3 R, bnz u ->
  exists n, biv_normalize (O := XO) (xb u) = xb n /\ biv_norm (O := XO) (xb n) = Some 1 /\
  exists k : R, 0 < k /\ n = biv_scale u k.
Proof.
  intros u H. exists (biv_normalize u). split; [now apply x_biv_normalize|]. split.
  - change (xsqrt (Some (biv_norm_squared (biv_normalize u))) = Some 1).
    rewrite biv_normalize_unit by assumption. rewrite xsqrt_some by lra. now rewrite sqrt_1.
  - exists (/ biv_norm u). split; [|reflexivity]. apply sqrt_inv_pos. now apply bnz_norm2.
Qed.
Lemma x_tri_normalized : forall u : Trivector3 R, tnz u ->
  exists n, tri_normalize (O := XO) (xt u) = xt n /\ tri_norm (O := XO) (xt n) = Some 1 /\
  exists k : R, 0 < k /\ n = tri_scale_assign u k.
Proof.
  intros u H. exists (tri_normalize u). split; [now apply x_tri_normalize|]. split.
  - change (xsqrt (Some (tri_norm_squared (tri_normalize u))) = Some 1).
    rewrite tri_normalize_unit by assumption. rewrite xsqrt_some by lra. now rewrite sqrt_1.
  - exists (/ tri_norm u). split; [|reflexivity]. apply sqrt_inv_pos. now apply tnz_norm2.
Qed.
Lemma x_rot_normalized : forall u : Rotor3 R, rnz u ->
  exists n, rot_normalize (O := XO) (xr u) = xr n /\ rot_norm (O := XO) (xr n) = Some 1 /\
  exists k : R, 0 < k /\ n = rot_scale u k.
Proof.
  intros u H. exists (rot_normalize u). split; [now apply x_rot_normalize|]. split.
  - rewrite x_rot_norm. f_equal. unfold rot_norm. rewrite rot_normalize_unit by assumption. exact sqrt_1.
  - exists (/ rot_norm u). split; [|reflexivity]. apply sqrt_inv_pos. now apply rnz_norm2.
Qed.

Lemma x_vec_inverse_mul : forall u : Vector3 R, vnz u -> exists i, vec_inverse (O := XO) (xv u) = xv i /\
  mmul (of_vec u) (of_vec i) == of_scalar (1 : RO) /\ mmul (of_vec i) (of_vec u) == of_scalar (1 : RO).
Proof.
  intros u H. exists (vec_inverse u). split; [now apply x_vec_inverse|].
  destruct (vec_inverse_mul u H) as [L R].
  split; intros c; rewrite <- (vec_mul_spec RO_ring); [rewrite L|rewrite R]; destruct c as [[] [] []];
    cbv [of_rot madd of_scalar of_biv scalar bivector b1 b2 b3 oadd c0 car RO]; ring.
Qed.
Lemma x_biv_inverse_mul : forall u : Bivector3 R, bnz u -> exists i, biv_inverse (O := XO) (xb u) = xb i /\
  mmul (of_biv u) (of_biv i) == of_scalar (1 : RO) /\ mmul (of_biv i) (of_biv u) == of_scalar (1 : RO).
Proof.
  intros u H. exists (biv_inverse u). split; [now apply x_biv_inverse|].
  destruct (biv_inverse_mul u H) as [L R].
  split; intros c; rewrite <- (biv_mul_spec RO_ring); [rewrite L|rewrite R]; destruct c as [[] [] []];
    cbv [of_rot madd of_scalar of_biv scalar bivector b1 b2 b3 oadd c0 car RO]; ring.
Qed.
Lemma x_tri_inverse_mul : forall u : Trivector3 R, tnz u -> exists i, tri_inverse (O := XO) (xt u) = xt i /\
  mmul (of_tri u) (of_tri i) == of_scalar (1 : RO) /\ mmul (of_tri i) (of_tri u) == of_scalar (1 : RO).
Proof.
  intros u H. exists (tri_inverse u). split; [now apply x_tri_inverse|].
  destruct (tri_inverse_mul u H) as [L R].
  split; intros c; rewrite <- (tri_mul_spec RO_ring); [rewrite L|rewrite R]; reflexivity.
Qed.
Lemma half_rotor_swap : forall u v, rnz (half_rotor u v) -> rnz (half_rotor v u).
Proof.
  intros u v H E. apply H. apply rot_norm2_pos.
  assert (N : rot_norm_squared (half_rotor v u) =r 0) by (now apply rot_norm2_pos).
  rewrite half_rotor_norm2 in *. rewrite <- N. destruct u as [x y z], v as [x' y' z']. ga. ring.
Qed.
Lemma plane_split : forall (B : Bivector3 R) (u : Vector3 R), biv_norm_squared B =r 1 ->
  exists p n, u = vec_add p n /\ biv_wedge_vec B p = T3 0 /\ contract n B = V3 0 0 0.
Proof.
  intros [p q r] [x y z] H. rewrite biv_norm2_val in H. cbn [b1 b2 b3] in H.
  set (k := (r * x - q * y + p * z) : R).
  exists (V3 (x - r * k) (y + q * k) (z - p * k)), (V3 (r * k) (- (q * k)) (p * k)).
  rewrite (contract_val RO_ring). ga. repeat split; veq; try ring.
  transitivity (k - k * (p * p + q * q + r * r)); [unfold k; cbv [car RO]; ring|rewrite H; cbv [car RO]; ring].
Qed.
Lemma axis_rotations : forall t : R,
  rot_rotate (rot_from_xy_rotation t) (V3 1 0 0) = V3 (cos t) (sin t) 0 /\
  rot_rotate (rot_from_xz_rotation t) (V3 1 0 0) = V3 (cos t) 0 (sin t) /\
  rot_rotate (rot_from_yz_rotation t) (V3 0 1 0) = V3 0 (cos t) (sin t) /\
  rot_rotate (rot_from_xy_rotation t) (V3 0 0 1) = V3 0 0 1 /\
  rot_rotate (rot_from_xz_rotation t) (V3 0 1 0) = V3 0 1 0 /\
  rot_rotate (rot_from_yz_rotation t) (V3 1 0 0) = V3 1 0 0.
Proof.
  intros t. unfold rot_from_xy_rotation, rot_from_xz_rotation, rot_from_yz_rotation.
  repeat split; (rewrite angle_plane_rotate; [|ga; ring]); rewrite !(contract_val RO_ring); ga; veq; ring.
Qed.

Lemma vnz_dec : forall u, vnz u \/ u = V3 0 0 0.
Proof.
  intros u. destruct (Req_dec (vec_norm_squared u) 0) as [E|E].
  - right. now apply vec_norm2_pos.
  - left. intros ->. apply E. now apply vec_norm2_pos.
Qed.
Lemma x_angle_none : forall u v : Vector3 R,
  vec_angle (O := XO) (xv u) (xv v) = None <-> u = V3 0 0 0 \/ v = V3 0 0 0.
Proof.
  intros u v. split.
  - intros H. destruct (vnz_dec u) as [Hu|]; [|tauto]. destruct (vnz_dec v) as [Hv|]; [|tauto].
    rewrite x_angle in H by assumption. discriminate.
  - intros [->| ->]; [apply x_angle_zero|]. unfold vec_angle. rewrite x_normalize_zero.
    unfold vec_dot. cbn [vnone a1 a2 a3 oadd omul oacos XO]. now destruct (a1 (vec_normalize (O := XO) (xv u))).
Qed.
Lemma vec_norm_pos : forall u, vnz u -> 0 < vec_norm u.
Proof. intros u H. apply sqrt_lt_R0. now apply vnz_norm2. Qed.
Lemma vec_norm_sqr : forall u, vec_norm u * vec_norm u =r vec_norm_squared u.
Proof. intros u. apply sqrt_sqrt. apply vec_norm2_pos. Qed.
(** Equality in Cauchy-Schwarz. *)
Lemma dot_norms_parallel : forall u v, vnz u -> vec_dot u v * vec_dot u v =r vec_norm_squared u * vec_norm_squared v ->
  v = vec_scale u (vec_dot u v / vec_norm_squared u).
Proof.
  intros u v Hu E. pose proof (lagrange_identity RO_ring u v) as L. cbn [omul osub RO] in L. rewrite <- E in L.
  rewrite Rminus_diag_eq in L by reflexivity. apply biv_norm2_pos in L. apply vnz_norm2 in Hu.
  destruct u as [x y z], v as [p q r]. cbv [vec_wedge a1 a2 a3 osub omul car RO] in L. injection L. intros L3 L2 L1.
  clear L E. revert Hu. ga. intros Hu. set (n := x * x + y * y + z * z) in *.
  veq; apply Rmult_eq_reg_r with n; try lra;
    [replace (x * ((x * p + y * q + z * r) / n) * n) with (x * (x * p + y * q + z * r)) by (field; lra)
    |replace (y * ((x * p + y * q + z * r) / n) * n) with (y * (x * p + y * q + z * r)) by (field; lra)
    |replace (z * ((x * p + y * q + z * r) / n) * n) with (z * (x * p + y * q + z * r)) by (field; lra)]; unfold n.
  - replace (p * (x * x + y * y + z * z)) with (x * (x * p + y * q + z * r) - y * (x * q - y * p) - z * (x * r - z * p)) by ring.
    rewrite L1, L2. ring.
  - replace (q * (x * x + y * y + z * z)) with (y * (x * p + y * q + z * r) + x * (x * q - y * p) - z * (y * r - z * q)) by ring.
    rewrite L1, L3. ring.
  - replace (r * (x * x + y * y + z * z)) with (z * (x * p + y * q + z * r) + x * (x * r - z * p) + y * (y * r - z * q)) by ring.
    rewrite L2, L3. ring.
Qed.
Lemma dot_scale : forall (u : Vector3 R) (k : R), vec_dot u (vec_scale u k) =r k * vec_norm_squared u.
Proof. intros [x y z] k. ga. ring. Qed.
Lemma norm_scale : forall (u : Vector3 R) (k : R), vec_norm_squared (vec_scale u k) =r k * k * vec_norm_squared u.
Proof. intros [x y z] k. ga. ring. Qed.
Lemma norm_scale_pos : forall (u : Vector3 R) (k : R), 0 <= k -> vec_norm (vec_scale u k) =r k * vec_norm u.
Proof.
  intros u k H. unfold vec_norm. cbn [osqrt RO]. rewrite norm_scale, sqrt_mult, sqrt_square; try assumption; try reflexivity.
  - now apply Rmult_le_pos.
  - apply vec_norm2_pos.
Qed.
Lemma norm_scale_neg : forall (u : Vector3 R) (k : R), vec_norm (vec_scale u (- k)) =r vec_norm (vec_scale u k).
Proof. intros u k. unfold vec_norm. rewrite !norm_scale. f_equal. cbn [omul RO]. cbv [car RO]. ring. Qed.
Lemma acos_inj : forall x y, -1 <= x <= 1 -> -1 <= y <= 1 -> acos x = acos y -> x = y.
Proof. intros x y Hx Hy E. rewrite <- (cos_acos x), <- (cos_acos y) by assumption. now rewrite E. Qed.
Lemma angle_cases : forall u v : Vector3 R, vnz u -> vnz v ->
  (vec_angle u v =r PI / 2 <-> vec_dot u v =r 0) /\
  (vec_angle u v =r 0 <-> exists k : R, 0 < k /\ v = vec_scale u k) /\
  (vec_angle u v =r PI <-> exists k : R, 0 < k /\ v = vec_scale u (- k)).
Proof.
  intros u v Hu Hv.
  pose proof (angle_cos u v Hu Hv) as C. pose proof (vec_norm_pos u Hu) as Pu. pose proof (vec_norm_pos v Hv) as Pv.
  pose proof (unit_dot _ _ (vec_normalize_unit u Hu) (vec_normalize_unit v Hv)) as B.
  pose proof (normalize_dot u v Hu Hv) as D.
  unfold vec_angle in *. cbn [oacos RO] in *. rewrite cos_acos in C by exact B.
  set (c := vec_dot (vec_normalize u) (vec_normalize v)) in *. change (car RO) with R in c.
  assert (P : 0 < vec_norm u * vec_norm v) by now apply Rmult_lt_0_compat.
  pose proof (vnz_norm2 u Hu) as Nu.
  assert (A : (acos c = PI / 2 <-> c = 0) /\ (acos c = 0 <-> c = 1) /\ (acos c = PI <-> c = -1)).
  { assert (Am : acos (-1) = PI) by (replace (-1) with (- (1)) by ring; rewrite acos_opp, acos_1; ring).
    split; [|split]; split; intros H; try (rewrite H; first [exact acos_0|exact acos_1|exact Am]).
    - apply acos_inj; [exact B|lra|]. rewrite H. symmetry. exact acos_0.
    - apply acos_inj; [exact B|lra|]. rewrite H. symmetry. exact acos_1.
    - apply acos_inj; [exact B|lra|]. rewrite H. symmetry. exact Am. }
  destruct A as (A0 & A1 & AP).
  split; [rewrite A0|split; [rewrite A1|rewrite AP]].
  - split; intros H.
    + rewrite <- D, H. ring.
    + apply Rmult_eq_reg_r with (vec_norm u * vec_norm v); [|lra]. rewrite D. lra.
  - split; intros H.
    + rewrite H in D.
      exists (vec_dot u v / vec_norm_squared u). split.
      * apply Rdiv_lt_0_compat; [rewrite <- D; lra|exact Nu].
      * apply dot_norms_parallel; [assumption|]. rewrite <- D, <- !vec_norm_sqr. ring.
    + destruct H as (k & Hk & ->). apply Rmult_eq_reg_r with (vec_norm u * vec_norm (vec_scale u k)); [|lra].
      rewrite D, dot_scale, norm_scale_pos, <- vec_norm_sqr by lra. ring.
  - split; intros H.
    + rewrite H in D.
      exists (- vec_dot u v / vec_norm_squared u). split.
      * apply Rdiv_lt_0_compat; [rewrite <- D; lra|exact Nu].
      * replace (- (- vec_dot u v / vec_norm_squared u)) with (vec_dot u v / vec_norm_squared u) by (field; lra).
        apply dot_norms_parallel; [assumption|]. rewrite <- D, <- !vec_norm_sqr. ring.
    + destruct H as (k & Hk & ->). apply Rmult_eq_reg_r with (vec_norm u * vec_norm (vec_scale u (- k))); [|lra].
      rewrite D, dot_scale, norm_scale_neg, norm_scale_pos, <- vec_norm_sqr by lra. ring.
Qed.

Lemma div_laws : forall k : R, k <> 0 ->
  (forall u, vec_div (O := XO) (xv u) (Some k) = xv (vec_scale u (/ k)) /\ vec_scale (vec_div u k) k = u) /\
  (forall u, biv_div (O := XO) (xb u) (Some k) = xb (biv_scale u (/ k)) /\ biv_scale (biv_div u k) k = u) /\
  (forall u, tri_div (O := XO) (xt u) (Some k) = xt (tri_scale_assign u (/ k)) /\ tri_scale_assign (tri_div u k) k = u) /\
  (forall u, rot_div (O := XO) (xr u) (Some k) = xr (rot_scale u (/ k)) /\ rot_scale (rot_div u k) k = u).
Proof.
  intros k H. repeat split; intros.
  - rewrite x_vec_div by assumption. reflexivity.
  - destruct u as [x y z]. ga. veq; field; assumption.
  - rewrite x_biv_div by assumption. reflexivity.
  - destruct u as [x y z]. ga. veq; field; assumption.
  - unfold tri_div, xt. f_equal. now apply xdiv_some.
  - destruct u as [x]. unfold tri_scale_assign. ga. veq; field; assumption.
  - unfold rot_div, xr. cbn [scalar bivector]. f_equal; [now apply xdiv_some|]. now rewrite x_biv_div.
  - destruct u as [a [x y z]]. ga. veq; field; assumption.
Qed.
Lemma is_zero_exact :
  (forall u : Vector3 R, vec_is_zero u = true <-> u = vec_zero) /\
  (forall u : Bivector3 R, biv_is_zero u = true <-> u = biv_zero) /\
  (forall u : Trivector3 R, tri_is_zero u = true <-> u = tri_zero).
Proof.
  assert (Z : forall x : R, sc_is_zero (O := RO) x = true <-> x = 0).
  { intros x. unfold sc_is_zero. cbn [oeq c0 RO]. unfold Reqb. destruct (Req_EM_T x 0); intuition congruence. }
  split; [|split].
  - intros [x y z]. unfold vec_is_zero, vec_zero. cbn [a1 a2 a3]. rewrite !andb_true_iff, !Z.
    split; [intros [[-> ->] ->]; reflexivity|intros E; injection E; auto].
  - intros [x y z]. unfold biv_is_zero, biv_zero. cbn [b1 b2 b3]. rewrite !andb_true_iff, !Z.
    split; [intros [[-> ->] ->]; reflexivity|intros E; injection E; auto].
  - intros [x]. unfold tri_is_zero, tri_zero. cbn [t1]. rewrite Z.
    split; [intros ->; reflexivity|intros E; injection E; auto].
Qed.
