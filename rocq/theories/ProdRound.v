(** * The products of src/math in floating point against the Clifford algebra. *)
From Coq Require Import ZArith Reals Lia Lra.
From Flocq Require Import Core.Core BinarySingleNaN.
From Verif Require Import Scalar GA GASpec GARing GAReal Format RoundSpec Rounding GARound NormRound LenReal InvRound RotRound BitRound.
Local Open Scope R_scope.

Section Prod.
Variable f : Fmt.
Local Notation O := (BO f).
Local Notation t := (tiny f).
Local Notation u := (ur f).

Lemma near_err : forall n M x r, near f n M x r -> is_finite x = true /\ Rabs (B2R x - r) <= err f n M.
Proof. intros n M x r H. exact H. Qed.
Lemma err_le : forall n m M N, (n <= m)%nat -> 0 <= M <= N -> err f n M <= err f m N.
Proof.
  intros n m M N H1 H2. unfold err. pose proof (ur_pos f).
  assert (1 <= (1 + u) ^ n) by (apply pow_R1_Rle; lra).
  assert ((1 + u) ^ n <= (1 + u) ^ m) by (apply Rle_pow; [lra|exact H1]).
  apply Rmult_le_compat; lra.
Qed.
Ltac use_near H := let F := fresh "F" in let E := fresh "E" in destruct H as [F E].

Lemma vec_mul_round : forall x y : Vector3 O, vfin x -> vfin y -> let L := vlen (rv x) * vlen (rv y) in
  (1 + u) ^ 4 * (L + 4 * t) < huge f ->
  rfin (vec_mul x y) /\ mdist (err f 3 (L + 3 * t)) (of_rot (O := RO) (rr (vec_mul x y))) (mmul (O := RO) (of_vec (O := RO) (rv x)) (of_vec (O := RO) (rv y))).
Proof.
  intros x y Fx Fy L H. destruct (vec_products f x y Fx Fy H) as ((F0 & E0) & (F1 & E1) & (F2 & E2) & (F3 & E3)). fold L in E0, E1, E2, E3.
  split; [exact (conj F0 (conj F1 (conj F2 F3)))|].
  assert (P : 0 <= L) by (apply Rmult_le_pos; apply sqrt_pos). pose proof (tiny_pos f).
  assert (K : err f 2 (L + 2 * t) <= err f 3 (L + 3 * t)) by (apply err_le; [lia|lra]). unfold err in K.
  apply mdist_rot with (y := vec_mul (O := RO) (rv x) (rv y)); [exact (vec_mul_spec RO_ring _ _)|exact E0|].
  unfold beach. split; [|split]; (eapply Rle_trans; [eassumption|exact K]).
Qed.
Lemma vec_mul_biv_round : forall (x : Vector3 O) (y : Bivector3 O), vfin x -> bfin y -> let L := vlen (rv x) * blen (rb y) in
  (1 + u) ^ 4 * (L + 4 * t) < huge f ->
  vfin (fst (vec_mul_biv x y)) /\ tfin (snd (vec_mul_biv x y)) /\
  mdist (err f 3 (L + 3 * t)) (madd (O := RO) (of_vec (O := RO) (rv (fst (vec_mul_biv x y)))) (of_tri (O := RO) (rt (snd (vec_mul_biv x y)))))
    (mmul (O := RO) (of_vec (O := RO) (rv x)) (of_biv (O := RO) (rb y))).
Proof.
  intros x y Fx Fy L H. destruct (vec_biv_product f x y Fx Fy H) as (((F1 & E1) & (F2 & E2) & (F3 & E3)) & (F0 & E0)). fold L in E0, E1, E2, E3.
  split; [exact (conj F1 (conj F2 F3))|]. split; [exact F0|].
  assert (P : 0 <= L) by (apply Rmult_le_pos; apply sqrt_pos). pose proof (tiny_pos f).
  assert (K : err f 2 (L + 2 * t) <= err f 3 (L + 3 * t)) by (apply err_le; [lia|lra]). unfold err in K.
  apply mdist_vec_tri with (y := fst (vec_mul_biv (O := RO) (rv x) (rb y))) (t := snd (vec_mul_biv (O := RO) (rv x) (rb y))); [exact (vec_mul_biv_spec RO_ring _ _)| |exact E0].
  unfold veach. split; [|split]; (eapply Rle_trans; [eassumption|exact K]).
Qed.
Lemma biv_mul_round : forall x y : Bivector3 O, bfin x -> bfin y -> let L := blen (rb x) * blen (rb y) in
  (1 + u) ^ 4 * (L + 4 * t) < huge f ->
  rfin (biv_mul x y) /\ mdist (err f 3 (L + 3 * t)) (of_rot (O := RO) (rr (biv_mul x y))) (mmul (O := RO) (of_biv (O := RO) (rb x)) (of_biv (O := RO) (rb y))).
Proof.
  intros x y Fx Fy L H. destruct (biv_products f x y Fx Fy H) as (_ & _ & (F0 & E0) & (F1 & E1) & (F2 & E2) & (F3 & E3)). fold L in E0, E1, E2, E3.
  split; [exact (conj F0 (conj F1 (conj F2 F3)))|].
  assert (P : 0 <= L) by (apply Rmult_le_pos; apply sqrt_pos). pose proof (tiny_pos f).
  assert (K : err f 2 (L + 2 * t) <= err f 3 (L + 3 * t)) by (apply err_le; [lia|lra]). unfold err in K.
  apply mdist_rot with (y := biv_mul (O := RO) (rb x) (rb y)); [exact (biv_mul_spec RO_ring _ _)|exact E0|].
  unfold beach. split; [|split]; (eapply Rle_trans; [eassumption|exact K]).
Qed.
Lemma rot_mul_round : forall x y : Rotor3 O, rfin x -> rfin y -> let L := rlen (rr x) * rlen (rr y) in
  (1 + u) ^ 4 * (L + 4 * t) < huge f ->
  rfin (rot_mul x y) /\ mdist (err f 4 (L + 4 * t)) (of_rot (O := RO) (rr (rot_mul x y))) (mmul (O := RO) (of_rot (O := RO) (rr x)) (of_rot (O := RO) (rr y))).
Proof.
  intros x y Fx Fy L H. destruct (rot_products f x y Fx Fy H) as (_ & (F0 & E0) & (F1 & E1) & (F2 & E2) & (F3 & E3)). fold L in E0, E1, E2, E3.
  split; [exact (conj F0 (conj F1 (conj F2 F3)))|].
  apply mdist_rot with (y := rot_mul (O := RO) (rr x) (rr y)); [exact (rot_mul_spec RO_ring _ _)|exact E0|exact (conj E1 (conj E2 E3))].
Qed.
Lemma rot_mul_vec_round : forall (x : Rotor3 O) (y : Vector3 O), rfin x -> vfin y -> let L := rlen (rr x) * vlen (rv y) in
  (1 + u) ^ 4 * (L + 4 * t) < huge f ->
  vfin (fst (rot_mul_vec x y)) /\ tfin (snd (rot_mul_vec x y)) /\
  mdist (err f 3 (L + 3 * t)) (madd (O := RO) (of_vec (O := RO) (rv (fst (rot_mul_vec x y)))) (of_tri (O := RO) (rt (snd (rot_mul_vec x y)))))
    (mmul (O := RO) (of_rot (O := RO) (rr x)) (of_vec (O := RO) (rv y))).
Proof.
  intros x y Fx Fy L H. destruct (rot_vec_product f x y Fx Fy H) as (((F1 & E1) & (F2 & E2) & (F3 & E3)) & (F0 & E0)). fold L in E0, E1, E2, E3.
  split; [exact (conj F1 (conj F2 F3))|]. split; [exact F0|].
  apply mdist_vec_tri with (y := fst (rot_mul_vec (O := RO) (rr x) (rv y))) (t := snd (rot_mul_vec (O := RO) (rr x) (rv y)));
    [exact (rot_mul_vec_spec RO_ring _ _)|exact (conj E1 (conj E2 E3))|exact E0].
Qed.
Lemma tri_mul_round : forall x y : Trivector3 O, tfin x -> tfin y -> let L := tlen (rt x) * tlen (rt y) in
  (1 + u) ^ 4 * (L + 4 * t) < huge f ->
  is_finite (tri_mul x y) = true /\ mdist (err f 1 (L + t)) (of_scalar (O := RO) (B2R (tri_mul x y))) (mmul (O := RO) (of_tri (O := RO) (rt x)) (of_tri (O := RO) (rt y))).
Proof.
  intros x y Fx Fy L H. destruct (tri_products f x y Fx Fy H) as (_ & (F0 & E0)). fold L in E0.
  split; [exact F0|]. apply mdist_scalar with (y := tri_mul (O := RO) (rt x) (rt y)); [exact (tri_mul_spec RO_ring _ _)|exact E0].
Qed.

(** dot is the scalar part of the product, wedge the part of grade 2 (or 3). *)
Lemma vec_dot_round : forall x y : Vector3 O, vfin x -> vfin y -> let L := vlen (rv x) * vlen (rv y) in
  (1 + u) ^ 4 * (L + 4 * t) < huge f ->
  (is_finite (vec_dot x y) = true /\ mdist (err f 3 (L + 3 * t)) (of_scalar (O := RO) (B2R (vec_dot x y))) (mgrade (O := RO) 0 (mmul (O := RO) (of_vec (O := RO) (rv x)) (of_vec (O := RO) (rv y))))) /\
  (bfin (vec_wedge x y) /\ mdist (err f 2 (L + 2 * t)) (of_biv (O := RO) (rb (vec_wedge x y))) (mgrade (O := RO) 2 (mmul (O := RO) (of_vec (O := RO) (rv x)) (of_vec (O := RO) (rv y))))).
Proof.
  intros x y Fx Fy L H. destruct (vec_products f x y Fx Fy H) as ((F0 & E0) & (F1 & E1) & (F2 & E2) & (F3 & E3)). fold L in E0, E1, E2, E3.
  split; (split; [first [exact F0|exact (conj F1 (conj F2 F3))]|]).
  - apply mdist_scalar with (y := vec_dot (O := RO) (rv x) (rv y)); [exact (vec_dot_grade RO_ring _ _)|exact E0].
  - apply mdist_biv with (y := vec_wedge (O := RO) (rv x) (rv y)); [exact (vec_wedge_grade RO_ring _ _)|exact (conj E1 (conj E2 E3))].
Qed.
Lemma biv_dot_round : forall x y : Bivector3 O, bfin x -> bfin y -> let L := blen (rb x) * blen (rb y) in
  (1 + u) ^ 4 * (L + 4 * t) < huge f ->
  (is_finite (biv_dot x y) = true /\ mdist (err f 3 (L + 3 * t)) (of_scalar (O := RO) (B2R (biv_dot x y))) (mgrade (O := RO) 0 (mmul (O := RO) (of_biv (O := RO) (rb x)) (of_biv (O := RO) (rb y))))) /\
  (bfin (biv_wedge x y) /\ mdist (err f 2 (L + 2 * t)) (of_biv (O := RO) (rb (biv_wedge x y))) (mgrade (O := RO) 2 (mmul (O := RO) (of_biv (O := RO) (rb x)) (of_biv (O := RO) (rb y))))).
Proof.
  intros x y Fx Fy L H. destruct (biv_products f x y Fx Fy H) as ((F0 & E0) & ((F1 & E1) & (F2 & E2) & (F3 & E3)) & _). fold L in E0, E1, E2, E3.
  split; (split; [first [exact F0|exact (conj F1 (conj F2 F3))]|]).
  - apply mdist_scalar with (y := biv_dot (O := RO) (rb x) (rb y)); [exact (biv_dot_grade RO_ring _ _)|exact E0].
  - apply mdist_biv with (y := biv_wedge (O := RO) (rb x) (rb y)); [exact (biv_wedge_grade RO_ring _ _)|exact (conj E1 (conj E2 E3))].
Qed.
Lemma biv_wedge_vec_round : forall (x : Bivector3 O) (y : Vector3 O), bfin x -> vfin y -> let L := blen (rb x) * vlen (rv y) in
  (1 + u) ^ 4 * (L + 4 * t) < huge f ->
  tfin (biv_wedge_vec x y) /\ mdist (err f 3 (L + 3 * t)) (of_tri (O := RO) (rt (biv_wedge_vec x y))) (mgrade (O := RO) 3 (mmul (O := RO) (of_biv (O := RO) (rb x)) (of_vec (O := RO) (rv y)))).
Proof.
  intros x y Fx Fy L H. destruct (biv_vec_wedge f x y Fx Fy H) as (F0 & E0). fold L in E0.
  split; [exact F0|]. apply mdist_tri with (y := biv_wedge_vec (O := RO) (rb x) (rv y)); [exact (biv_wedge_vec_grade RO_ring _ _)|exact E0].
Qed.
Lemma tri_dot_round : forall x y : Trivector3 O, tfin x -> tfin y -> let L := tlen (rt x) * tlen (rt y) in
  (1 + u) ^ 4 * (L + 4 * t) < huge f ->
  is_finite (tri_dot x y) = true /\ mdist (err f 1 (L + t)) (of_scalar (O := RO) (B2R (tri_dot x y))) (mgrade (O := RO) 0 (mmul (O := RO) (of_tri (O := RO) (rt x)) (of_tri (O := RO) (rt y)))).
Proof.
  intros x y Fx Fy L H. destruct (tri_products f x y Fx Fy H) as ((F0 & E0) & _). fold L in E0.
  split; [exact F0|]. apply mdist_scalar with (y := tri_dot (O := RO) (rt x) (rt y)); [exact (tri_dot_grade RO_ring _ _)|exact E0].
Qed.
Lemma rot_dot_round : forall x y : Rotor3 O, rfin x -> rfin y -> let L := rlen (rr x) * rlen (rr y) in
  (1 + u) ^ 4 * (L + 4 * t) < huge f ->
  is_finite (rot_dot x y) = true /\ mdist (err f 4 (L + 4 * t)) (of_scalar (O := RO) (B2R (rot_dot x y))) (mgrade (O := RO) 0 (mmul (O := RO) (of_rot (O := RO) (rr x)) (of_rot (O := RO) (rr y)))).
Proof.
  intros x y Fx Fy L H. destruct (rot_products f x y Fx Fy H) as ((F0 & E0) & _). fold L in E0.
  split; [exact F0|]. apply mdist_scalar with (y := rot_dot (O := RO) (rr x) (rr y)); [exact (rot_dot_grade RO_ring _ _)|exact E0].
Qed.

(** rotate is R v R~. *)
Lemma rot_rotate_round : forall (r : Rotor3 O) (v : Vector3 O), rfin r -> vfin v ->
  let L := rlen (rr r) in let Q := L * vlen (rv v) + 3 * t in
  (1 + u) ^ 4 * Q < huge f -> (1 + u) ^ 7 * (2 * L * Q + 4 * t) < huge f ->
  vfin (rot_rotate r v) /\ mdist (err f 7 (2 * L * Q + 4 * t)) (of_vec (O := RO) (rv (rot_rotate r v)))
    (mmul (O := RO) (mmul (O := RO) (of_rot (O := RO) (rr r)) (of_vec (O := RO) (rv v))) (mrev (O := RO) (of_rot (O := RO) (rr r)))).
Proof.
  intros r v Fr Fv L Q H4 H7. destruct (rot_rotate_near f r v Fr Fv H4 H7) as ((F1 & E1) & (F2 & E2) & (F3 & E3)).
  split; [exact (conj F1 (conj F2 F3))|].
  apply mdist_vec with (y := rot_rotate (O := RO) (rr r) (rv v)); [exact (rotate_sandwich RO_ring _ _)|exact (conj E1 (conj E2 E3))].
Qed.
Lemma rot_unit_rotate_round : (11 <= prec f)%Z -> forall (q : Rotor3 O) (v : Vector3 O), rfin q -> sized f (rlen (rr q)) -> vfin v -> sized f (vlen (rv v)) ->
  vfin (rot_rotate (rot_normalize q) v) /\ mdist (25 * u * vlen (rv v)) (of_vec (O := RO) (rv (rot_rotate (rot_normalize q) v)))
    (mmul (O := RO) (mmul (O := RO) (of_rot (O := RO) (rdir (rr q))) (of_vec (O := RO) (rv v))) (mrev (O := RO) (of_rot (O := RO) (rdir (rr q))))).
Proof.
  intros wide q v Fr Sq Fv Sv. destruct (rot_rotate_unit f wide q v Fr Sq Fv Sv) as ((F1 & E1) & (F2 & E2) & (F3 & E3)).
  split; [exact (conj F1 (conj F2 F3))|].
  apply mdist_vec with (y := rot_rotate (O := RO) (rdir (rr q)) (rv v)); [exact (rotate_sandwich RO_ring _ _)|exact (conj E1 (conj E2 E3))].
Qed.
Lemma angle_arg_round : (11 <= prec f)%Z -> forall a b : Vector3 O, vfin a -> vfin b -> sized f (vlen (rv a)) -> sized f (vlen (rv b)) ->
  exists x, vec_angle a b = f_acos f x /\
  within (14 * u) x ((B2R (a1 a) * B2R (a1 b) + B2R (a2 a) * B2R (a2 b) + B2R (a3 a) * B2R (a3 b)) / (vlen (rv a) * vlen (rv b))).
Proof.
  intros wide a b Fa Fb Sa Sb. exists (vec_dot (vec_normalize a) (vec_normalize b)). split; [reflexivity|].
  destruct (angle_arg f wide a b Fa Fb Sa Sb) as [F E]. split; [exact F|].
  pose proof (sized_pos f wide _ Sa). pose proof (sized_pos f wide _ Sb).
  replace (_ / _) with (vec_dot (O := RO) (vdir (rv a)) (vdir (rv b))); [exact E|].
  set (K := vlen (rv a)) in *. set (M := vlen (rv b)) in *.
  assert (EK : vdir (rv a) = V3 (B2R (a1 a) / K) (B2R (a2 a) / K) (B2R (a3 a) / K)) by reflexivity.
  assert (EM : vdir (rv b) = V3 (B2R (a1 b) / M) (B2R (a2 b) / M) (B2R (a3 b) / M)) by reflexivity.
  rewrite EK, EM. clearbody K M. destruct a as [x y z], b as [x' y' z']. cbn [a1 a2 a3]. unfold vec_dot. cbn [a1 a2 a3 oadd omul RO].
  match goal with |- ?x = ?y => change (@eq R x y) end. field. lra.
Qed.
Lemma rot_unit_reverse : (11 <= prec f)%Z -> forall q : Rotor3 O, rfin q -> sized f (rlen (rr q)) -> let r := rot_normalize q in
  within (15 * u) (scalar (rot_mul r (rot_inverse r))) 1 /\
  bfin (bivector (rot_mul r (rot_inverse r))) /\ rb (bivector (rot_mul r (rot_inverse r))) = B3 0 0 0.
Proof.
  intros wide q Fq Sq r. split; [exact (proj1 (rot_unit_inverse f wide q Fq Sq))|].
  destruct (rot_normalize_near f wide q Fq Sq) as (_ & (N0 & N1 & N2 & N3) & D). fold r in N0, N1, N2, N3, D.
  apply rot_reverse_bivector.
  - exact (conj (proj1 N0) (conj (proj1 N1) (conj (proj1 N2) (proj1 N3)))).
  - pose proof (u_small f wide) as [Pu Su]. pose proof (huge_big f wide). pose proof (sqrt_pos (scalar (rr r) ^ 2 + b1 (bivector (rr r)) ^ 2 + b2 (bivector (rr r)) ^ 2 + b3 (bivector (rr r)) ^ 2)) as P.
    fold (rlen (rr r)) in P. apply Rabs_le_inv in D. assert (rlen (rr r) * rlen (rr r) <= 2 * 2) by (apply Rmult_le_compat; lra).
    apply room4; [exact wide|apply Rmult_le_pos; lra|lra].
Qed.
End Prod.
