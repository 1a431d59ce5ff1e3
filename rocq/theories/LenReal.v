(** * Euclidean lengths of the real vectors, bivectors and rotors of src/math. *)
From Coq Require Import Reals Lra Psatz.
From Flocq Require Import Core.Core.
From Verif Require Import Scalar GA RoundSpec GARound.
Local Open Scope R_scope.

(** ** Four numbers *)
Definition n4 (a b c d : R) : R := sqrt (a ^ 2 + b ^ 2 + c ^ 2 + d ^ 2).
Lemma s4_pos : forall a b c d, 0 <= a ^ 2 + b ^ 2 + c ^ 2 + d ^ 2.
Proof. intros. pose proof (pow2_ge_0 a). pose proof (pow2_ge_0 b). pose proof (pow2_ge_0 c). pose proof (pow2_ge_0 d). lra. Qed.
Lemma n4_pos : forall a b c d, 0 <= n4 a b c d.
Proof. intros. apply sqrt_pos. Qed.
Lemma n4_sq : forall a b c d, n4 a b c d ^ 2 = a ^ 2 + b ^ 2 + c ^ 2 + d ^ 2.
Proof. intros. unfold n4. rewrite <- Rsqr_pow2. apply Rsqr_sqrt, s4_pos. Qed.
Lemma n4_le : forall a b c d r, 0 <= r -> a ^ 2 + b ^ 2 + c ^ 2 + d ^ 2 <= r ^ 2 -> n4 a b c d <= r.
Proof. intros a b c d r P H. unfold n4. rewrite <- (sqrt_pow2 r P). now apply sqrt_le_1_alt. Qed.
Lemma n4_part : forall a b c d, Rabs a <= n4 a b c d /\ Rabs b <= n4 a b c d /\ Rabs c <= n4 a b c d /\ Rabs d <= n4 a b c d.
Proof.
  intros. pose proof (pow2_ge_0 a). pose proof (pow2_ge_0 b). pose proof (pow2_ge_0 c). pose proof (pow2_ge_0 d). unfold n4.
  repeat split; rewrite <- sqrt_Rsqr_abs; apply sqrt_le_1_alt; rewrite Rsqr_pow2; lra.
Qed.
Lemma n4_cs : forall a b c d x y z w, Rabs (a * x + b * y + c * z + d * w) <= n4 a b c d * n4 x y z w.
Proof.
  intros. pose proof (cs_len a b c d x y z w) as C. fold (n4 a b c d) (n4 x y z w) in C.
  eapply Rle_trans; [|exact C]. rewrite <- !Rabs_mult.
  eapply Rle_trans; [apply Rabs_triang|]. apply Rplus_le_compat_r.
  eapply Rle_trans; [apply Rabs_triang|]. apply Rplus_le_compat_r. apply Rabs_triang.
Qed.
Lemma n4_triang : forall a b c d x y z w, n4 (a + x) (b + y) (c + z) (d + w) <= n4 a b c d + n4 x y z w.
Proof.
  intros. pose proof (n4_pos a b c d). pose proof (n4_pos x y z w). apply n4_le; [lra|].
  pose proof (n4_cs a b c d x y z w) as C. apply Rabs_le_inv in C.
  pose proof (n4_sq a b c d). pose proof (n4_sq x y z w). nra.
Qed.
Lemma n4_opp : forall a b c d, n4 (- a) (- b) (- c) (- d) = n4 a b c d.
Proof. intros. unfold n4. f_equal. ring. Qed.
(** Componentwise bounds bound the length. *)
Lemma n4_err : forall a b c d x y z w k e, 0 <= k -> 0 <= e ->
  Rabs x <= k * Rabs a + e -> Rabs y <= k * Rabs b + e -> Rabs z <= k * Rabs c + e -> Rabs w <= k * Rabs d + e ->
  n4 x y z w <= k * n4 a b c d + 2 * e.
Proof.
  intros a b c d x y z w k e Pk Pe Ha Hb Hc Hd. pose proof (n4_pos a b c d) as PN.
  pose proof (Rmult_le_pos _ _ Pk PN). apply n4_le; [lra|].
  assert (S : Rabs a + Rabs b + Rabs c + Rabs d <= 2 * n4 a b c d).
  { pose proof (cs_len a b c d 1 1 1 1) as C. rewrite Rabs_R1 in C. fold (n4 a b c d) in C.
    replace (1 ^ 2 + 1 ^ 2 + 1 ^ 2 + 1 ^ 2) with (2 ^ 2) in C by ring. rewrite sqrt_pow2 in C by lra. lra. }
  assert (E : forall p q, Rabs p <= k * Rabs q + e -> p ^ 2 <= k ^ 2 * q ^ 2 + 2 * k * e * Rabs q + e ^ 2).
  { intros p q H0. rewrite <- Rsqr_pow2, Rsqr_abs, Rsqr_pow2.
    apply Rle_trans with ((k * Rabs q + e) ^ 2).
    - apply pow_incr. split; [apply Rabs_pos|exact H0].
    - right. replace (q ^ 2) with (Rabs q ^ 2) by (rewrite <- !Rsqr_pow2, <- Rsqr_abs; reflexivity). ring. }
  apply E in Ha. apply E in Hb. apply E in Hc. apply E in Hd.
  assert (2 * k * e * (Rabs a + Rabs b + Rabs c + Rabs d) <= 2 * k * e * (2 * n4 a b c d)).
  { apply Rmult_le_compat_l; [|exact S]. pose proof (Rmult_le_pos k e Pk Pe). lra. }
  pose proof (n4_sq a b c d). nra.
Qed.

(** ** Vectors and rotors *)
Lemma vlen_n4 : forall v : Vector3 R, vlen v = n4 (a1 v) (a2 v) (a3 v) 0.
Proof. intros v. unfold vlen, n4. f_equal. ring. Qed.
Lemma blen_n4 : forall v : Bivector3 R, blen v = n4 (b1 v) (b2 v) (b3 v) 0.
Proof. intros v. unfold blen, n4. f_equal. ring. Qed.
Lemma rlen_n4 : forall r : Rotor3 R, rlen r = n4 (scalar r) (b1 (bivector r)) (b2 (bivector r)) (b3 (bivector r)).
Proof. reflexivity. Qed.
Lemma vlen_pos : forall v, 0 <= vlen v. Proof. intros. apply sqrt_pos. Qed.
Lemma blen_pos : forall v, 0 <= blen v. Proof. intros. apply sqrt_pos. Qed.
Lemma rlen_pos : forall v, 0 <= rlen v. Proof. intros. apply sqrt_pos. Qed.
Lemma vlen_sqr : forall v, vlen v ^ 2 = a1 v ^ 2 + a2 v ^ 2 + a3 v ^ 2.
Proof. intros. rewrite vlen_n4, n4_sq. ring. Qed.
Lemma rlen_sqr : forall r, rlen r ^ 2 = scalar r ^ 2 + b1 (bivector r) ^ 2 + b2 (bivector r) ^ 2 + b3 (bivector r) ^ 2.
Proof. intros. rewrite rlen_n4. apply n4_sq. Qed.
Definition veach1 (P : R -> Prop) (v : Vector3 R) := P (a1 v) /\ P (a2 v) /\ P (a3 v).
Definition reach1 (P : R -> Prop) (r : Rotor3 R) := P (scalar r) /\ P (b1 (bivector r)) /\ P (b2 (bivector r)) /\ P (b3 (bivector r)).
Lemma vlen_part : forall v, veach1 (fun x => Rabs x <= vlen v) v.
Proof. intros v. rewrite vlen_n4. pose proof (n4_part (a1 v) (a2 v) (a3 v) 0). unfold veach1. tauto. Qed.
Lemma rlen_part : forall r, reach1 (fun x => Rabs x <= rlen r) r.
Proof. intros v. rewrite rlen_n4. apply n4_part. Qed.

Ltac rring := match goal with |- @eq _ ?a ?b => change (@eq R a b); ring end.
Ltac veqr := match goal with |- _ = V3 ?d ?e ?g => match goal with |- V3 ?a ?b ?c = _ => change (@V3 R a b c = @V3 R d e g); f_equal; rring end end.
Lemma vlen_add : forall u v : Vector3 R, vlen (vec_add (O := RO) u v) <= vlen u + vlen v.
Proof.
  intros [x y z] [a b c]. rewrite !vlen_n4. unfold vec_add. cbn [a1 a2 a3 oadd RO]. eapply Rle_trans; [|apply n4_triang]. right. f_equal. rring.
Qed.
Lemma vlen_sub : forall u v : Vector3 R, vlen (vec_sub (O := RO) u v) <= vlen u + vlen v.
Proof.
  intros [x y z] [a b c]. rewrite !vlen_n4, <- (n4_opp (a1 (V3 a b c))). unfold vec_sub. cbn [a1 a2 a3 osub RO]. eapply Rle_trans; [|apply n4_triang]. right. f_equal; rring.
Qed.
Lemma rlen_add : forall u v : Rotor3 R, rlen (rot_add (O := RO) u v) <= rlen u + rlen v.
Proof. intros u v. rewrite !rlen_n4. apply n4_triang. Qed.
Lemma blen_add : forall u v : Bivector3 R, blen (biv_add (O := RO) u v) <= blen u + blen v.
Proof.
  intros [x y z] [a b c]. rewrite !blen_n4. unfold biv_add. cbn [b1 b2 b3 oadd RO]. eapply Rle_trans; [|apply n4_triang]. right. f_equal. rring.
Qed.
Lemma blen_sqr : forall v, blen v ^ 2 = b1 v ^ 2 + b2 v ^ 2 + b3 v ^ 2.
Proof. intros. rewrite blen_n4, n4_sq. ring. Qed.
Lemma blen_part : forall v, Rabs (b1 v) <= blen v /\ Rabs (b2 v) <= blen v /\ Rabs (b3 v) <= blen v.
Proof. intros v. rewrite blen_n4. pose proof (n4_part (b1 v) (b2 v) (b3 v) 0). tauto. Qed.
Lemma vec_dot_le : forall u v : Vector3 R, Rabs (vec_dot (O := RO) u v) <= vlen u * vlen v.
Proof.
  intros [x y z] [a b c]. rewrite !vlen_n4. eapply Rle_trans; [|apply n4_cs]. right. unfold vec_dot. cbn [a1 a2 a3 oadd omul RO]. f_equal. rring.
Qed.
Lemma sqrt_prod : forall a b c, 0 <= a -> 0 <= b -> c = a * b -> sqrt c = sqrt a * sqrt b.
Proof. intros a b c Ha Hb ->. now apply sqrt_mult. Qed.
(** The geometric product of vectors multiplies lengths. *)
Lemma rlen_vec_mul : forall u v : Vector3 R, rlen (vec_mul (O := RO) u v) = vlen u * vlen v.
Proof.
  intros [x y z] [a b c]. unfold rlen, vlen, vec_mul, vec_wedge, vec_dot. cbn [a1 a2 a3 b1 b2 b3 scalar bivector oadd omul osub RO].
  apply sqrt_prod; [| |rring];
  pose proof (pow2_ge_0 x); pose proof (pow2_ge_0 y); pose proof (pow2_ge_0 z); pose proof (pow2_ge_0 a); pose proof (pow2_ge_0 b); pose proof (pow2_ge_0 c); lra.
Qed.
Lemma rlen_biv_mul : forall u v : Bivector3 R, rlen (biv_mul (O := RO) u v) = blen u * blen v.
Proof.
  intros [x y z] [a b c]. unfold rlen, blen, biv_mul. cbn [b1 b2 b3 scalar bivector oadd omul osub oneg RO].
  apply sqrt_prod; [| |rring];
  pose proof (pow2_ge_0 x); pose proof (pow2_ge_0 y); pose proof (pow2_ge_0 z); pose proof (pow2_ge_0 a); pose proof (pow2_ge_0 b); pose proof (pow2_ge_0 c); lra.
Qed.
Lemma rlen_rot_mul : forall r s : Rotor3 R, rlen (rot_mul (O := RO) r s) = rlen r * rlen s.
Proof.
  intros [w [x y z]] [d [a b c]]. unfold rlen, rot_mul. cbn [b1 b2 b3 scalar bivector oadd omul osub RO].
  apply sqrt_prod; [apply s4_pos|apply s4_pos|rring].
Qed.
(** A rotor times a vector: a vector and a trivector. *)
Definition plen (p : Vector3 R * Trivector3 R) : R := n4 (a1 (fst p)) (a2 (fst p)) (a3 (fst p)) (t1 (snd p)).
Lemma plen_rot_mul_vec : forall (r : Rotor3 R) (v : Vector3 R), plen (rot_mul_vec (O := RO) r v) = rlen r * vlen v.
Proof.
  intros [w [x y z]] [a b c]. unfold plen, n4, rlen, vlen, rot_mul_vec. cbn [a1 a2 a3 t1 fst snd b1 b2 b3 scalar bivector oadd omul osub RO].
  apply sqrt_prod; [apply s4_pos| |rring].
  pose proof (pow2_ge_0 a); pose proof (pow2_ge_0 b); pose proof (pow2_ge_0 c); lra.
Qed.
Lemma vlen_rot_mul_vec : forall (r : Rotor3 R) (v : Vector3 R), vlen (fst (rot_mul_vec (O := RO) r v)) <= rlen r * vlen v.
Proof.
  intros r v. rewrite <- plen_rot_mul_vec. generalize (rot_mul_vec (O := RO) r v). intros [[x y z] [w]].
  unfold plen, vlen, n4. cbn [a1 a2 a3 t1 fst snd]. apply sqrt_le_1_alt. pose proof (pow2_ge_0 w). lra.
Qed.
(** p v q†, its vector part. *)
Definition sand (p q : Rotor3 R) (v : Vector3 R) : Vector3 R :=
  let w := rot_mul_vec (O := RO) p v in
  let y := - t1 (snd w) in let q1 := a1 (fst w) in let q2 := a2 (fst w) in let q3 := a3 (fst w) in
  let a := scalar q in let c1 := b1 (bivector q) in let c2 := b2 (bivector q) in let c3 := b3 (bivector q) in
  V3 (a * q1 + q2 * c1 + q3 * c2 - y * c3) (a * q2 - q1 * c1 + y * c2 + q3 * c3) (a * q3 - y * c1 - q1 * c2 - q2 * c3).
Lemma sand_rotate : forall r v, sand r r v = rot_rotate (O := RO) r v.
Proof.
  intros [w [x y z]] [a b c]. unfold sand, rot_rotate, rot_mul_vec. cbn [a1 a2 a3 t1 fst snd b1 b2 b3 scalar bivector oadd omul osub oneg RO].
  veqr.
Qed.
Lemma sand_len : forall p q v, vlen (sand p q v) <= rlen p * vlen v * rlen q.
Proof.
  intros p q v. rewrite <- plen_rot_mul_vec. unfold sand, plen. generalize (rot_mul_vec (O := RO) p v). intros [[q1 q2 q3] [y]].
  destruct q as [w [x z s]]. unfold vlen, rlen, n4. cbn [a1 a2 a3 t1 fst snd b1 b2 b3 scalar bivector].
  rewrite <- sqrt_mult by apply s4_pos. apply sqrt_le_1_alt.
  assert (0 <= (w * y + x * q3 - z * q2 + s * q1) ^ 2 + 0) by (pose proof (pow2_ge_0 (w * y + x * q3 - z * q2 + s * q1)); lra).
  assert (E : (q1 ^ 2 + q2 ^ 2 + q3 ^ 2 + y ^ 2) * (w ^ 2 + x ^ 2 + z ^ 2 + s ^ 2) =
    (w * q1 + q2 * x + q3 * z - - y * s) ^ 2 + (w * q2 - q1 * x + - y * z + q3 * s) ^ 2 + (w * q3 - - y * x - q1 * z - q2 * s) ^ 2 +
    (w * y - x * q3 + z * q2 - s * q1) ^ 2) by rring.
  rewrite E. pose proof (pow2_ge_0 (w * y - x * q3 + z * q2 - s * q1)). lra.
Qed.
(** Changing the rotor. *)
Lemma rotate_diff : forall (r d : Rotor3 R) (v : Vector3 R),
  vlen (vec_sub (O := RO) (rot_rotate (O := RO) (rot_add (O := RO) r d) v) (rot_rotate (O := RO) r v)) <= rlen d * vlen v * (2 * rlen r + rlen d).
Proof.
  intros r d v.
  replace (vec_sub (O := RO) (rot_rotate (O := RO) (rot_add (O := RO) r d) v) (rot_rotate (O := RO) r v))
    with (vec_add (O := RO) (sand d (rot_add (O := RO) r d) v) (sand r d v)).
  2: { rewrite <- !sand_rotate. destruct r as [w [x y z]], d as [w' [x' y' z']], v as [a b c].
       unfold sand, rot_mul_vec, rot_add, biv_add, vec_add, vec_sub. cbn [a1 a2 a3 t1 fst snd b1 b2 b3 scalar bivector oadd omul osub oneg RO]. veqr. }
  eapply Rle_trans; [apply vlen_add|]. pose proof (sand_len d (rot_add (O := RO) r d) v) as A. pose proof (sand_len r d v) as B.
  pose proof (rlen_add r d) as C. pose proof (rlen_pos d). pose proof (vlen_pos v).
  assert (rlen d * vlen v * rlen (rot_add (O := RO) r d) <= rlen d * vlen v * (rlen r + rlen d)) by (apply Rmult_le_compat_l; [now apply Rmult_le_pos|exact C]).
  lra.
Qed.
