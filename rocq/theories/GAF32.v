(** * src/math, the approx impls and Line in f32. *)
From Coq Require Import List Bool Reals Lra Lia ZArith.
From Flocq Require Import Core.Core IEEE754.BinarySingleNaN.
From Verif Require Import Scalar GA Approx Line F32 Laws.
Import ListNotations.

(** ** Bitwise symmetry of the dot products *)
Lemma Bmult_opp_l : forall x y : f32, Bmult mode_NE (Bopp x) y = Bmult mode_NE x (Bopp y).
Proof.
  intros [sx|sx| |sx mx ex Hx] [sy|sy| |sy my ey Hy]; try reflexivity;
    try (simpl; now destruct sx, sy).
  apply B2SF_inj. unfold Bopp, Bmult. rewrite !B2SF_SF2B.
  now destruct sx, sy.
Qed.
Section Sym.
Variable lm : Libm.
Local Notation F := (FO lm).
Lemma f32_vec_dot_sym : forall u v : Vector3 F, vec_dot u v = vec_dot v u.
Proof.
  intros [x y z] [x' y' z']. unfold vec_dot. cbn [a1 a2 a3 oadd omul FO].
  now rewrite (Bmult_comm x x'), (Bmult_comm y y'), (Bmult_comm z z').
Qed.
Lemma f32_biv_dot_sym : forall u v : Bivector3 F, biv_dot u v = biv_dot v u.
Proof.
  intros [x y z] [x' y' z']. unfold biv_dot. cbn [b1 b2 b3 oadd omul oneg FO].
  now rewrite (Bmult_comm x x'), (Bmult_comm y y'), (Bmult_comm z z').
Qed.
Lemma f32_tri_dot_sym : forall u v : Trivector3 F, tri_dot u v = tri_dot v u.
Proof.
  intros [x] [y]. unfold tri_dot. cbn [t1 omul oneg FO].
  now rewrite Bmult_opp_l, Bmult_comm.
Qed.
Lemma f32_rot_dot_sym : forall u v : Rotor3 F, rot_dot u v = rot_dot v u.
Proof.
  intros [a B] [b C]. unfold rot_dot. cbn [scalar bivector]. rewrite f32_biv_dot_sym.
  cbn [omul FO]. now rewrite (Bmult_comm a b).
Qed.
Lemma f32_angle_sym : forall u v : Vector3 F, vec_angle u v = vec_angle v u.
Proof. intros u v. unfold vec_angle. now rewrite f32_vec_dot_sym. Qed.

(** ** is_zero *)
Lemma f32_sc_zero : forall x : f32, sc_is_zero (O := F) x = true <-> B2R x = 0%R /\ is_finite x = true.
Proof.
  intros x. unfold sc_is_zero. cbn [oeq c0 FO]. change (f32_Z 0) with (B754_zero false : f32).
  destruct x as [s|[|]| |s m e H]; simpl; try (split; [intros; now split|reflexivity]);
    try (split; [discriminate|intros [_ ?]; discriminate]).
  split; [now destruct s|]. intros [E _]. exfalso.
  unfold F2R in E. simpl in E. pose proof (bpow_gt_0 radix2 e).
  apply Rmult_integral in E. destruct E as [E|E]; [|lra]. now apply eq_IZR in E; destruct s.
Qed.
End Sym.

(** ** The scalar comparisons *)
Lemma Beqb_sym : forall x y : f32, Beqb x y = Beqb y x.
Proof.
  intros x y. destruct (is_nan x) eqn:Nx.
  { destruct (cmp_nan x y (or_introl Nx)) as (_ & _ & ->). now destruct (cmp_nan y x (or_intror Nx)) as (_ & _ & ->). }
  destruct (is_nan y) eqn:Ny.
  { destruct (cmp_nan x y (or_intror Ny)) as (_ & _ & ->). now destruct (cmp_nan y x (or_introl Ny)) as (_ & _ & ->). }
  rewrite !Beqb_ext by assumption. destruct (Req_bool_spec (ext x) (ext y)), (Req_bool_spec (ext y) (ext x)); congruence.
Qed.
Lemma abs_diff_sym : forall x y eps : f32, f32_abs_diff_eq x y eps = f32_abs_diff_eq y x eps.
Proof. intros. unfold f32_abs_diff_eq. now rewrite Babs_minus_sym. Qed.

Lemma Babs_nonneg_inj : forall x y : f32, is_nan x = false -> is_nan y = false ->
  ext (Babs x) = ext (Babs y) -> Babs x = Babs y.
Proof.
  intros x y Nx Ny H.
  destruct (is_finite x) eqn:Fx, (is_finite y) eqn:Fy.
  - apply Babs_eq_finite; try assumption.
    rewrite !ext_finite in H by now rewrite is_finite_Babs. now rewrite !B2R_Babs in H.
  - destruct y as [sy|sy| |sy my ey Hy]; try discriminate. exfalso.
    rewrite ext_finite in H by now rewrite is_finite_Babs. pose proof (finite_bound (Babs x)) as B.
    change (ext (Babs (B754_infinity sy))) with (bpow radix2 128) in H. rewrite H in B. lra.
  - destruct x as [sy|sy| |sy my ey Hy]; try discriminate. exfalso.
    rewrite (ext_finite (Babs y)) in H by now rewrite is_finite_Babs. pose proof (finite_bound (Babs y)) as B.
    change (ext (Babs (B754_infinity sy))) with (bpow radix2 128) in H. rewrite <- H in B. lra.
  - destruct x as [sx|sx| |sx mx ex Hx]; try discriminate. destruct y as [sy|sy| |sy my ey Hy]; try discriminate. reflexivity.
Qed.

Lemma relative_sym : forall x y eps mr : f32, f32_relative_eq x y eps mr = f32_relative_eq y x eps mr.
Proof.
  intros x y eps mr. unfold f32_relative_eq. rewrite (Beqb_sym x y), (orb_comm (f32_is_infinite x)), (Babs_minus_sym x y).
  destruct (Beqb y x); [reflexivity|]. destruct (_ || _); [reflexivity|]. destruct (Bleb _ eps); [reflexivity|].
  destruct (is_nan x) eqn:Nx.
  { destruct x; try discriminate. destruct y; reflexivity. }
  destruct (is_nan y) eqn:Ny.
  { destruct y; try discriminate. destruct x; reflexivity. }
  assert (Ax : is_nan (Babs x) = false) by now destruct x.
  assert (Ay : is_nan (Babs y) = false) by now destruct y.
  rewrite !Bltb_ext by assumption.
  destruct (Rlt_bool_spec (ext (Babs x)) (ext (Babs y))), (Rlt_bool_spec (ext (Babs y)) (ext (Babs x))); try reflexivity.
  - lra.
  - rewrite (Babs_nonneg_inj x y); [reflexivity|assumption|assumption|lra].
Qed.
Lemma ulps_sym : forall x y eps mu, f32_ulps_eq x y eps mu = f32_ulps_eq y x eps mu.
Proof.
  intros. unfold f32_ulps_eq. rewrite (abs_diff_sym x y), (Beqb_sym (f32_signum x)).
  replace (f32_bits y - f32_bits x)%Z with (- (f32_bits x - f32_bits y))%Z by lia. now rewrite Z.abs_opp.
Qed.

Lemma abs_diff_refl : forall x eps : f32, is_finite x = true -> Bleb (B754_zero false) eps = true ->
  f32_abs_diff_eq x x eps = true.
Proof.
  intros x eps F H. unfold f32_abs_diff_eq.
  destruct (Bminus_diag x) as [-> | E]; [exact H|]. exfalso.
  pose proof (Bminus_correct 24 128 _ _ mode_NE x x F F) as C. rewrite E in C.
  replace (B2R x - B2R x)%R with 0%R in C by ring.
  rewrite (round_0 radix2 _ (round_mode mode_NE)), Rabs_R0, Rlt_bool_true in C by apply bpow_gt_0.
  now destruct C as (_ & C & _).
Qed.
Lemma relative_refl : forall x eps mr : f32, is_nan x = false -> f32_relative_eq x x eps mr = true.
Proof. intros x eps mr N. unfold f32_relative_eq. now rewrite Beqb_refl, N. Qed.
Lemma ulps_refl : forall x eps mu, is_nan x = false -> (0 <= mu)%Z -> f32_ulps_eq x x eps mu = true.
Proof.
  intros x eps mu N H. unfold f32_ulps_eq. destruct (f32_abs_diff_eq x x eps); [reflexivity|].
  rewrite Beqb_refl.
  assert (is_nan (f32_signum x) = false) as -> by (unfold f32_signum; rewrite N; now destruct (Bsign x)).
  cbn [negb]. rewrite Z.sub_diag. now apply Z.leb_le.
Qed.

Lemma Bminus_nan : forall x y : f32, is_nan x = true \/ is_nan y = true -> Bminus mode_NE x y = B754_nan.
Proof. intros x y [H|H]; [destruct x|destruct y]; try discriminate; [reflexivity|now destruct x]. Qed.
Lemma abs_diff_nan : forall x y eps, is_nan x = true \/ is_nan y = true -> f32_abs_diff_eq x y eps = false.
Proof. intros x y eps H. unfold f32_abs_diff_eq. now rewrite Bminus_nan. Qed.
Lemma relative_nan : forall x y eps mr, is_nan x = true \/ is_nan y = true -> f32_relative_eq x y eps mr = false.
Proof.
  intros x y eps mr H. unfold f32_relative_eq. rewrite (proj2 (proj2 (cmp_nan x y H))), (Bminus_nan x y H).
  destruct (_ || _); reflexivity.
Qed.
Lemma ulps_nan : forall x y eps mu, is_nan x = true \/ is_nan y = true -> f32_ulps_eq x y eps mu = false.
Proof.
  intros x y eps mu H. unfold f32_ulps_eq. rewrite abs_diff_nan by assumption.
  assert (K : is_nan (f32_signum x) = true \/ is_nan (f32_signum y) = true).
  { unfold f32_signum. destruct H as [H|H]; rewrite H; tauto. }
  now rewrite (proj2 (proj2 (cmp_nan _ _ K))).
Qed.

(** ** Comparing with zero: the bit-distance test adds nothing *)
Lemma Bminus_zero : forall x : f32, Babs (Bminus mode_NE x (B754_zero false)) = Babs x.
Proof. intros [s|s| |s m e H]; try reflexivity; now destruct s. Qed.
Lemma ulps_zero : forall x : f32, f32_ulps_eq x (B754_zero false) (f32_of 1 (-23)) 4 = Bleb (Babs x) (f32_of 1 (-23)).
Proof.
  intros x. unfold f32_ulps_eq, f32_abs_diff_eq. rewrite Bminus_zero.
  destruct (Bleb (Babs x) (f32_of 1 (-23))) eqn:E; [reflexivity|].
  destruct (negb _) eqn:S; [reflexivity|]. apply Z.leb_gt. apply Z.lt_nge. intros B.
  destruct x as [s|s| |s m e H]; try discriminate.
  - destruct s; vm_compute in S, B; [discriminate S|]. now apply B.
  - destruct s; [vm_compute in S; discriminate S|]. clear S.
    cbv [f32_bits Bsign] in B. rewrite Z.sub_0_r in B.
    pose proof H as H'. unfold SpecFloat.bounded, SpecFloat.canonical_mantissa in H'.
    apply andb_true_iff in H'. destruct H' as [C _]. apply Zeq_bool_eq in C.
    unfold SpecFloat.fexp, SpecFloat.emin in C.
    assert (He : (-149 <= e)%Z) by lia.
    destruct (Z.ltb_spec (Zpos m) (2 ^ 23)) as [L|L].
    + assert (e = -149)%Z.
      { rewrite Digits.Zpos_digits2_pos in C. pose proof (Digits.Zdigits_le_Zpower radix2 23 (Zpos m)) as D.
        change (Zpower radix2 23) with (2 ^ 23)%Z in D. rewrite Z.abs_eq in D by lia. specialize (D L). lia. }
      subst e.
      rewrite Bleb_correct in E by reflexivity.
      destruct (Rle_bool_spec (B2R (Babs (B754_finite false m (-149) H : f32))) (B2R (f32_of 1 (-23)))) as [|G]; [discriminate|].
      clear E. revert G. apply Rle_not_lt.
      assert (V : B2R (f32_of 1 (-23)) = bpow radix2 (-23)) by (vm_compute; lra).
      rewrite V. unfold Babs, B2R, F2R, Fnum, Fexp, cond_Zopp.
      assert (Hm : (Z.pos m <= 4)%Z) by lia. apply IZR_le in Hm.
      apply Rle_trans with (4 * bpow radix2 (-149))%R.
      * apply Rmult_le_compat_r; [apply bpow_ge_0|exact Hm].
      * change 4%R with (bpow radix2 2). rewrite <- bpow_plus. apply bpow_le. lia.
    + assert (2 ^ 23 <= (e + 150) * 2 ^ 23 + (Z.pos m - 2 ^ 23))%Z by nia. lia.
Qed.

(** ** Line::contains *)
Lemma contains_f32 : forall lm (l : Line f32) x, line_contains lm l x = true <->
  let b := line_bivector (O := FO lm) l x in
  Bleb (Babs (b1 b)) (f32_of 1 (-23)) = true /\ Bleb (Babs (b2 b)) (f32_of 1 (-23)) = true /\
  Bleb (Babs (b3 b)) (f32_of 1 (-23)) = true.
Proof.
  intros lm l x. cbv zeta. unfold line_contains, biv_ulps_eq, biv_approx.
  rewrite !andb_true_iff.
  change (@biv_zero (FO lm)) with (B3 (B754_zero false : f32) (B754_zero false) (B754_zero false)).
  cbn [b1 b2 b3 ceps FO]. rewrite !ulps_zero. tauto.
Qed.
Lemma mult_zero_finite : forall d : f32, is_finite d = true -> exists s, Bmult mode_NE (B754_zero false) d = (B754_zero s : f32).
Proof. intros [s|s| |s m e H]; try discriminate; intros _; eexists; reflexivity. Qed.
Lemma contains_base : forall lm (l : Line f32),
  is_finite (a1 (lpoint l)) = true -> is_finite (a2 (lpoint l)) = true -> is_finite (a3 (lpoint l)) = true ->
  is_finite (a1 (ldirection l)) = true -> is_finite (a2 (ldirection l)) = true -> is_finite (a3 (ldirection l)) = true ->
  line_contains lm l (lpoint l) = true.
Proof.
  intros lm [[p q r] [x y z]]. cbn [lpoint ldirection a1 a2 a3]. intros P1 P2 P3 D1 D2 D3.
  assert (Z0 : forall p : f32, is_finite p = true -> Bminus mode_NE p p = B754_zero false).
  { clear. intros p F. destruct (Bminus_diag p) as [E|E]; [exact E|exfalso].
    pose proof (abs_diff_refl p (B754_zero false) F eq_refl) as K. unfold f32_abs_diff_eq in K. rewrite E in K. discriminate. }
  apply contains_f32. cbv zeta. unfold line_bivector, vec_wedge, vec_sub.
  cbn [lpoint ldirection a1 a2 a3 b1 b2 b3 osub omul FO]. rewrite !Z0 by assumption.
  destruct (mult_zero_finite x D1) as [s1 ->], (mult_zero_finite y D2) as [s2 ->], (mult_zero_finite z D3) as [s3 ->].
  destruct s1, s2, s3; vm_compute; auto.
Qed.
Lemma Bmult_nan : forall x y : f32, is_nan x = true \/ is_nan y = true -> Bmult mode_NE x y = B754_nan.
Proof. intros x y [H|H]; [destruct x|destruct y]; try discriminate; [reflexivity|now destruct x]. Qed.
Lemma contains_nan : forall lm (l : Line f32) x, line_contains lm l x = true ->
  is_nan (a1 x) = false /\ is_nan (a2 x) = false /\ is_nan (a3 x) = false /\
  is_nan (a1 (lpoint l)) = false /\ is_nan (a2 (lpoint l)) = false /\ is_nan (a3 (lpoint l)) = false /\
  is_nan (a1 (ldirection l)) = false /\ is_nan (a2 (ldirection l)) = false /\ is_nan (a3 (ldirection l)) = false.
Proof.
  intros lm [[p q r] [d e f]] [x y z] H. apply contains_f32 in H. cbv zeta in H.
  unfold line_bivector, vec_wedge, vec_sub in H.
  cbn [lpoint ldirection a1 a2 a3 b1 b2 b3 osub omul FO] in *.
  assert (A : forall u : f32, Bleb (Babs u) (f32_of 1 (-23)) = true -> is_nan u = false) by (now intros []).
  assert (S : forall u v : f32, is_nan (Bminus mode_NE u v) = false -> is_nan u = false /\ is_nan v = false).
  { intros u v K. destruct (is_nan u) eqn:U; [now rewrite Bminus_nan in K by tauto|].
    destruct (is_nan v) eqn:V; [now rewrite Bminus_nan in K by tauto|]. tauto. }
  assert (M : forall u v : f32, is_nan (Bmult mode_NE u v) = false -> is_nan u = false /\ is_nan v = false).
  { intros u v K. destruct (is_nan u) eqn:U; [now rewrite Bmult_nan in K by tauto|].
    destruct (is_nan v) eqn:V; [now rewrite Bmult_nan in K by tauto|]. tauto. }
  destruct H as (H1 & H2 & H3). apply A, S in H1. apply A, S in H2. clear H3 A.
  destruct H1 as [H1 H1'], H2 as [H2 H2']. apply M in H1. apply M in H1'. apply M in H2. apply M in H2'.
  destruct H1 as [H1 E1], H1' as [H3 E2], H2 as [_ E3], H2' as [H4 _]. apply S in H1. apply S in H3. apply S in H4. tauto.
Qed.

Lemma is_zero_f32 : forall lm,
  let z (x : f32) := x = B754_zero true \/ x = B754_zero false in
  (forall u : Vector3 (FO lm), vec_is_zero u = true <-> z (a1 u) /\ z (a2 u) /\ z (a3 u)) /\
  (forall u : Bivector3 (FO lm), biv_is_zero u = true <-> z (b1 u) /\ z (b2 u) /\ z (b3 u)) /\
  (forall u : Trivector3 (FO lm), tri_is_zero u = true <-> z (t1 u)).
Proof.
  intros lm z.
  assert (Z : forall x : f32, sc_is_zero (O := FO lm) x = true <-> z x).
  { intros x. unfold z, sc_is_zero. cbn [oeq c0 FO]. change (f32_Z 0) with (B754_zero false : f32).
    destruct x as [[]|[]| |[] m e H]; simpl; split; intros K; try discriminate; try tauto;
      destruct K; discriminate. }
  split; [|split].
  - intros u. unfold vec_is_zero. rewrite !andb_true_iff, (Z (a1 u)), (Z (a2 u)), (Z (a3 u)). tauto.
  - intros u. unfold biv_is_zero. rewrite !andb_true_iff, (Z (b1 u)), (Z (b2 u)), (Z (b3 u)). tauto.
  - intros u. unfold tri_is_zero. apply Z.
Qed.
