(** * The order facts shared by the three scalar instances (NaN included), proved for
    each of them.  Theorems stated for "any lawful scalars" therefore hold for f32
    with its rounding and NaNs, and for exact arithmetic. *)
From Coq Require Import ZArith Reals Bool Lia Lra.
From Flocq Require Import Core.Core IEEE754.BinarySingleNaN.
From Verif Require Import Scalar Utils F32.
Local Open Scope R_scope.

(** Not NaN *)
Definition num {O : Ops} (x : O) : Prop := oeq x x = true.

Record Laws (O : Ops) : Prop := mkLaws {
  lt_num : forall x y : O, olt x y = true -> num x /\ num y;
  le_num : forall x y : O, ole x y = true -> num x /\ num y;
  lt_irrefl : forall x : O, olt x x = false;
  le_refl : forall x : O, num x -> ole x x = true;
  lt_trans : forall x y z : O, olt x y = true -> olt y z = true -> olt x z = true;
  le_trans : forall x y z : O, ole x y = true -> ole y z = true -> ole x z = true;
  le_lt_trans : forall x y z : O, ole x y = true -> olt y z = true -> olt x z = true;
  lt_le_trans : forall x y z : O, olt x y = true -> ole y z = true -> olt x z = true;
  lt_le : forall x y : O, olt x y = true -> ole x y = true;
  le_not_lt : forall x y : O, ole x y = true -> olt y x = false;
  not_lt_le : forall x y : O, num x -> num y -> olt x y = false -> ole y x = true;
  eps_num : num (@ceps O);
  zero_lt_eps : olt (@c0 O) ceps = true;
  eps_lt_max : olt (@ceps O) cmax = true;
  add_comm : forall x y : O, oadd x y = oadd y x;
  sqr_sub_sym : forall x y : O, omul (osub x y) (osub x y) = omul (osub y x) (osub y x);
  dist_self : forall p : Vec2 O, olt ceps (oabs (distance p p)) = false
}.

Section Derived.
Context {O : Ops} (L : Laws O).

Lemma max_num : num (@cmax O).
Proof. exact (proj2 (lt_num O L _ _ (eps_lt_max O L))). Qed.

Lemma lt_asym : forall x y : O, olt x y = true -> olt y x = false.
Proof. intros x y H. apply (le_not_lt O L), (lt_le O L), H. Qed.

Lemma distance_sym : forall p q : Vec2 O, distance p q = distance q p.
Proof.
  intros p q. unfold distance, p_norm, p_dot, p_sub; simpl.
  now rewrite (sqr_sub_sym O L (vx q)), (sqr_sub_sym O L (vy q)).
Qed.
End Derived.

(** ** Exact reals *)
Lemma Rltb_true : forall x y, Rltb x y = true <-> x < y.
Proof. intros. unfold Rltb. destruct (Rlt_dec x y); split; easy. Qed.
Lemma Rltb_false : forall x y, Rltb x y = false <-> y <= x.
Proof. intros. unfold Rltb. destruct (Rlt_dec x y); split; try easy; intros; lra. Qed.
Lemma Rleb_true : forall x y, Rleb x y = true <-> x <= y.
Proof. intros. unfold Rleb. destruct (Rle_dec x y); split; easy. Qed.
Lemma Rleb_false : forall x y, Rleb x y = false <-> y < x.
Proof. intros. unfold Rleb. destruct (Rle_dec x y); split; try easy; intros; lra. Qed.
Lemma Reqb_true : forall x y, Reqb x y = true <-> x = y.
Proof. intros. unfold Reqb. destruct (Req_EM_T x y); split; easy. Qed.
Lemma Reqb_false : forall x y, Reqb x y = false <-> x <> y.
Proof. intros. unfold Reqb. destruct (Req_EM_T x y); split; easy. Qed.

Ltac rcmp :=
  repeat match goal with
  | H : Rltb _ _ = true |- _ => apply Rltb_true in H
  | H : Rltb _ _ = false |- _ => apply Rltb_false in H
  | H : Rleb _ _ = true |- _ => apply Rleb_true in H
  | H : Rleb _ _ = false |- _ => apply Rleb_false in H
  | H : Reqb _ _ = true |- _ => apply Reqb_true in H
  | H : Reqb _ _ = false |- _ => apply Reqb_false in H
  | |- Rltb _ _ = true => apply Rltb_true
  | |- Rltb _ _ = false => apply Rltb_false
  | |- Rleb _ _ = true => apply Rleb_true
  | |- Rleb _ _ = false => apply Rleb_false
  | |- Reqb _ _ = true => apply Reqb_true
  | |- Reqb _ _ = false => apply Reqb_false
  end.

Lemma eps32_pos : 0 < eps32.
Proof. apply bpow_gt_0. Qed.

Lemma eps32_lt_max32 : eps32 < max32.
Proof.
  unfold eps32, max32.
  apply Rlt_trans with (bpow radix2 104).
  - apply bpow_lt. lia.
  - pose proof (bpow_gt_0 radix2 104). lra.
Qed.

Lemma RO_laws : Laws RO.
Proof.
  split; unfold num; simpl; intros; rcmp; try lra; try (split; rcmp; lra).
  - apply eps32_pos.
  - apply eps32_lt_max32.
  - unfold distance, p_norm, p_dot, p_sub; simpl.
    replace ((vx p - vx p) * (vx p - vx p) + (vy p - vy p) * (vy p - vy p)) with 0 by ring.
    rewrite sqrt_0, Rabs_R0. apply Rlt_le, eps32_pos.
Qed.

Lemma XO_laws : Laws XO.
Proof.
  split; unfold num; simpl; intros;
    repeat match goal with x : X |- _ => destruct x as [x|] end; simpl in *;
    try discriminate; try reflexivity;
    rcmp; try lra; try (split; rcmp; lra); try (f_equal; lra).
  - apply eps32_pos.
  - apply eps32_lt_max32.
  - destruct p as [[x|] [y|]]; unfold distance, p_norm, p_dot, p_sub; simpl; try reflexivity.
    replace ((x - x) * (x - x) + (y - y) * (y - y)) with 0 by ring.
    destruct (Rlt_dec 0 0); [lra|]. simpl. rcmp.
    rewrite sqrt_0, Rabs_R0. apply Rlt_le, eps32_pos.
Qed.

(** ** f32 *)
Lemma num_f32 : forall lm (x : FO lm), num x <-> is_nan x = false.
Proof.
  intros lm x. unfold num. change (Beqb x x = true <-> is_nan x = false).
  rewrite Beqb_refl. destruct (is_nan x); simpl; intuition congruence.
Qed.

Ltac fcmp :=
  repeat match goal with
  | H : Bltb _ _ = true |- _ => apply Bltb_true in H; destruct H as (? & ? & ?)
  | H : Bleb _ _ = true |- _ => apply Bleb_true in H; destruct H as (? & ? & ?)
  | H : Bltb ?x ?y = false |- _ =>
      rewrite (Bltb_ext x y) in H by assumption;
      destruct (Rlt_bool_spec (ext x) (ext y)); [discriminate|clear H]
  | |- Bltb ?x ?y = true => rewrite (Bltb_ext x y) by assumption; apply Rlt_bool_true
  | |- Bleb ?x ?y = true => rewrite (Bleb_ext x y) by assumption; apply Rle_bool_true
  end.

Lemma Bltb_irrefl : forall x : f32, Bltb x x = false.
Proof.
  intros x. destruct (Bltb x x) eqn:E; [|reflexivity]. apply Bltb_true in E. lra.
Qed.

Lemma f32_sqrt_zero_or_nan : forall z : f32,
  z = B754_zero false \/ z = B754_nan ->
  Bltb (f32_of 1 (-23)) (Babs (Bsqrt mode_NE z)) = false.
Proof. intros z [-> | ->]; vm_compute; reflexivity. Qed.

Lemma FO_laws : forall lm, Laws (FO lm).
Proof.
  intros lm. split; intros;
    try match goal with |- num _ /\ num _ => rewrite !num_f32; simpl in *; fcmp; tauto end;
    repeat match goal with H : num _ |- _ => rewrite num_f32 in H end.
  - apply Bltb_irrefl.
  - simpl in *. fcmp. lra.
  - simpl in *. fcmp. lra.
  - simpl in *. fcmp. lra.
  - simpl in *. fcmp. lra.
  - simpl in *. fcmp. lra.
  - simpl in *. fcmp. lra.
  - simpl in *. destruct (Bltb y x) eqn:E; [|reflexivity]. fcmp. lra.
  - simpl in *. fcmp. lra.
  - apply num_f32. reflexivity.
  - vm_compute. reflexivity.
  - vm_compute. reflexivity.
  - apply Bplus_comm.
  - apply Bsqr_minus_sym.
  - destruct p as [px py]. unfold distance, p_norm, p_dot, p_sub. cbn [FO car osub omul oadd osqrt oabs olt ceps vx vy]. apply f32_sqrt_zero_or_nan.
    destruct (Bminus_diag px) as [-> | ->], (Bminus_diag py) as [-> | ->];
      vm_compute; tauto.
Qed.
