(** * The f32 graph code commutes with the eight symmetries of the square. *)
From Coq Require Import ZArith Reals List Bool Lra Lia.
From Flocq Require Import Core.Core IEEE754.BinarySingleNaN.
From Verif Require Import Scalar Utils Polygon Graph GraphSpec PlaneSpec SimSpec F32 IsoSpec MoveSim SymF32.
Import ListNotations.

Local Notation "x ⊕ y" := (Bplus mode_NE x y) (at level 50, left associativity).
Local Notation "x ⊖ y" := (Bminus mode_NE x y) (at level 50, left associativity).
Local Notation "x ⊗ y" := (Bmult mode_NE x y) (at level 40, left associativity).
Local Notation "x ⊘ y" := (Bdiv mode_NE x y) (at level 40, left associativity).

Lemma opp_opp : forall x : f32, Bopp (Bopp x) = x.
Proof. intros [s|s| |s m e H]; cbn [Bopp]; try reflexivity; now rewrite negb_involutive. Qed.
Lemma sub_anti : forall x y : f32, eqs true (x ⊖ y) (y ⊖ x).
Proof.
  intros x y. rewrite !minus_plus. pose proof (plus_opp y (Bopp x)) as H. rewrite opp_opp, Bplus_comm in H. exact H.
Qed.

(** A sign-changing exchange of the coordinates. *)
Definition rel8 (s : sym8) (x' y' x y : f32) : Prop :=
  eqs (flip_x s) x' (if swap s then y else x) /\ eqs (flip_y s) y' (if swap s then x else y).
Definition odd8 (s : sym8) : bool := xorb (swap s) (xorb (flip_x s) (flip_y s)).

Lemma rel8_point : forall s p, rel8 s (vx (sym_point s p)) (vy (sym_point s p)) (vx p) (vy p).
Proof. intros [[|] fx fy] p; unfold rel8, sym_point; cbn [swap flip_x flip_y vx vy]; split; apply eqs_signed. Qed.
Lemma rel8_sub : forall s x' y' x y u' v' u v, rel8 s x' y' x y -> rel8 s u' v' u v ->
  rel8 s (x' ⊖ u') (y' ⊖ v') (x ⊖ u) (y ⊖ v).
Proof. intros [[|] fx fy] x' y' x y u' v' u v [H1 H2] [H3 H4]; split; cbn [swap flip_x flip_y] in *; now apply eqs_sub. Qed.

(** x v - y u, as the code writes it in several places. *)
Lemma rel8_cross : forall s x' y' x y u' v' u v, rel8 s x' y' x y -> rel8 s u' v' u v ->
  eqs (odd8 s) (x' ⊗ v' ⊖ y' ⊗ u') (x ⊗ v ⊖ y ⊗ u).
Proof.
  intros [[|] fx fy] x' y' x y u' v' u v [H1 H2] [H3 H4]; unfold odd8; cbn [swap flip_x flip_y] in *.
  - rewrite (xorb_comm true). apply (eqs_trans (xorb fx fy) true _ (y ⊗ u ⊖ x ⊗ v)); [|apply sub_anti].
    apply eqs_sub; [now apply eqs_mul|]. rewrite (xorb_comm fx fy). now apply eqs_mul.
  - rewrite xorb_false_l. apply eqs_sub; [now apply eqs_mul|]. rewrite (xorb_comm fx fy). now apply eqs_mul.
Qed.
Lemma opp_mul_add : forall p q r t : f32, eqs false (Bopp p ⊗ q ⊕ r ⊗ t) (r ⊗ t ⊖ p ⊗ q).
Proof.
  intros p q r t. rewrite minus_plus, (Bplus_comm (r ⊗ t)). apply eqs_add; [|apply eqs_refl].
  apply (eqs_trans true true _ (p ⊗ q)); [apply mult_opp|apply eqs_neg'].
Qed.
Lemma mul_comm_sub : forall a b c d : f32, a ⊗ b ⊖ c ⊗ d = b ⊗ a ⊖ d ⊗ c.
Proof. intros. now rewrite (Bmult_comm a b), (Bmult_comm c d). Qed.

Section Sym.
Variable (lm : Libm) (s : sym8).
Local Notation F := (FO lm).
Local Notation f := (sym_point s : Vec2 F -> Vec2 F).

Lemma sym_dist : forall a b : Vec2 F, distance (O := F) (f a) (f b) = distance (O := F) a b.
Proof.
  intros a b. unfold distance, p_norm, p_dot, p_sub. cbn [vx vy oadd osub omul osqrt FO]. change (car F) with f32 in *.
  destruct (rel8_sub s _ _ _ _ _ _ _ _ (rel8_point s b) (rel8_point s a)) as [H1 H2].
  apply eqs_sq in H1, H2. f_equal. rewrite H1, H2. destruct (swap s); [apply Bplus_comm|reflexivity].
Qed.

Lemma out_of_range : forall x z : f32, zero z = true -> Bleb (f32_Z 0) (x ⊘ z) && Bleb (x ⊘ z) (f32_Z 1) = false.
Proof.
  intros x [sz|sz| |sz mz ez Hz] Z; try discriminate. destruct x as [sx|sx| |sx mx ex Hx]; try reflexivity;
    destruct sx, sz; reflexivity.
Qed.

Lemma coord_ok : forall b a' a t' t d' d, signed false a' = a' -> eqs b a' a -> eqs false t' t -> eqs b d' d ->
  a' ⊕ t' ⊗ d' = signed b (a ⊕ t ⊗ d).
Proof.
  intros b a' a t' t d' d N Ha Ht Hd. rewrite <- (plus_not_neg0 a' (t' ⊗ d') N).
  apply eqs_add; [exact Ha|]. pose proof (eqs_mul false b t' t d' d Ht Hd) as E. now rewrite xorb_false_l in E.
Qed.
Lemma point_pos : forall p : Vec2 f32, signed false (vx (sym_point s p)) = vx (sym_point s p) /\ signed false (vy (sym_point s p)) = vy (sym_point s p).
Proof.
  assert (E : forall b x, signed false (signed b x) = signed b x) by (intros b x; rewrite signed_signed; now rewrite xorb_false_l).
  intros p. unfold sym_point. destruct (swap s); cbn [vx vy]; split; apply E.
Qed.

Lemma sym_cross : forall a b c d : Vec2 F,
  calculate_line_segment_intersection (O := F) (f a) (f b) (f c) (f d) =
  option_map f (calculate_line_segment_intersection (O := F) a b c d).
Proof.
  intros a b c d. unfold calculate_line_segment_intersection. cbn [oadd osub omul odiv oneg ole c0 c1 FO]. change (car F) with f32 in *.
  pose proof (rel8_sub s _ _ _ _ _ _ _ _ (rel8_point s b) (rel8_point s a)) as R0.
  pose proof (rel8_sub s _ _ _ _ _ _ _ _ (rel8_point s d) (rel8_point s c)) as R1.
  pose proof (rel8_sub s _ _ _ _ _ _ _ _ (rel8_point s a) (rel8_point s c)) as R2.
  pose proof (rel8_point s a) as Ra. destruct (point_pos a) as [Na1 Na2].
  set (a' := sym_point s a) in *. set (b' := sym_point s b) in *. set (c' := sym_point s c) in *. set (d' := sym_point s d) in *.
  set (dx0' := vx b' ⊖ vx a') in *. set (dy0' := vy b' ⊖ vy a') in *. set (dx0 := vx b ⊖ vx a) in *. set (dy0 := vy b ⊖ vy a) in *.
  set (dx1' := vx d' ⊖ vx c') in *. set (dy1' := vy d' ⊖ vy c') in *. set (dx1 := vx d ⊖ vx c) in *. set (dy1 := vy d ⊖ vy c) in *.
  set (ex' := vx a' ⊖ vx c') in *. set (ey' := vy a' ⊖ vy c') in *. set (ex := vx a ⊖ vx c) in *. set (ey := vy a ⊖ vy c) in *.
  assert (Hden : eqs (odd8 s) (Bopp dx1' ⊗ dy0' ⊕ dx0' ⊗ dy1') (Bopp dx1 ⊗ dy0 ⊕ dx0 ⊗ dy1)).
  { apply (eqs_trans0 _ _ _ _ (opp_mul_add _ _ _ _)). rewrite <- (xorb_false_r (odd8 s)).
    apply (eqs_trans (odd8 s) false _ (dx0 ⊗ dy1 ⊖ dx1 ⊗ dy0)); [|apply eqs_sym, opp_mul_add].
    rewrite (Bmult_comm dx1'), (Bmult_comm dx1). now apply rel8_cross. }
  assert (Hs : eqs (odd8 s) (Bopp dy0' ⊗ ex' ⊕ dx0' ⊗ ey') (Bopp dy0 ⊗ ex ⊕ dx0 ⊗ ey)).
  { apply (eqs_trans0 _ _ _ _ (opp_mul_add _ _ _ _)). rewrite <- (xorb_false_r (odd8 s)).
    apply (eqs_trans (odd8 s) false _ (dx0 ⊗ ey ⊖ dy0 ⊗ ex)); [|apply eqs_sym, opp_mul_add].
    now apply rel8_cross. }
  assert (Ht : eqs (odd8 s) (dx1' ⊗ ey' ⊖ dy1' ⊗ ex') (dx1 ⊗ ey ⊖ dy1 ⊗ ex)) by now apply rel8_cross.
  set (den' := Bopp dx1' ⊗ dy0' ⊕ dx0' ⊗ dy1') in *. set (den := Bopp dx1 ⊗ dy0 ⊕ dx0 ⊗ dy1) in *.
  set (sn' := Bopp dy0' ⊗ ex' ⊕ dx0' ⊗ ey') in *. set (sn := Bopp dy0 ⊗ ex ⊕ dx0 ⊗ ey) in *.
  set (tn' := dx1' ⊗ ey' ⊖ dy1' ⊗ ex') in *. set (tn := dx1 ⊗ ey ⊖ dy1 ⊗ ex) in *.
  destruct (zero den) eqn:Z.
  - rewrite (out_of_range sn den Z), (out_of_range sn' den' (eq_trans (eqs_zero _ _ _ Hden) Z)). reflexivity.
  - pose proof (eqs_div _ _ _ _ _ _ Hs Hden Z) as Qs. pose proof (eqs_div _ _ _ _ _ _ Ht Hden Z) as Qt.
    rewrite xorb_nilpotent in Qs, Qt.
    rewrite (eqs_le _ _ _ _ (eqs_refl (f32_Z 0)) Qs), (eqs_le _ _ _ _ Qs (eqs_refl (f32_Z 1))).
    rewrite (eqs_le _ _ _ _ (eqs_refl (f32_Z 0)) Qt), (eqs_le _ _ _ _ Qt (eqs_refl (f32_Z 1))).
    destruct (Bleb (f32_Z 0) (sn ⊘ den) && Bleb (sn ⊘ den) (f32_Z 1) && Bleb (f32_Z 0) (tn ⊘ den) && Bleb (tn ⊘ den) (f32_Z 1)); [|reflexivity].
    cbn [option_map]. f_equal. unfold sym_point at 1. cbn [vx vy].
    destruct Ra as [Ra1 Ra2], R0 as [R01 R02].
    rewrite (coord_ok _ _ _ _ _ _ _ Na1 Ra1 Qt R01), (coord_ok _ _ _ _ _ _ _ Na2 Ra2 Qt R02).
    destruct (swap s); reflexivity.
Qed.

Theorem sym_calls : forall (T U : Type) (dT : T) os (g : PlanarGraph F T U),
  calls dT (move_graph f g) (map (move_op f) os) = move_out f (calls dT g os).
Proof. intros T U dT os g. apply mv_calls; [exact sym_dist|exact sym_cross]. Qed.
End Sym.
