(** * The helper functions in f32 under the eight symmetries of the square. *)
From Coq Require Import ZArith Reals List Bool Lra Lia.
From Flocq Require Import Core.Core IEEE754.BinarySingleNaN.
From Verif Require Import Scalar Utils Polygon Graph GraphSpec PlaneSpec SimSpec F32 GAF32 IsoSpec MoveSim SymF32 SymMove PolyIso HelperSpec.
Import ListNotations.

Local Notation "x ⊕ y" := (Bplus mode_NE x y) (at level 50, left associativity).
Local Notation "x ⊖ y" := (Bminus mode_NE x y) (at level 50, left associativity).
Local Notation "x ⊗ y" := (Bmult mode_NE x y) (at level 40, left associativity).
Local Notation "x ⊘ y" := (Bdiv mode_NE x y) (at level 40, left associativity).

Lemma rel8_add : forall s x' y' x y u' v' u v, rel8 s x' y' x y -> rel8 s u' v' u v -> rel8 s (x' ⊕ u') (y' ⊕ v') (x ⊕ u) (y ⊕ v).
Proof. intros [[|] fx fy] x' y' x y u' v' u v [H1 H2] [H3 H4]; split; cbn [swap flip_x flip_y] in *; now apply eqs_add. Qed.
Lemma rel8_scale : forall s x' y' x y t, rel8 s x' y' x y -> rel8 s (x' ⊗ t) (y' ⊗ t) (x ⊗ t) (y ⊗ t).
Proof. intros [[|] fx fy] x' y' x y t [H1 H2]; split; cbn [swap flip_x flip_y] in *; now apply eqs_mul_l. Qed.
Lemma rel8_scale_l : forall s x' y' x y t, rel8 s x' y' x y -> rel8 s (t ⊗ x') (t ⊗ y') (t ⊗ x) (t ⊗ y).
Proof. intros s x' y' x y t H. rewrite !(Bmult_comm t). now apply rel8_scale. Qed.
Lemma rel8_div : forall s x' y' x y t, rel8 s x' y' x y -> rel8 s (x' ⊘ t) (y' ⊘ t) (x ⊘ t) (y ⊘ t).
Proof. intros [[|] fx fy] x' y' x y t [H1 H2]; split; cbn [swap flip_x flip_y] in *; now apply eqs_div_l. Qed.
Lemma rel8_same : forall s x' y' x y, rel8 s x' y' x y -> same_point (P2 x' y') (sym_point s (P2 x y)).
Proof.
  intros [[|] fx fy] x' y' x y [H1 H2]; unfold same_point, sym_point; cbn [swap flip_x flip_y vx vy] in *; unfold eqs in *; rewrite !signed_signed, !xorb_false_l; now f_equal.
Qed.
Lemma rel8_dot : forall s x' y' x y u' v' u v, rel8 s x' y' x y -> rel8 s u' v' u v ->
  eqs false (x' ⊗ u' ⊕ y' ⊗ v') (x ⊗ u ⊕ y ⊗ v).
Proof.
  intros [[|] fx fy] x' y' x y u' v' u v [H1 H2] [H3 H4]; cbn [swap flip_x flip_y] in *.
  - rewrite (Bplus_comm (x ⊗ u)). apply eqs_add; [rewrite <- (xorb_nilpotent fx)|rewrite <- (xorb_nilpotent fy)]; now apply eqs_mul.
  - apply eqs_add; [rewrite <- (xorb_nilpotent fx)|rewrite <- (xorb_nilpotent fy)]; now apply eqs_mul.
Qed.
Lemma rel8_sq : forall s x' y' x y, rel8 s x' y' x y -> x' ⊗ x' ⊕ y' ⊗ y' = x ⊗ x ⊕ y ⊗ y.
Proof.
  intros [[|] fx fy] x' y' x y [H1 H2]; cbn [swap flip_x flip_y] in *; apply eqs_sq in H1, H2; rewrite H1, H2; [apply Bplus_comm|reflexivity].
Qed.

Section Sym.
Variable (lm : Libm) (s : sym8).
Local Notation F := (FO lm).
Local Notation f := (sym_point s : Vec2 F -> Vec2 F).

Lemma h_parallel : forall a b c d : Vec2 F, parallel (f a) (f b) (f c) (f d) = parallel a b c d.
Proof.
  intros a b c d. unfold parallel, normalize_dot, p_div, p_norm, p_dot, p_sub. cbn [vx vy oadd osub omul odiv oabs osqrt olt ceps c1 FO]. change (car F) with f32 in *.
  pose proof (rel8_sub s _ _ _ _ _ _ _ _ (rel8_point s b) (rel8_point s a)) as R0.
  pose proof (rel8_sub s _ _ _ _ _ _ _ _ (rel8_point s d) (rel8_point s c)) as R1.
  rewrite (rel8_sq _ _ _ _ _ R0), (rel8_sq _ _ _ _ _ R1).
  pose proof (rel8_dot _ _ _ _ _ _ _ _ _ (rel8_div _ _ _ _ _ (Bsqrt mode_NE ((vx b ⊖ vx a) ⊗ (vx b ⊖ vx a) ⊕ (vy b ⊖ vy a) ⊗ (vy b ⊖ vy a))) R0)
    (rel8_div _ _ _ _ _ (Bsqrt mode_NE ((vx d ⊖ vx c) ⊗ (vx d ⊖ vx c) ⊕ (vy d ⊖ vy c) ⊗ (vy d ⊖ vy c))) R1)) as Q.
  apply eqs_abs in Q. now rewrite Q.
Qed.
Lemma h_degenerate : forall a b c : Vec2 F, is_degenerate_triangle (f a) (f b) (f c) = is_degenerate_triangle a b c.
Proof. intros a b c. unfold is_degenerate_triangle. now rewrite !sym_dist. Qed.
Lemma h_incenter : forall a b c : Vec2 F,
  match calculate_triangle_incenter a b c, calculate_triangle_incenter (f a) (f b) (f c) with
  | Some (q, r), Some (q', r') => same_point q' (f q) /\ r' = r
  | None, None => True
  | _, _ => False
  end.
Proof.
  intros a b c. unfold calculate_triangle_incenter. rewrite h_degenerate. destruct (is_degenerate_triangle a b c); [exact I|]. rewrite !sym_dist.
  split; [|reflexivity]. cbn [oadd osub omul odiv c1 FO]. change (car F) with f32 in *. apply rel8_same.
  apply rel8_scale. repeat apply rel8_add; apply rel8_scale_l; apply rel8_point.
Qed.
Lemma h_midpoint : forall a b : Vec2 F, same_point (calculate_midpoint (f a) (f b)) (f (calculate_midpoint a b)).
Proof.
  intros a b. unfold calculate_midpoint, p_scale, p_add. cbn [vx vy oadd omul FO]. change (car F) with f32 in *. apply rel8_same, rel8_scale, rel8_add; apply rel8_point.
Qed.
Lemma h_perp : forall a b p : Vec2 F,
  same_point (calculate_perpendicular_point (f a) (f b) (f p)) (f (calculate_perpendicular_point a b p)).
Proof.
  intros a b p. unfold calculate_perpendicular_point, powf2. cbn [oadd osub omul odiv FO]. change (car F) with f32 in *.
  pose proof (rel8_sub s _ _ _ _ _ _ _ _ (rel8_point s b) (rel8_point s a)) as R0.
  pose proof (rel8_sub s _ _ _ _ _ _ _ _ (rel8_point s p) (rel8_point s a)) as R1. pose proof (rel8_point s p) as Rp.
  set (a' := sym_point s a) in *. set (b' := sym_point s b) in *. set (p' := sym_point s p) in *.
  set (dx' := vx b' ⊖ vx a') in *. set (dy' := vy b' ⊖ vy a') in *. set (dx := vx b ⊖ vx a) in *. set (dy := vy b ⊖ vy a) in *.
  set (ex' := vx p' ⊖ vx a') in *. set (ey' := vy p' ⊖ vy a') in *. set (ex := vx p ⊖ vx a) in *. set (ey := vy p ⊖ vy a) in *.
  assert (Hd : dy' ⊗ dy' ⊕ dx' ⊗ dx' = dy ⊗ dy ⊕ dx ⊗ dx).
  { rewrite (Bplus_comm (dy' ⊗ dy')), (Bplus_comm (dy ⊗ dy)). exact (rel8_sq _ _ _ _ _ R0). }
  assert (Hn : eqs (odd8 s) (dy' ⊗ ex' ⊖ dx' ⊗ ey') (dy ⊗ ex ⊖ dx ⊗ ey)).
  { rewrite (mul_comm_sub dy'), (mul_comm_sub dy). exact (rel8_cross s _ _ _ _ _ _ _ _ R1 R0). }
  rewrite Hd. pose proof (eqs_div_l _ _ _ (dy ⊗ dy ⊕ dx ⊗ dx) Hn) as Hk.
  set (k' := (dy' ⊗ ex' ⊖ dx' ⊗ ey') ⊘ (dy ⊗ dy ⊕ dx ⊗ dx)) in *. set (k := (dy ⊗ ex ⊖ dx ⊗ ey) ⊘ (dy ⊗ dy ⊕ dx ⊗ dx)) in *.
  apply rel8_same. clearbody k k' dx dy dx' dy' ex ey ex' ey'. clear Hd Hn R1. destruct s as [[|] fx fy]; destruct R0 as [R1 R2], Rp as [P1 P2];
    unfold odd8 in Hk; split; cbn [swap flip_x flip_y] in *.
  - rewrite minus_plus. apply eqs_add; [exact P1|]. rewrite <- (negb_involutive fx), <- (xorb_true_l (negb fx)). apply (eqs_trans true (negb fx) _ (k' ⊗ dy')); [apply eqs_neg|].
    replace (negb fx) with (xorb (xorb true (xorb fx fy)) fy) by (destruct fx, fy; reflexivity). now apply eqs_mul.
  - rewrite minus_plus. apply eqs_add; [exact P2|]. replace fy with (xorb (negb fy) true) at 1 by (destruct fy; reflexivity).
    apply (eqs_trans (negb fy) true _ (k ⊗ dy)); [|apply eqs_neg']. replace (negb fy) with (xorb (xorb true (xorb fx fy)) fx) by (destruct fx, fy; reflexivity). now apply eqs_mul.
  - apply eqs_sub; [exact P1|]. replace fx with (xorb (xorb false (xorb fx fy)) fy) at 1 by (destruct fx, fy; reflexivity). now apply eqs_mul.
  - apply eqs_add; [exact P2|]. replace fy with (xorb (xorb false (xorb fx fy)) fx) at 1 by (destruct fx, fy; reflexivity). now apply eqs_mul.
Qed.
(** The sum starts at (+0, +0). *)
Lemma h_center : forall p : Polygon F, same_point (polygon_center (move_poly f p)) (f (polygon_center p)).
Proof.
  intros [vs]. unfold polygon_center, move_poly, p_div. cbn [vertices]. rewrite map_length. cbn [odiv c0 ofnat FO]. change (car F) with f32 in *.
  set (n := f32_Z (Z.of_nat (length vs))) in *. clearbody n. apply rel8_same, rel8_div.
  enough (G : forall vs (q' q : Vec2 f32), rel8 s (vx q') (vy q') (vx q) (vy q) ->
    rel8 s (vx (fold_left (p_add (O := F)) (map f vs) q')) (vy (fold_left (p_add (O := F)) (map f vs) q')) (vx (fold_left (p_add (O := F)) vs q)) (vy (fold_left (p_add (O := F)) vs q))).
  { apply G. destruct s as [[|] [|] [|]]; split; reflexivity. }
  clear. induction vs as [|v vs IH]; intros q' q R; cbn [map fold_left]; [exact R|]. apply IH. unfold p_add. cbn [vx vy oadd FO]. apply rel8_add; [exact R|apply rel8_point].
Qed.
Lemma h_translate : forall (p : Polygon F) t, Forall2 same_point (vertices (polygon_translate (move_poly f p) (f t))) (map f (vertices (polygon_translate p t))).
Proof.
  intros [vs] t. unfold polygon_translate, move_poly. cbn [vertices]. induction vs as [|v vs IH]; cbn [map]; constructor; [|exact IH].
  unfold p_add. cbn [oadd FO]. apply rel8_same, rel8_add; apply rel8_point.
Qed.
Lemma h_scale : forall (p : Polygon F) t, Forall2 same_point (vertices (polygon_uniform_scale (move_poly f p) t)) (map f (vertices (polygon_uniform_scale p t))).
Proof.
  intros [vs] t. unfold polygon_uniform_scale, move_poly. cbn [vertices]. induction vs as [|v vs IH]; cbn [map]; constructor; [|exact IH].
  unfold p_scale. cbn [omul FO]. apply rel8_same, rel8_scale, rel8_point.
Qed.
(** The bisector without exchange of the coordinates; the offset changes sign with x. *)
Lemma h_bisector : forall (a b : Vec2 F) o, swap s = false -> zero (vx b ⊖ vx a) = false -> zero ((vy b ⊖ vy a) ⊘ (vx b ⊖ vx a)) = false ->
  let r' := calculate_perpendicular_bisector (f a) (f b) (signed (flip_x s) o) in let r := calculate_perpendicular_bisector a b o in
  same_point (fst r') (f (fst r)) /\ same_point (snd r') (f (snd r)).
Proof.
  intros a b o Sw Zx Zs r' r. split; [apply h_midpoint|]. subst r r'. unfold calculate_perpendicular_bisector, calculate_midpoint, p_scale, p_add. cbn [fst snd vx vy oadd osub omul odiv oneg c1 c0 chalf FO].
  change (car F) with f32 in *. apply rel8_same.
  pose proof (rel8_sub s _ _ _ _ _ _ _ _ (rel8_point s b) (rel8_point s a)) as R0.
  pose proof (rel8_scale s _ _ _ _ (f32_of 1 (-1)) (rel8_add s _ _ _ _ _ _ _ _ (rel8_point s a) (rel8_point s b))) as Rm.
  set (a' := sym_point s a) in *. set (b' := sym_point s b) in *.
  set (dx' := vx b' ⊖ vx a') in *. set (dy' := vy b' ⊖ vy a') in *. set (dx := vx b ⊖ vx a) in *. set (dy := vy b ⊖ vy a) in *.
  set (mx' := (vx a' ⊕ vx b') ⊗ f32_of 1 (-1)) in *. set (my' := (vy a' ⊕ vy b') ⊗ f32_of 1 (-1)) in *.
  set (mx := (vx a ⊕ vx b) ⊗ f32_of 1 (-1)) in *. set (my := (vy a ⊕ vy b) ⊗ f32_of 1 (-1)) in *.
  clearbody mx my mx' my' dx dy dx' dy'. destruct s as [sw fx fy]; cbn [swap flip_x flip_y] in *. subst sw.
  unfold rel8 in R0, Rm. cbn [swap flip_x flip_y] in R0, Rm. destruct R0 as [R1 R2], Rm as [M1 M2].
  pose proof (eqs_div _ _ _ _ _ _ R2 R1 Zx) as Hs. pose proof (eqs_div _ _ _ _ _ _ (eqs_refl (Bopp (f32_Z 1))) Hs Zs) as Hp. rewrite xorb_false_l in Hp.
  set (sp' := Bopp (f32_Z 1) ⊘ (dy' ⊘ dx')) in *. set (sp := Bopp (f32_Z 1) ⊘ (dy ⊘ dx)) in *. clearbody sp sp'.
  assert (X : eqs fx (mx' ⊕ signed fx o) (mx ⊕ o)) by (apply eqs_add; [exact M1|apply eqs_signed]).
  split; cbn [swap flip_x flip_y]; [exact X|]. apply eqs_add.
  - replace fy with (xorb fx (xorb fy fx)) at 1 by (destruct fx, fy; reflexivity). now apply eqs_mul.
  - apply eqs_sub; [exact M2|]. replace fy with (xorb (xorb fy fx) fx) at 1 by (destruct fx, fy; reflexivity). now apply eqs_mul.
Qed.
End Sym.
