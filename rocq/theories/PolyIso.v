(** * The polygon code under affine maps (exact arithmetic) and under the half turn (f32). *)
From Coq Require Import ZArith Reals List Bool Lra Psatz Arith Lia.
From Flocq Require Import Core.Core IEEE754.BinarySingleNaN.
From Verif Require Import Scalar Utils Polygon PlaneSpec Laws F32 PolySpec PolyArea PolyF32 IsoSpec PolyMove SymF32 SymMove.
Import ListNotations.
Local Open Scope R_scope.

Lemma apart_nodup : forall A (vs : list A), NoDup vs ->
  forall i j a b, i <> j -> nth_error vs i = Some a -> nth_error vs j = Some b -> a <> b.
Proof.
  intros A vs N i j a b Nij Ha Hb E. subst b. apply Nij. eapply NoDup_nth_error; [exact N| |congruence].
  apply nth_error_Some. congruence.
Qed.

Section Affine.
Variables (a b c d e h : R).
Local Notation f := (affine a b c d e h).
Local Notation det := (a * d - b * c).

Lemma af_area2 : forall p q r : point, area2 (O := RO) (f p) (f q) (f r) = det * area2 (O := RO) p q r.
Proof. intros p q r. unfold area2, affine. cbn. ring. Qed.
Lemma af_area_loop : forall (p : point) l s, area_loop (O := RO) (f p) (map f l) (det * s) = det * area_loop (O := RO) p l s.
Proof.
  intros p l. induction l as [|q l IH]; intros s; [reflexivity|]. destruct l as [|r l]; [reflexivity|].
  change (area_loop (O := RO) (f p) (map f (q :: r :: l)) (det * s)) with
    (area_loop (O := RO) (f p) (map f (r :: l)) (det * s + area2 (O := RO) (f p) (f q) (f r))).
  change (area_loop (O := RO) p (q :: r :: l) s) with (area_loop (O := RO) p (r :: l) (s + area2 (O := RO) p q r)).
  rewrite <- IH, af_area2. f_equal. ring.
Qed.
Lemma af_area : forall vs : list point, area_poly2 (O := RO) (map f vs) = det * area_poly2 (O := RO) vs.
Proof.
  intros [|p vs]; [cbn; ring|]. change (area_loop (O := RO) (f p) (map f vs) 0 = det * area_loop (O := RO) p vs 0).
  rewrite <- af_area_loop. f_equal. ring.
Qed.

Lemma af_segment : det <> 0 -> forall p q x, on_segment (f p) (f q) (f x) <-> on_segment p q x.
Proof.
  intros D p q x. split; intros (t & Ht & E); exists t; (split; [exact Ht|]).
  - unfold along, affine in *. destruct p as [px py], q as [qx qy], x as [xx xy]; cbn [vx vy] in *. injection E as E1 E2.
    set (u := xx - (px + t * (qx - px))). set (v := xy - (py + t * (qy - py))).
    assert (F1 : a * u + b * v = 0) by (unfold u, v; lra). assert (F2 : c * u + d * v = 0) by (unfold u, v; lra).
    assert (G1 : det * u = 0) by (replace (det * u) with (d * (a * u + b * v) - b * (c * u + d * v)) by ring; rewrite F1, F2; ring).
    assert (G2 : det * v = 0) by (replace (det * v) with (a * (c * u + d * v) - c * (a * u + b * v)) by ring; rewrite F1, F2; ring).
    apply Rmult_integral in G1, G2. destruct G1 as [G1|G1]; [contradiction|]. destruct G2 as [G2|G2]; [contradiction|].
    unfold u in G1. unfold v in G2. f_equal; lra.
  - rewrite E. unfold along, affine; cbn [vx vy]. f_equal; ring.
Qed.
Lemma af_inj : det <> 0 -> forall p q, f p = f q -> p = q.
Proof.
  intros D p q E. destruct (proj1 (af_segment D q q p)) as (t & _ & ->).
  - rewrite E. exists 0. split; [lra|]. unfold along. destruct (f q) as [u v]; cbn [vx vy]. f_equal; ring.
  - unfold along. destruct q as [u v]; cbn [vx vy]. f_equal; ring.
Qed.

Context (D : 0 < det).

Lemma af_left : forall p q r, left (O := RO) (f p) (f q) (f r) = left (O := RO) p q r.
Proof.
  intros p q r. unfold left. rewrite af_area2. apply eq_true_iff_eq. cbn [olt c0 RO]. rewrite !Rltb_true.
  generalize (area2 (O := RO) p q r). intros x. cbn in x. split; intros H; nra.
Qed.
Lemma af_left_on : forall p q r, left_on (O := RO) (f p) (f q) (f r) = left_on (O := RO) p q r.
Proof.
  intros p q r. unfold left_on. rewrite af_area2. apply eq_true_iff_eq. cbn [ole c0 RO]. rewrite !Rleb_true.
  generalize (area2 (O := RO) p q r). intros x. cbn in x. split; intros H; nra.
Qed.
Lemma Reqb_iff : forall x y, Reqb x y = true <-> x = y.
Proof. intros x y. unfold Reqb. destruct (Req_EM_T x y); split; congruence. Qed.
Lemma af_collinear : forall p q r, collinear (O := RO) (f p) (f q) (f r) = collinear (O := RO) p q r.
Proof.
  intros p q r. unfold collinear. rewrite af_area2. apply eq_true_iff_eq. cbn [oeq c0 RO]. rewrite !Reqb_iff.
  generalize (area2 (O := RO) p q r). intros x. cbn in x. split; intros H; [|rewrite H; ring].
  apply Rmult_integral in H. destruct H; [lra|exact H].
Qed.
Lemma af_prop : forall p q r s, intersect_prop (O := RO) (f p) (f q) (f r) (f s) = intersect_prop (O := RO) p q r s.
Proof. intros. unfold intersect_prop. now rewrite !af_collinear, !af_left. Qed.
Lemma af_between : forall p q r, p <> q -> between (O := RO) (f p) (f q) (f r) = between (O := RO) p q r.
Proof.
  intros p q r N. apply eq_true_iff_eq. rewrite !between_iff; [|exact N|].
  - apply af_segment. lra.
  - intros E. apply N. apply af_inj; [lra|exact E].
Qed.
Lemma af_intersect : forall p q r s : point, p <> q -> r <> s ->
  intersect (O := RO) (f p) (f q) (f r) (f s) = intersect (O := RO) p q r s.
Proof. intros. unfold intersect. now rewrite af_prop, !af_between. Qed.
Lemma af_new_test : forall vs : list point, olt (area_poly2 (O := RO) (map f vs)) c0 = olt (area_poly2 (O := RO) vs) c0.
Proof.
  intros vs. rewrite af_area. apply eq_true_iff_eq. cbn [olt c0 RO]. rewrite !Rltb_true.
  generalize (area_poly2 (O := RO) vs). intros x. cbn in x. split; intros H; nra.
Qed.

Theorem af_triangulate : forall fuel (p : Polygon R), NoDup (vertices p) ->
  triangulate (O := RO) fuel (move_poly (O := RO) f p) = tri_moved (O := RO) f (triangulate (O := RO) fuel p).
Proof.
  intros fuel p N.
  rewrite (mp_triangulate (O := RO) f (fun x y : point => x <> y) af_left af_left_on (fun p q r s => af_intersect p q r s) af_new_test fuel p).
  - now destruct (triangulate (O := RO) fuel p) as [[ts|]|].
  - exact (apart_nodup _ _ N).
Qed.
Theorem af_new : forall vs : list point,
  polygon_new (O := RO) (map f vs) = option_map (move_poly (O := RO) f) (polygon_new (O := RO) vs).
Proof. exact (mp_new (O := RO) f af_new_test). Qed.
End Affine.

(** ** Mirror images are turned round by [Polygon::new] *)
Theorem af_mirror : forall a b c d e h, a * d - b * c < 0 -> forall (vs : list point) p,
  area_poly2 (O := RO) vs <> 0 -> polygon_new (O := RO) vs = Some p ->
  polygon_new (O := RO) (map (affine a b c d e h) vs) =
    Some (MkPolygon (rev (map (affine a b c d e h) (vertices p)))).
Proof.
  intros a b c d e h D vs p N H. unfold polygon_new in *. rewrite map_length. change (car RO) with R in *.
  destruct (Nat.ltb (length vs) 3); [discriminate|]. rewrite af_area. cbn [olt c0 RO] in *.
  revert N H. generalize (area_poly2 (O := RO) vs). intros x. cbn in x. intros N H.
  destruct (Rltb x 0) eqn:L; injection H as <-; cbn [vertices].
  - apply Rltb_true in L. rewrite (proj2 (Rltb_false _ _)) by (change (c0 : RO) with 0; nra).
    now rewrite map_rev, rev_involutive.
  - apply Rltb_false in L. change (c0 : RO) with 0 in L. rewrite (proj2 (Rltb_true _ _)) by (change (c0 : RO) with 0; nra).
    reflexivity.
Qed.

(** ** Scalings of the axes and translations, repeated vertices included *)
Section Axis.
Variables (a d e h : R).
Context (D : 0 < a * d).
Local Notation f := (affine a 0 0 d e h).
Lemma axis_det : 0 < a * d - 0 * 0. Proof. lra. Qed.

Lemma range_ok : forall s t x y z, s <> 0 ->
  (Rleb (s * x + t) (s * z + t) && Rleb (s * z + t) (s * y + t)) || (Rleb (s * z + t) (s * x + t) && Rleb (s * y + t) (s * z + t)) =
  (Rleb x z && Rleb z y) || (Rleb z x && Rleb y z).
Proof.
  intros s t x y z N. apply eq_true_iff_eq. rewrite !orb_true_iff, !andb_true_iff, !Rleb_true.
  destruct (Rlt_le_dec 0 s) as [P|P].
  - assert (K : forall u v, s * u + t <= s * v + t <-> u <= v) by (intros; split; intros; nra). rewrite !K. tauto.
  - assert (K : forall u v, s * u + t <= s * v + t <-> v <= u) by (intros; split; intros; nra). rewrite !K. tauto.
Qed.
Lemma axis_between : forall p q r, between (O := RO) (f p) (f q) (f r) = between (O := RO) p q r.
Proof.
  intros p q r. unfold between. rewrite (af_collinear a 0 0 d e h axis_det).
  destruct (negb (collinear (O := RO) p q r)); [reflexivity|].
  assert (Na : a <> 0) by (intros ->; lra). assert (Nd : d <> 0) by (intros ->; lra).
  assert (X : forall p : point, vx (f p) = a * vx p + e) by (intros z; unfold affine; cbn [vx]; ring).
  assert (Y : forall p : point, vy (f p) = d * vy p + h) by (intros z; unfold affine; cbn [vy]; ring).
  cbn [oeq ole RO]. change (car RO) with R in *. rewrite !X, !Y, !range_ok by assumption.
  assert (E : Reqb (a * vx p + e) (a * vx q + e) = Reqb (vx p) (vx q)).
  { apply eq_true_iff_eq. rewrite !Reqb_iff. split; [|now intros ->].
    intros H. apply (Rmult_eq_reg_l a); [lra|exact Na]. }
  rewrite E. reflexivity.
Qed.
Theorem axis_triangulate : forall fuel (p : Polygon R),
  triangulate (O := RO) fuel (move_poly (O := RO) f p) = tri_moved (O := RO) f (triangulate (O := RO) fuel p).
Proof.
  intros fuel p.
  rewrite (mp_triangulate (O := RO) f (fun _ _ => True) (af_left a 0 0 d e h axis_det) (af_left_on a 0 0 d e h axis_det)).
  - now destruct (triangulate (O := RO) fuel p) as [[ts|]|].
  - intros p' q r s _ _. unfold intersect. now rewrite (af_prop a 0 0 d e h axis_det), !axis_between.
  - exact (af_new_test a 0 0 d e h axis_det).
  - intros i j x y _ _ _. exact I.
Qed.
End Axis.

(** ** f32: the half turn *)
Section Half.
Variable lm : Libm.
Local Notation F := (FO lm).
Local Notation s := (Sym8 false true true).
Local Notation f := (sym_point s : Vec2 F -> Vec2 F).
Local Notation "x ⊕ y" := (Bplus mode_NE x y) (at level 50, left associativity).
Local Notation "x ⊖ y" := (Bminus mode_NE x y) (at level 50, left associativity).
Local Notation "x ⊗ y" := (Bmult mode_NE x y) (at level 40, left associativity).

Lemma turn_area2 : forall s8, odd8 s8 = false -> forall p q r : Vec2 f32,
  eqs false (area2 (O := F) (sym_point s8 p : Vec2 F) (sym_point s8 q : Vec2 F) (sym_point s8 r : Vec2 F)) (area2 (O := F) (p : Vec2 F) (q : Vec2 F) (r : Vec2 F)).
Proof.
  intros s8 O8 p q r. unfold area2. cbn [osub omul FO]. change (car F) with f32 in *.
  pose proof (rel8_sub s8 _ _ _ _ _ _ _ _ (rel8_point s8 q) (rel8_point s8 p)) as R0.
  pose proof (rel8_sub s8 _ _ _ _ _ _ _ _ (rel8_point s8 r) (rel8_point s8 p)) as R1.
  pose proof (rel8_cross s8 _ _ _ _ _ _ _ _ R0 R1) as C. rewrite O8 in C.
  rewrite (Bmult_comm (_ ⊖ _) (vy (sym_point s8 q) ⊖ vy (sym_point s8 p))) at 1.
  rewrite (Bmult_comm (vx r ⊖ vx p) (vy q ⊖ vy p)). exact C.
Qed.

Lemma opp_le : forall x y : f32, Bleb (Bopp x) (Bopp y) = Bleb y x.
Proof.
  intros x y. destruct (is_finite x) eqn:Fx, (is_finite y) eqn:Fy.
  - rewrite !Bleb_correct by (rewrite ?is_finite_Bopp; assumption). rewrite !B2R_Bopp.
    destruct (Rle_bool_spec (- B2R x) (- B2R y)), (Rle_bool_spec (B2R y) (B2R x)); try reflexivity; lra.
  - destruct x as [sx|sx| |sx mx ex Hx], y as [sy|sy| |sy my ey Hy]; try discriminate; try reflexivity; destruct sx, sy; reflexivity.
  - destruct x as [sx|sx| |sx mx ex Hx], y as [sy|sy| |sy my ey Hy]; try discriminate; try reflexivity; destruct sx, sy; reflexivity.
  - destruct x as [sx|sx| |sx mx ex Hx], y as [sy|sy| |sy my ey Hy]; try discriminate; try reflexivity; destruct sx, sy; reflexivity.
Qed.
Lemma opp_eq : forall x y : f32, Beqb (Bopp x) (Bopp y) = Beqb x y.
Proof.
  intros x y. destruct (is_finite x) eqn:Fx, (is_finite y) eqn:Fy.
  - rewrite !Beqb_correct by (rewrite ?is_finite_Bopp; assumption). rewrite !B2R_Bopp.
    destruct (Req_bool_spec (- B2R x) (- B2R y)), (Req_bool_spec (B2R x) (B2R y)); try reflexivity; lra.
  - destruct x as [sx|sx| |sx mx ex Hx], y as [sy|sy| |sy my ey Hy]; try discriminate; try reflexivity; destruct sx, sy; reflexivity.
  - destruct x as [sx|sx| |sx mx ex Hx], y as [sy|sy| |sy my ey Hy]; try discriminate; try reflexivity; destruct sx, sy; reflexivity.
  - destruct x as [sx|sx| |sx mx ex Hx], y as [sy|sy| |sy my ey Hy]; try discriminate; try reflexivity; destruct sx, sy; reflexivity.
Qed.
Lemma signed_opp : forall x, signed true x = signed false (Bopp x).
Proof. intros x. now rewrite opp_signed. Qed.
Lemma flip_le : forall x y : f32, Bleb (signed true x) (signed true y) = Bleb y x.
Proof. intros x y. rewrite !signed_opp, <- le_signed_l, <- le_signed_r. apply opp_le. Qed.
Lemma flip_eq : forall x y : f32, Beqb (signed true x) (signed true y) = Beqb x y.
Proof. intros x y. rewrite !signed_opp, <- eq_signed_l, <- eq_signed_r. apply opp_eq. Qed.

Section Turn.
Variable s8 : sym8.
Context (T8 : odd8 s8 = false).
Local Notation g := (sym_point s8 : Vec2 F -> Vec2 F).
Lemma turn_left : forall p q r : Vec2 F, left (g p) (g q) (g r) = left p q r.
Proof. intros p q r. unfold left. cbn [olt c0 FO]. apply eqs_lt; [apply eqs_refl|now apply turn_area2]. Qed.
Lemma turn_left_on : forall p q r : Vec2 F, left_on (g p) (g q) (g r) = left_on p q r.
Proof. intros p q r. unfold left_on. cbn [ole c0 FO]. apply eqs_le; [apply eqs_refl|now apply turn_area2]. Qed.
Lemma turn_collinear : forall p q r : Vec2 F, collinear (g p) (g q) (g r) = collinear p q r.
Proof. intros p q r. unfold collinear. cbn [oeq c0 FO]. apply eqs_eq; [now apply turn_area2|apply eqs_refl]. Qed.
Lemma turn_prop : forall p q r t : Vec2 F, intersect_prop (g p) (g q) (g r) (g t) = intersect_prop p q r t.
Proof. intros. unfold intersect_prop. now rewrite !turn_collinear, !turn_left. Qed.
End Turn.

(** Signed areas under all eight symmetries. *)
Lemma sym_area2 : forall s8 (p q r : Vec2 F),
  eqs (odd8 s8) (area2 (O := F) (sym_point s8 p : Vec2 F) (sym_point s8 q : Vec2 F) (sym_point s8 r : Vec2 F)) (area2 (O := F) p q r).
Proof.
  intros s8 p q r. unfold area2. cbn [osub omul FO]. change (car F) with f32 in *.
  pose proof (rel8_sub s8 _ _ _ _ _ _ _ _ (rel8_point s8 q) (rel8_point s8 p)) as R0.
  pose proof (rel8_sub s8 _ _ _ _ _ _ _ _ (rel8_point s8 r) (rel8_point s8 p)) as R1.
  pose proof (rel8_cross s8 _ _ _ _ _ _ _ _ R0 R1) as C.
  rewrite (Bmult_comm (_ ⊖ _) (vy (sym_point s8 q) ⊖ vy (sym_point s8 p))) at 1.
  rewrite (Bmult_comm (vx r ⊖ vx p) (vy q ⊖ vy p)). exact C.
Qed.
Lemma sym_area_loop : forall s8 (p : Vec2 F) l t' t, eqs (odd8 s8) t' t ->
  eqs (odd8 s8) (area_loop (O := F) (sym_point s8 p : Vec2 F) (map (sym_point s8 : Vec2 F -> Vec2 F) l) t') (area_loop (O := F) p l t).
Proof.
  intros s8 p l. induction l as [|q l IH]; intros t' t H; [exact H|]. destruct l as [|r l]; [exact H|].
  cbn [area_loop map] in *. apply IH. cbn [oadd FO]. apply eqs_add; [exact H|apply sym_area2].
Qed.
Lemma sym_area : forall s8 (vs : list (Vec2 F)),
  eqs (odd8 s8) (area_poly2 (O := F) (map (sym_point s8 : Vec2 F -> Vec2 F) vs)) (area_poly2 (O := F) vs).
Proof.
  assert (Z : forall b, eqs b (f32_Z 0) (f32_Z 0)) by (intros [|]; reflexivity).
  intros s8 [|p vs]; [apply Z|]. cbn [area_poly2 map]. apply sym_area_loop. apply Z.
Qed.
Lemma eqs_abs : forall b x y, eqs b x y -> Babs x = Babs y.
Proof.
  intros b x y H. unfold eqs in H. destruct x as [sx|sx| |sx mx ex Hx], y as [sy|sy| |sy my ey Hy], b; cbn [signed Bopp] in H;
    try discriminate; try reflexivity; injection H; intros; subst; cbn [Babs]; apply B2SF_inj; reflexivity.
Qed.
Theorem sym_polygon_area : forall s8 (p : Polygon F),
  polygon_area (move_poly (sym_point s8 : Vec2 F -> Vec2 F) p) = polygon_area p.
Proof.
  intros s8 p. unfold polygon_area. cbn [omul oabs FO move_poly vertices]. f_equal. eapply eqs_abs. apply sym_area.
Qed.

Lemma turn_test : forall s8, odd8 s8 = false -> forall vs : list (Vec2 F),
  olt (area_poly2 (O := F) (map (sym_point s8 : Vec2 F -> Vec2 F) vs)) c0 = olt (area_poly2 (O := F) vs) c0.
Proof.
  intros s8 T8 vs. cbn [olt c0 FO]. apply eqs_lt; [|apply eqs_refl]. pose proof (sym_area s8 vs) as E. now rewrite T8 in E.
Qed.
Theorem turn_new : forall s8, odd8 s8 = false -> forall vs : list (Vec2 F),
  polygon_new (map (sym_point s8 : Vec2 F -> Vec2 F) vs) = option_map (move_poly (sym_point s8 : Vec2 F -> Vec2 F)) (polygon_new vs).
Proof. intros s8 T8. apply mp_new. now apply turn_test. Qed.

Lemma half_between : forall p q r : Vec2 F, between (f p) (f q) (f r) = between p q r.
Proof.
  intros p q r. unfold between. rewrite (turn_collinear s eq_refl). destruct (negb (collinear p q r)); [reflexivity|].
  unfold sym_point. cbn [swap flip_x flip_y vx vy oeq ole FO]. rewrite flip_eq, !flip_le.
  change (car F) with f32 in *.
  destruct (negb (Beqb (vx p) (vx q))); apply orb_comm.
Qed.
Theorem half_triangulate : forall fuel (p : Polygon F),
  triangulate fuel (move_poly f p) = tri_moved f (triangulate fuel p).
Proof.
  intros fuel p.
  rewrite (mp_triangulate f (fun _ _ => True) (turn_left s eq_refl) (turn_left_on s eq_refl)).
  - now destruct (triangulate fuel p) as [[ts|]|].
  - intros a b c d _ _. unfold intersect. now rewrite (turn_prop s eq_refl), !half_between.
  - exact (turn_test s eq_refl).
  - intros i j x y _ _ _. exact I.
Qed.
End Half.

(** ** f32: quarter turns on the grid, where the predicates are exact *)
Lemma signed_real : forall b x, is_finite (signed b x) = is_finite x /\ B2R (signed b x) = if b then - B2R x else B2R x.
Proof.
  intros b x. assert (Z : forall t, B2R (B754_zero t : f32) = 0) by reflexivity.
  destruct x as [s|s| |s m e H], b; cbn [signed]; (split; [try apply is_finite_Bopp; reflexivity|]);
    rewrite ?B2R_Bopp, ?Z; try reflexivity; lra.
Qed.
Lemma grid_signed : forall e b x, grid_num e x -> grid_num e (signed b x).
Proof.
  intros e b x (F & k & Hk & E). destruct (signed_real b x) as [S1 S2]. split; [now rewrite S1|].
  destruct b; [exists (- k)%Z|exists k]; (split; [lia|]); rewrite S2, E; [rewrite opp_IZR; ring|reflexivity].
Qed.
Lemma grid_sym : forall e s8 p, grid e p -> grid e (sym_point s8 p).
Proof.
  intros e [[|] fx fy] p [H1 H2]; split; unfold sym_point; cbn [swap flip_x flip_y vx vy]; now apply grid_signed.
Qed.
Definition sgn (b : bool) : R := if b then -1 else 1.
Lemma sym_real : forall s8 (p : Vec2 f32), toR (sym_point s8 p) =
  (if swap s8 then affine 0 (sgn (flip_x s8)) (sgn (flip_y s8)) 0 0 0 else affine (sgn (flip_x s8)) 0 0 (sgn (flip_y s8)) 0 0) (toR p).
Proof.
  intros [[|] fx fy] p; unfold toR, sym_point, affine, sgn; cbn [swap flip_x flip_y vx vy];
    rewrite !(proj2 (signed_real _ _)); destruct fx, fy; f_equal; ring.
Qed.

Section Quarter.
Variables (lm : Libm) (e : Z).
Context (He : (-74 <= e <= 51)%Z) (s8 : sym8) (T8 : odd8 s8 = false).
Local Notation F := (FO lm).
Local Notation g := (sym_point s8 : Vec2 F -> Vec2 F).
Lemma turn_between : forall p q r : Vec2 F, grid e p -> grid e q -> grid e r -> toR p <> toR q ->
  between (g p) (g q) (g r) = between p q r.
Proof.
  intros p q r Gp Gq Gr N. rewrite !(between_exact lm e He) by (try assumption; now apply grid_sym).
  change (between (O := RO) (toR (sym_point s8 p)) (toR (sym_point s8 q)) (toR (sym_point s8 r)) = between (O := RO) (toR p) (toR q) (toR r)).
  rewrite !sym_real. destruct s8 as [[|] [|] [|]]; try discriminate; cbn [swap flip_x flip_y sgn]; apply af_between; try lra; exact N.
Qed.
Theorem turn_triangulate : forall fuel (p : Polygon F), Forall (grid e) (vertices p) -> NoDup (map toR (vertices p)) ->
  triangulate fuel (move_poly g p) = tri_moved g (triangulate fuel p).
Proof.
  intros fuel p G N.
  rewrite (mp_triangulate g (fun a b => grid e a /\ grid e b /\ toR a <> toR b) (turn_left lm s8 T8) (turn_left_on lm s8 T8)).
  - now destruct (triangulate fuel p) as [[ts|]|].
  - intros a b c d (Ga & Gb & Nab) (Gc & Gd & Ncd). unfold intersect. rewrite (turn_prop lm s8 T8), !turn_between; auto.
  - exact (turn_test lm s8 T8).
  - intros i j a b Nij Ha Hb. rewrite Forall_forall in G.
    split; [apply G; eapply nth_error_In; exact Ha|]. split; [apply G; eapply nth_error_In; exact Hb|].
    apply (apart_nodup _ _ N i j); [exact Nij|exact (map_nth_error toR i _ Ha)|exact (map_nth_error toR j _ Hb)].
Qed.
End Quarter.
Lemma turns_even : forall s8, turns s8 = true <-> odd8 s8 = false.
Proof. intros [[|] [|] [|]]; cbn; split; congruence. Qed.
